(** Properties C15 and C42, and the real-number parts of C39 and C44: norms, lengths, polar form.
    Scalars are the real numbers: exact arithmetic. *)
From Coq Require Import Reals Lra Psatz.
From Verif Require Import SpecFacts VecProofs MatProofs AlgFacts CxFacts RealInst RealFacts PropComplex.
Set Implicit Arguments.
Local Open Scope R_scope.
Local Open Scope list_scope.

(* ------------------------------------------------------------------------- *)
(** * C15: norms                                                               *)

(** A norm on the values satisfying [P], for the given addition, scaling and zero: never fails,
    non-negative, zero only at zero, absolutely homogeneous, triangle inequality. *)
Definition is_norm {V : Type} (P : V -> Prop) (add : V -> V -> res V) (scale : V -> R -> res V) (zero : res V)
  (nrm : V -> res R) : Prop :=
  forall u v s, P u -> P v -> exists x y, nrm u = Ok x /\ nrm v = Ok y /\
    0 <= x /\ (x = 0 <-> zero = Ok u) /\
    (let! w := scale u s in nrm w) = Ok (Rabs s * x) /\
    (exists w z, add u v = Ok w /\ nrm w = Ok z /\ z <= x + y).
Definition vector_norm (N : nat) : (list R -> res R) -> Prop :=
  is_norm (fun v => length v = N) (v_add r_ops N) (v_smul r_ops) (v_zero r_ops N).
Definition matrix_norm (M N : nat) : (list (list R) -> res R) -> Prop :=
  is_norm (rect M N) (m_add r_ops M N) (m_smul r_ops) (m_zero r_ops M N).

(** The components' [norm_l1] and [norm_l_inf] are absolute values (traits.rs). *)
Definition l1 := v_norm_l1 r_ops (ok1 Rabs).
Definition l2 := v_norm_l2 r_ops sqrt.
Definition linf := v_norm_l_inf r_ops (ok1 Rabs).
Definition ml1 := m_norm_l1 r_ops (ok1 Rabs).
Definition ml2 := m_norm_l2 r_ops sqrt.
Definition mlinf := m_norm_l_inf r_ops (ok1 Rabs).

Lemma zero_vk : forall N f, Ok (vk N (fun _ => 0)) = Ok (vk N f) <-> (forall i, (i < N)%nat -> f i = 0).
Proof.
  intros. split.
  - intros E i Hi. apply Ok_inj in E. apply (f_equal (fun l => nth i l 0)) in E. rewrite !nth_vk in E by auto. auto.
  - intros H. f_equal. apply vk_ext. intros. symmetry. auto.
Qed.

Ltac vnorm := intros N HN u v s Lu Lv; asfun r_ops.

Theorem C15_l1_norm : forall N, (0 < N)%nat -> vector_norm N l1.
Proof.
  vnorm. unfold l1. do 2 eexists. ops r_ring. rewrite !rv_norm_l1 by auto. do 2 (split; [reflexivity|]).
  assert (P : forall f i, (i < N)%nat -> 0 <= (fun i => Rabs (f i)) i) by (intros; apply Rabs_pos).
  split; [|split; [|split]].
  - apply rsum_nonneg. apply P.
  - rewrite (zero_vk N f0). split; intros H.
    + intros i Hi. pose proof (@rsum_zero N _ (P f0) H i Hi) as Q. cbv beta in Q.
      destruct (Req_dec (f0 i) 0); auto. apply Rabs_no_R0 in H0. contradiction.
    + rewrite (@rsum_ext N _ (fun _ => 0)). { apply rsum_const0. } intros. rewrite H by auto. apply Rabs_R0.
  - f_equal. rewrite <- rsum_mul_l. apply rsum_ext. intros. cbn. rewrite Rabs_mult. ring.
  - do 2 eexists. split; [reflexivity|]. split; [apply rv_norm_l1; auto|]. rewrite <- rsum_add. apply rsum_le. intros. apply Rabs_triang.
Qed.

Theorem C15_l2_norm : forall N, (0 < N)%nat -> vector_norm N l2.
Proof.
  vnorm. unfold l2. do 2 eexists. ops r_ring. rewrite !rv_norm_l2 by auto. do 2 (split; [reflexivity|]).
  split; [|split; [|split]].
  - apply sqrt_pos.
  - rewrite (zero_vk N f0). apply sqrt_sum_zero.
  - f_equal. rewrite <- (sqrt_Rsqr_abs s). unfold Rsqr. rewrite <- sqrt_mult_alt by apply sqpos. f_equal.
    rewrite <- rsum_mul_l. apply rsum_ext. intros. cbn. ring.
  - do 2 eexists. split; [reflexivity|]. split; [apply rv_norm_l2; auto|].
    set (A := rsum N (fun i => f0 i * f0 i)). set (B := rsum N (fun i => f i * f i)). set (S := rsum N (fun i => f0 i * f i)).
    assert (HA : 0 <= A) by (apply rsum_nonneg; intros; apply sqpos).
    assert (HB : 0 <= B) by (apply rsum_nonneg; intros; apply sqpos).
    assert (EQ : rsum N (fun i => r_add r_ring (f0 i) (f i) * r_add r_ring (f0 i) (f i)) = A + 2 * S + B).
    { unfold A, B, S. rewrite <- rsum_mul_l, <- !rsum_add. apply rsum_ext. intros. cbn. ring. }
    assert (C : S <= sqrt A * sqrt B).
    { pose proof (cauchy N f0 f) as C. fold A in C. fold B in C. fold S in C. rewrite <- sqrt_mult_alt by auto.
      apply Rle_trans with (Rabs S). { apply RRle_abs. } rewrite <- sqrt_Rsqr_abs. apply sqrt_le_1_alt. auto. }
    pose proof (sqrt_pos A). pose proof (sqrt_pos B).
    apply Rsqr_incr_0_var; [|lra].
    assert (HQ : 0 <= A + 2 * S + B).
    { unfold A, B, S. rewrite <- rsum_mul_l, <- !rsum_add. apply rsum_nonneg. intros i _.
      pose proof (sqpos (f0 i + f i)). lra. }
    rewrite EQ, (Rsqr_sqrt _ HQ). unfold Rsqr. pose proof (sqrt_sqrt A HA). pose proof (sqrt_sqrt B HB). nra.
Qed.

Theorem C15_l_inf_norm : forall N, (0 < N)%nat -> vector_norm N linf.
Proof.
  vnorm. unfold linf.
  destruct (rv_norm_l_inf f0 HN) as (x & Ex & (kx & Kx & Ax) & Ux). destruct (rv_norm_l_inf f HN) as (y & Ey & _ & Uy).
  destruct (rv_norm_l_inf (fun i => r_mul r_ring (f0 i) s) HN) as (z & Ez & (kz & Kz & Az) & Uz).
  destruct (rv_norm_l_inf (fun i => r_add r_ring (f0 i) (f i)) HN) as (w & Ew & (kw & Kw & Aw) & Uw).
  exists x, y. ops r_ring. repeat (split; auto).
  - rewrite Ax. apply Rabs_pos.
  - rewrite zero_vk. intros H i Hi. specialize (Ux i Hi). rewrite H in Ux. pose proof (Rabs_pos (f0 i)).
    destruct (Req_dec (f0 i) 0) as [|Q]; auto. apply Rabs_no_R0 in Q. lra.
  - rewrite zero_vk. intros H. rewrite Ax, H by auto. apply Rabs_R0.
  - rewrite Ez. f_equal. apply Rle_antisym.
    + rewrite Az. cbn. rewrite Rabs_mult, Rmult_comm. apply Rmult_le_compat_l; auto. apply Rabs_pos.
    + specialize (Uz kx Kx). cbn in Uz. rewrite Rabs_mult, <- Ax in Uz. lra.
  - do 2 eexists. split; [reflexivity|]. split; [exact Ew|]. rewrite Aw. cbn.
    pose proof (Rabs_triang (f0 kw) (f kw)). specialize (Ux kw Kw). specialize (Uy kw Kw). lra.
Qed.

(** The values, in terms of the components. *)
Theorem C15_values : forall N v, length v = N -> (0 < N)%nat ->
  l1 v = Ok (bigsum r_ring N (fun i => Rabs (nth i v 0))) /\
  l2 v = Ok (sqrt (bigsum r_ring N (fun i => nth i v 0 * nth i v 0))) /\
  (exists m, linf v = Ok m /\ (exists k, (k < N)%nat /\ m = Rabs (nth k v 0)) /\
     forall i, (i < N)%nat -> Rabs (nth i v 0) <= m) /\
  v_length r_ops sqrt v = l2 v /\
  (let! n := l2 v in Ok (n * n)) = v_norm_l2_sqr r_ops v.
Proof.
  intros N v L HN. pose proof (@vk_of _ N v 0 L) as E. set (f := fun i => nth i v 0) in *.
  unfold l1, l2, linf. repeat split; auto.
  - rewrite E at 1. apply rv_norm_l1. auto.
  - rewrite E at 1. apply rv_norm_l2. auto.
  - destruct (rv_norm_l_inf f HN) as (m & Em & Hm). rewrite <- E in Em. eauto.
  - transitivity (let! n := v_norm_l2 r_ops sqrt (vk N f) in Ok (n * n)). { rewrite <- E. reflexivity. }
    rewrite rv_norm_l2 by auto. cbn [bind]. rewrite sqrt_sqrt. 2: { apply rsum_nonneg. intros. apply sqpos. }
    rewrite E. symmetry. apply (@rv_square_length N f HN).
Qed.

Theorem C15_cauchy_schwarz : forall N u v, length u = N -> length v = N -> (0 < N)%nat ->
  exists d x y, v_dot r_ops N u v = Ok d /\ l2 u = Ok x /\ l2 v = Ok y /\ Rabs d <= x * y.
Proof.
  intros. asfun r_ops. unfold l2. ops r_ring. rewrite !rv_norm_l2 by auto. do 3 eexists. repeat (split; [reflexivity|]).
  pose proof (cauchy N f0 f) as C. rewrite <- sqrt_mult_alt by (apply rsum_nonneg; intros; apply sqpos).
  rewrite <- sqrt_Rsqr_abs. apply sqrt_le_1_alt. exact C.
Qed.

Theorem C15_comparison : forall N v, length v = N -> (0 < N)%nat ->
  exists a b c, linf v = Ok a /\ l2 v = Ok b /\ l1 v = Ok c /\ a <= b <= c /\ c <= INR N * a.
Proof.
  intros N v L HN. asfun r_ops. unfold l1, l2, linf. rewrite rv_norm_l1, rv_norm_l2 by auto.
  destruct (rv_norm_l_inf f HN) as (m & E & (k & K & Am) & U). rewrite E. do 3 eexists. repeat (split; [reflexivity|]).
  split; [split|].
  - rewrite Am. rewrite <- sqrt_Rsqr_abs. apply sqrt_le_1_alt. unfold Rsqr.
    apply (@rsum_term_le N (fun i => f i * f i)); auto. intros. apply sqpos.
  - assert (P : 0 <= rsum N (fun i => Rabs (f i))) by (apply rsum_nonneg; intros; apply Rabs_pos).
    rewrite <- (sqrt_Rsqr _ P). apply sqrt_le_1_alt. apply sq_sum_le.
  - clear - U. induction N. { cbn. lra. }
    rewrite rsum_S, S_INR. specialize (IHN (fun i Hi => U i (Nat.lt_lt_succ_r _ _ Hi))). specialize (U N (Nat.lt_succ_diag_r N)). lra.
Qed.

(** [normalize] returns a positive multiple of length one; it divides by zero exactly at zero. *)
Theorem C15_normalize : forall N v, length v = N -> (0 < N)%nat -> v_zero r_ops N <> Ok v ->
  exists u k, v_normalize r_ops sqrt v = Ok u /\ v_length r_ops sqrt u = Ok 1 /\
    0 < k /\ v_smul r_ops v k = Ok u.
Proof.
  intros N v L HN NZ. asfun r_ops. ops r_ring. rewrite v_zero_vk, (zero_vk N f), <- sqrt_sum_zero in NZ.
  rewrite rv_normalize by auto. set (n := sqrt (rsum N (fun i => f i * f i))) in *.
  assert (Hn : 0 < n). { pose proof (sqrt_pos (rsum N (fun i => f i * f i))). fold n in H. lra. }
  exists (vk N (fun i => f i / n)), (/ n). split; [reflexivity|]. split; [|split].
  - rewrite rv_length by auto. f_equal.
    rewrite (@rsum_ext N _ (fun i => (/ n * / n) * (f i * f i))) by (intros; field; lra). rewrite rsum_mul_l.
    replace (rsum N (fun i => f i * f i)) with (n * n).
    + replace (/ n * / n * (n * n)) with 1 by (field; lra). apply sqrt_1.
    + unfold n. apply sqrt_sqrt. apply rsum_nonneg. intros. apply sqpos.
  - apply Rinv_0_lt_compat. auto.
  - rewrite (v_smul_vk r_ring). reflexivity.
Qed.

(** The same norms on matrices. *)
Lemma flat_norms : forall M N m, rect M N m -> (0 < M)%nat -> (0 < N)%nat ->
  ml1 m = l1 (concat m) /\ ml2 m = l2 (concat m) /\ mlinf m = linf (concat m).
Proof.
  intros M N m Rm HM HN.
  assert (X : forall f : R -> R, exists w, m_map (ok1 f) m = Ok w /\ rect M N w /\ v_map (ok1 f) (concat m) = Ok (concat w)).
  { intros f. exists (map (map f) m). rewrite m_map_pure, v_map_pure, concat_map. split; auto. split; auto. apply rect_map. auto. }
  unfold ml1, ml2, mlinf, l1, l2, linf, m_norm_l1, m_norm_l2, m_norm_l2_sqr, m_norm_l_inf, v_norm_l1, v_norm_l2, v_norm_l2_sqr, v_norm_l_inf.
  destruct (X Rabs) as (w & E1 & Rw & E2). rewrite E1, E2. cbn [bind].
  change (fun x => o_mul r_ops x x) with (ok1 (fun x => x * x)).
  destruct (X (fun x => x * x)) as (w' & E1' & Rw' & E2'). rewrite E1', E2'. cbn [bind].
  unfold m_sum, m_max. rewrite !(@m_fold_first_flat _ _ M N w) by auto. rewrite (@m_fold_first_flat _ _ M N w') by auto. auto.
Qed.

Lemma matrix_of_vector : forall M N nv nm, (0 < M)%nat -> (0 < N)%nat ->
  (forall m, rect M N m -> nm m = nv (concat m)) -> vector_norm (M * N) nv -> matrix_norm M N nm.
Proof.
  intros M N nv nm HM HN F V a b s Ra Rb.
  specialize (V (concat a) (concat b) s (rect_concat_length Ra) (rect_concat_length Rb)).
  destruct V as (x & y & Ex & Ey & P & Z & S & (w & z & Ew & Ez & T)).
  exists x, y. rewrite !F by auto. split; auto. split; auto. split; auto. split; [|split].
  - rewrite Z. rewrite v_zero_repeat, m_zero_mk. rewrite (mk_of 0 Ra).
    assert (C0 : concat (mk M N (fun _ _ => 0)) = repeat 0 (M * N)).
    { clear. unfold mk. induction M; auto. rewrite vk_S. cbn [concat Nat.mul]. rewrite IHM, repeat_app, !repeat_vk. reflexivity. }
    cbn. rewrite <- C0. split; intros E; apply Ok_inj in E; f_equal.
    + rewrite <- (mk_of 0 Ra). rewrite <- (mk_of 0 Ra) in E. rewrite <- (chunk_concat (rect_mk M N (fun _ _ => 0))), E. apply chunk_concat. auto.
    + rewrite <- (mk_of 0 Ra) in *. rewrite <- E. reflexivity.
  - revert S. unfold v_smul, m_smul. change (fun x0 => o_mul r_ops x0 s) with (ok1 (fun x0 => x0 * s)).
    rewrite m_map_pure, v_map_pure. cbn [bind]. rewrite F by (apply rect_map; auto). rewrite concat_map. auto.
  - pose proof (m_zip_map_flat (o_add r_ops) Ra Rb) as Fl. unfold m_add. unfold v_add in Ew.
    rewrite v_zip_map_res in Ew by (rewrite !rect_concat_length with (1 := Ra) || idtac; eauto using rect_concat_length).
    rewrite Fl, Ew. cbn [bind]. do 2 eexists. split; [reflexivity|].
    assert (Lw : length w = (M * N)%nat).
    { rewrite <- (rect_concat_length Ra). apply (map2_res_length _ _ _ (eq_trans (rect_concat_length Ra) (eq_sym (rect_concat_length Rb))) Ew). }
    rewrite F by (apply chunk_rect; auto). rewrite concat_chunk by auto. eauto.
Qed.

Theorem C15_matrix_norms : forall M N, (0 < M)%nat -> (0 < N)%nat ->
  matrix_norm M N ml1 /\ matrix_norm M N ml2 /\ matrix_norm M N mlinf.
Proof.
  intros M N HM HN. assert (P : (0 < M * N)%nat) by lia. repeat split;
    [apply (@matrix_of_vector M N l1)|apply (@matrix_of_vector M N l2)|apply (@matrix_of_vector M N linf)]; auto;
    try (intros m Rm; apply (flat_norms Rm HM HN)).
  - apply C15_l1_norm; auto.
  - apply C15_l2_norm; auto.
  - apply C15_l_inf_norm; auto.
Qed.

Example C15_ex : l1 [3; -4] = Ok 7 /\ l2 [3; -4] = Ok 5 /\ linf [3; -4] = Ok 4 /\ v_zero r_ops 2 <> Ok [3; -4].
Proof.
  pose proof (@C15_values 2 [3; -4] eq_refl ltac:(lia)) as (A & B & (m & C & (k & K & M) & U) & _).
  rewrite A, B, C. cbn [bigsum nth]. cbn.
  assert (A3 : Rabs 3 = 3) by (unfold Rabs; destruct (Rcase_abs 3); lra).
  assert (A4 : Rabs (-4) = 4) by (unfold Rabs; destruct (Rcase_abs (-4)); lra).
  rewrite A3, A4.
  split; [f_equal; lra|]. split. { f_equal. apply sqrt_lem_1; lra. } split.
  - f_equal. pose proof (U 1%nat ltac:(lia)) as U1. cbn in U1. pose proof (U 0%nat ltac:(lia)) as U0. cbn in U0.
    rewrite A4 in U1. destruct k as [|[|]]; [| |lia]; cbn in M; lra.
  - intros E. vm_compute in E. apply Ok_inj in E. apply (f_equal (fun l => nth 0 l 0)) in E. cbn in E. lra.
Qed.

(* ------------------------------------------------------------------------- *)
(** * C39, C44 over the reals                                                  *)

Lemma c_norm_v : forall eps z, c_norm r_ops (r_float eps) z = Ok (sqrt (re z * re z + im z * im z)).
Proof. intros. unfold c_norm, v_length, c_into_vector. rewrite (v_square_length_2 r_ring). reflexivity. Qed.
Lemma q_norm_v : forall eps q, q_norm r_ops (r_float eps) q =
  Ok (sqrt (qw q * qw q + qx q * qx q + qy q * qy q + qz q * qz q)).
Proof. intros. unfold q_norm, v_length, q_into_vector. rewrite (v_square_length_4 r_ring). reflexivity. Qed.

Theorem C39_norm_real : forall eps x y, exists a b c, let F := r_float eps in
  c_norm r_ops F x = Ok a /\ c_norm r_ops F y = Ok b /\ (let! p := c_mul r_ops x y in c_norm r_ops F p) = Ok (a * b) /\
  0 <= a /\ (a = 0 <-> x = Cx 0 0) /\ c_norm_sqr r_ops x = Ok (a * a) /\
  (let! s := c_add r_ops x y in c_norm r_ops F s) = Ok c /\ c <= a + b /\
  (let! k := c_conj r_ops x in c_norm r_ops F k) = Ok a.
Proof.
  intros eps [a b] [c d]. cbv zeta. rewrite (c_mul_v r_ring), (c_add_v r_ring), (c_conj_v r_ring), (c_norm_sqr_v r_ring).
  cbn [bind]. rewrite !c_norm_v. cbn. do 3 eexists. split; [reflexivity|]. split; [reflexivity|].
  assert (PA : 0 <= a * a + b * b) by nra. assert (PB : 0 <= c * c + d * d) by nra.
  repeat split.
  - f_equal. rewrite <- sqrt_mult_alt by auto. f_equal. ring.
  - apply sqrt_pos.
  - intros E. apply sqrt_eq_0 in E; auto. f_equal; nra.
  - intros E. injection E as -> ->. replace (0 * 0 + 0 * 0) with 0 by ring. apply sqrt_0.
  - f_equal. rewrite sqrt_sqrt; auto.
  - destruct (@C15_l2_norm 2 ltac:(lia) [a; b] [c; d] 0 eq_refl eq_refl) as (x & y & Ex & Ey & _ & _ & _ & (w & z & Ew & Ez & Q)).
    rewrite (v_add_2 r_ring) in Ew. apply Ok_inj in Ew. subst w. unfold l2, v_norm_l2, v_norm_l2_sqr in Ex, Ey, Ez.
    fold (v_square_length r_ops [a; b]) in Ex. fold (v_square_length r_ops [c; d]) in Ey.
    match type of Ez with context [v_map _ ?v] => fold (v_square_length r_ops v) in Ez end.
    rewrite (v_square_length_2 r_ring) in Ex, Ey, Ez. apply Ok_inj in Ex, Ey, Ez. subst. exact Q.
  - f_equal. f_equal. ring.
Qed.
Theorem C39_normalize_real : forall eps z, z <> Cx 0 0 -> exists u k, let F := r_float eps in
  c_normalize r_ops F z = Ok u /\ c_norm r_ops F u = Ok 1 /\ 0 < k /\ c_mul_s r_ops z k = Ok u.
Proof.
  intros eps [a b] NZ. cbv zeta. unfold c_normalize. rewrite c_norm_v. cbn [bind re im].
  assert (P : 0 < a * a + b * b).
  { destruct (Req_dec a 0) as [->|]; [|nra]. destruct (Req_dec b 0) as [->|]; [contradiction NZ; auto|nra]. }
  pose proof (sqrt_lt_R0 _ P) as S. set (n := sqrt (a * a + b * b)) in *.
  rewrite (c_div_s_v r_field) by (cbn; lra). exists (Cx (a / n) (b / n)), (/ n). split; [reflexivity|].
  split; [|split].
  - rewrite c_norm_v. f_equal. cbn. replace (a / n * (a / n) + b / n * (b / n)) with ((a * a + b * b) * (/ n * / n)) by (field; lra).
    replace (a * a + b * b) with (n * n) by (unfold n; apply sqrt_sqrt; lra).
    replace (n * n * (/ n * / n)) with 1 by (field; lra). apply sqrt_1.
  - apply Rinv_0_lt_compat. auto.
  - rewrite (c_mul_s_v r_ring). reflexivity.
Qed.

Theorem C44_norm_real : forall eps x y, exists a b, let F := r_float eps in
  q_norm r_ops F x = Ok a /\ q_norm r_ops F y = Ok b /\ (let! p := q_mul r_ops x y in q_norm r_ops F p) = Ok (a * b) /\
  0 <= a /\ (a = 0 <-> x = Qt 0 0 0 0) /\ q_norm_sqr r_ops x = Ok (a * a) /\
  (let! k := q_conj r_ops x in q_norm r_ops F k) = Ok a.
Proof.
  intros eps [a b c d] [e f g h]. cbv zeta. rewrite (q_mul_v r_ring), (q_conj_v r_ring), (q_norm_sqr_v r_ring).
  cbn [bind]. rewrite !q_norm_v. cbn. do 2 eexists. split; [reflexivity|]. split; [reflexivity|].
  assert (PA : 0 <= a * a + b * b + c * c + d * d) by nra.
  repeat split.
  - f_equal. rewrite <- sqrt_mult_alt by auto. f_equal. ring.
  - apply sqrt_pos.
  - intros E. apply sqrt_eq_0 in E; auto. f_equal; nra.
  - intros E. injection E as -> -> -> ->. replace (0 * 0 + 0 * 0 + 0 * 0 + 0 * 0) with 0 by ring. apply sqrt_0.
  - f_equal. rewrite sqrt_sqrt; auto.
  - f_equal. f_equal. ring.
Qed.
Theorem C44_normalize_real : forall eps z, z <> Qt 0 0 0 0 -> exists u k, let F := r_float eps in
  q_normalize r_ops F z = Ok u /\ q_norm r_ops F u = Ok 1 /\ 0 < k /\ q_mul_s r_ops z k = Ok u.
Proof.
  intros eps [a b c d] NZ. cbv zeta. unfold q_normalize. rewrite q_norm_v. cbn [bind qw qx qy qz].
  assert (P : 0 < a * a + b * b + c * c + d * d).
  { destruct (Req_dec a 0) as [->|]; [|nra]. destruct (Req_dec b 0) as [->|]; [|nra].
    destruct (Req_dec c 0) as [->|]; [|nra]. destruct (Req_dec d 0) as [->|]; [contradiction NZ; auto|nra]. }
  pose proof (sqrt_lt_R0 _ P) as S. set (n := sqrt (a * a + b * b + c * c + d * d)) in *.
  rewrite (q_div_s_v r_field) by (cbn; lra). exists (Qt (a / n) (b / n) (c / n) (d / n)), (/ n). split; [reflexivity|].
  split; [|split].
  - rewrite q_norm_v. f_equal. cbn.
    replace (a / n * (a / n) + b / n * (b / n) + c / n * (c / n) + d / n * (d / n))
      with ((a * a + b * b + c * c + d * d) * (/ n * / n)) by (field; lra).
    replace (a * a + b * b + c * c + d * d) with (n * n) by (unfold n; apply sqrt_sqrt; lra).
    replace (n * n * (/ n * / n)) with 1 by (field; lra). apply sqrt_1.
  - apply Rinv_0_lt_compat. auto.
  - rewrite (q_mul_s_v r_ring). reflexivity.
Qed.

(* ------------------------------------------------------------------------- *)
(** * C42: polar form                                                          *)

Lemma c_from_polar_v : forall eps r t, c_from_polar r_ops (r_float eps) r t = Ok (Cx (r * cos t) (r * sin t)).
Proof. reflexivity. Qed.
Lemma c_to_polar_v : forall eps z, c_to_polar r_ops (r_float eps) z =
  Ok (sqrt (re z * re z + im z * im z), atan2 (im z) (re z)).
Proof. intros. unfold c_to_polar. rewrite c_norm_v. reflexivity. Qed.
Theorem C42_round_trip : forall eps z, let F := r_float eps in
  (let! (r, t) := c_to_polar r_ops F z in c_from_polar r_ops F r t) = Ok z.
Proof.
  intros eps [x y]. cbv zeta. rewrite c_to_polar_v. cbn [bind re im]. rewrite c_from_polar_v.
  destruct (atan2_spec x y) as (A & B). rewrite A, B. reflexivity.
Qed.
(** [to_polar] of [from_polar]: the angle is recovered for positive radius, in (-pi, pi]. *)
Theorem C42_angle_recovered : forall eps r t, 0 < r -> - PI < t <= PI -> let F := r_float eps in
  (let! z := c_from_polar r_ops F r t in c_to_polar r_ops F z) = Ok (r, t).
Proof.
  intros eps r t Hr Ht. cbv zeta. rewrite c_from_polar_v. cbn [bind]. rewrite c_to_polar_v. cbn [re im].
  rewrite atan2_polar by auto. f_equal. f_equal.
  replace (r * cos t * (r * cos t) + r * sin t * (r * sin t)) with (r * r * (Rsqr (sin t) + Rsqr (cos t))) by (unfold Rsqr; ring).
  rewrite sin2_cos2, Rmult_1_r. apply sqrt_square. lra.
Qed.
Theorem C42_arg_range : forall eps z, exists a, c_arg (r_float eps) z = Ok a /\ - PI < a <= PI.
Proof. intros eps [x y]. eexists. split; [reflexivity|]. apply atan2_bound. Qed.
Theorem C42_norm : forall eps r t, let F := r_float eps in
  (let! z := c_from_polar r_ops F r t in c_norm r_ops F z) = Ok (Rabs r).
Proof.
  intros eps r t. cbv zeta. rewrite c_from_polar_v. cbn [bind]. rewrite c_norm_v. cbn [re im]. f_equal.
  replace (r * cos t * (r * cos t) + r * sin t * (r * sin t)) with (r * r * (Rsqr (sin t) + Rsqr (cos t))) by (unfold Rsqr; ring).
  rewrite sin2_cos2, Rmult_1_r. apply sqrt_Rsqr_abs.
Qed.
Theorem C42_product : forall eps r a s b, let F := r_float eps in
  (let! x := c_from_polar r_ops F r a in let! y := c_from_polar r_ops F s b in c_mul r_ops x y) =!
  c_from_polar r_ops F (r * s) (a + b).
Proof.
  intros eps r a s b. cbv zeta. rewrite !c_from_polar_v. cbn [bind]. rewrite (c_mul_v r_ring). eexists. split; [reflexivity|].
  rewrite cos_plus, sin_plus. f_equal. cbn. f_equal; ring.
Qed.
(** 3 + 4i has norm 5; 1 + i has argument pi/4 and -1 argument pi. *)
Example C42_ex : forall eps, c_norm r_ops (r_float eps) (Cx 3 4) = Ok 5 /\
  c_arg (r_float eps) (Cx 1 1) = Ok (PI / 4) /\ c_arg (r_float eps) (Cx (-1) 0) = Ok PI.
Proof.
  intros. rewrite c_norm_v. cbn. split; [|split].
  - f_equal. apply sqrt_lem_1; lra.
  - f_equal. unfold atan2. destruct (Rlt_dec 0 1); [|lra]. replace (1 / 1) with 1 by field. apply atan_1.
  - f_equal. unfold atan2. destruct (Rlt_dec 0 (-1)); [lra|]. destruct (Rlt_dec (-1) 0); [|lra].
    destruct (Rle_dec 0 0); [|lra]. replace (0 / -1) with 0 by field. rewrite atan_0. ring.
Qed.

Print Assumptions C15_l1_norm.
Print Assumptions C15_l2_norm.
Print Assumptions C15_l_inf_norm.
Print Assumptions C15_values.
Print Assumptions C15_cauchy_schwarz.
Print Assumptions C15_comparison.
Print Assumptions C15_normalize.
Print Assumptions C15_matrix_norms.
Print Assumptions C39_norm_real.
Print Assumptions C39_normalize_real.
Print Assumptions C44_norm_real.
Print Assumptions C44_normalize_real.
Print Assumptions C42_round_trip.
Print Assumptions C42_angle_recovered.
Print Assumptions C42_arg_range.
Print Assumptions C42_norm.
Print Assumptions C42_product.
