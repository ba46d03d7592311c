(** Properties C68 and C69: directions and normals, over the real numbers. *)
From Coq Require Import Reals Lra Psatz Field Lia.
From Verif Require Import SpecDir SpecFacts MFacts AlgFacts CxFacts MoFacts RealFacts PropReal PropAlgebra PropSquare PropTransform
  PropAffine PropComplex PropMoebius PropMoebiusR PropMoebiusD.
Set Implicit Arguments.
Local Open Scope R_scope.
Local Open Scope list_scope.

(** Facts about the three spaces. *)
Record SpaceOk {P} (sp : Space P) : Prop := mkSpaceOk {
  so_dot : forall a b, sp_pt sp a -> sp_pt sp b -> exists d, sp_dot sp a b = Ok d /\ sp_dot sp b a = Ok d;
  so_mul : forall a k, sp_pt sp a -> exists b, sp_mul sp a k = Ok b /\ sp_pt sp b;
  so_dot_mul : forall a b c k d, sp_pt sp a -> sp_pt sp b -> sp_mul sp a k = Ok c -> sp_dot sp a b = Ok d -> sp_dot sp c b = Ok (k * d);
  so_mul_mul : forall a b k l, sp_pt sp a -> sp_mul sp a k = Ok b -> sp_mul sp b l = sp_mul sp a (k * l);
  so_pos : forall a b d, sp_pt sp a -> sp_pt sp b -> sp_dot sp a b = Ok d -> d <> 0 -> positive sp a;
  so_one : forall a, sp_pt sp a -> sp_mul sp a 1 = Ok a
}.
Arguments so_dot {P sp}. Arguments so_mul {P sp}. Arguments so_dot_mul {P sp}. Arguments so_mul_mul {P sp}. Arguments so_pos {P sp}.
Arguments so_one {P sp}.

Lemma vspace_ok : forall N, (0 < N)%nat -> SpaceOk (vspace N).
Proof.
  intros N HN. constructor; cbn [sp_pt sp_dot sp_mul vspace]; unfold dim; intros.
  - asfun r_ops. rewrite !(v_dot_vk r_ring) by auto. eexists. split; [reflexivity|]. f_equal. apply rsum_ext. intros. cbn. ring.
  - asfun r_ops. rewrite (v_smul_vk r_ring). eexists. split; [reflexivity|]. apply vk_length.
  - asfun r_ops. rewrite (v_smul_vk r_ring) in H1. apply Ok_inj in H1. subst c. rewrite (v_dot_vk r_ring) in * by auto.
    apply Ok_inj in H2. subst d. f_equal. rewrite <- (bigsum_mul_l r_ring). apply bigsum_ext. intros. cbn. ring.
  - asfun r_ops. rewrite (v_smul_vk r_ring) in *. apply Ok_inj in H0. subst b. rewrite (v_smul_vk r_ring). f_equal.
    apply vk_ext. intros. cbn. ring.
  - asfun r_ops. rewrite (v_dot_vk r_ring) in H1 by auto. apply Ok_inj in H1. subst d.
    exists (rsum N (fun i => f0 i * f0 i)). split. { cbn. apply (v_dot_vk r_ring). auto. }
    assert (P0 : 0 <= rsum N (fun i => f0 i * f0 i)) by (apply rsum_nonneg; intros; apply sqpos).
    destruct P0 as [|E]; auto. exfalso. apply H2.
    assert (Z : forall i, (i < N)%nat -> f0 i = 0).
    { intros i Hi. assert (f0 i * f0 i = 0); [|nra]. apply (@rsum_zero N (fun i => f0 i * f0 i)); auto. intros; apply sqpos. }
    rewrite (@bigsum_ext _ _ r_ring N _ (fun _ => 0)). { apply (bigsum_zero r_ring). }
    intros. cbn. rewrite Z by auto. ring.
  - asfun r_ops. rewrite (v_smul_vk r_ring). f_equal. apply vk_ext. intros. cbn. ring.
Qed.
Lemma cspace_ok : SpaceOk cspace.
Proof.
  constructor; cbn [sp_pt sp_dot sp_mul cspace]; intros.
  - rewrite !(c_dot_v r_ring). eexists. split; [reflexivity|]. f_equal. cbn. ring.
  - rewrite (c_mul_s_v r_ring). eexists. split; [reflexivity|exact I].
  - rewrite (c_mul_s_v r_ring) in H1. apply Ok_inj in H1. subst c. rewrite (c_dot_v r_ring) in *. apply Ok_inj in H2. subst d.
    f_equal. cbn. ring.
  - rewrite (c_mul_s_v r_ring) in *. apply Ok_inj in H0. subst b. rewrite (c_mul_s_v r_ring). f_equal. cbn. f_equal; ring.
  - rewrite (c_dot_v r_ring) in H1. apply Ok_inj in H1. subst d. destruct a as [x y]. eexists. split. { apply (c_dot_v r_ring). }
    cbn in *. destruct (Req_dec x 0) as [->|]; [|nra]. destruct (Req_dec y 0) as [->|]; [|nra]. contradiction H2. ring.
  - rewrite (c_mul_s_v r_ring). destruct a. f_equal. cbn. f_equal; ring.
Qed.
Lemma qspace_ok : SpaceOk qspace.
Proof.
  constructor; cbn [sp_pt sp_dot sp_mul qspace]; intros.
  - rewrite !(q_dot_v r_ring). eexists. split; [reflexivity|]. f_equal. cbn. ring.
  - rewrite (q_mul_s_v r_ring). eexists. split; [reflexivity|exact I].
  - rewrite (q_mul_s_v r_ring) in H1. apply Ok_inj in H1. subst c. rewrite (q_dot_v r_ring) in *. apply Ok_inj in H2. subst d.
    f_equal. cbn. ring.
  - rewrite (q_mul_s_v r_ring) in *. apply Ok_inj in H0. subst b. rewrite (q_mul_s_v r_ring). f_equal. cbn. f_equal; ring.
  - rewrite (q_dot_v r_ring) in H1. apply Ok_inj in H1. subst d. destruct a as [x y z w]. eexists. split. { apply (q_dot_v r_ring). }
    cbn in *. destruct (Req_dec x 0) as [->|]; [|nra]. destruct (Req_dec y 0) as [->|]; [|nra].
    destruct (Req_dec z 0) as [->|]; [|nra]. destruct (Req_dec w 0) as [->|]; [|nra]. contradiction H2. ring.
  - rewrite (q_mul_s_v r_ring). destruct a. f_equal. cbn. f_equal; ring.
Qed.

(** A normalising function. *)
Definition normalizes {P} (sp : Space P) (nrm : P -> res P) : Prop := forall v, sp_pt sp v -> positive sp v ->
  exists u k, nrm v = Ok u /\ sp_pt sp u /\ 0 < k /\ sp_mul sp v k = Ok u /\ unit_len sp u.

Lemma v_normalizes : forall N, (0 < N)%nat -> normalizes (vspace N) (v_normalize r_ops sqrt).
Proof.
  intros N HN v Hv (q & Q & Hq). cbn [sp_pt sp_dot sp_mul vspace] in *. unfold dim in *.
  destruct (@C15_normalize N v Hv HN) as (u & k & E & L & K & M).
  { intros Z. rewrite v_zero_vk in Z. apply Ok_inj in Z. subst v. rewrite (v_dot_vk r_ring) in Q by auto. apply Ok_inj in Q.
    rewrite (@bigsum_ext _ _ r_ring N _ (fun _ => 0)) in Q by (intros; cbn; ring). rewrite (bigsum_zero r_ring) in Q. cbn in Q. lra. }
  exists u, k. split; auto. assert (Lu : length u = N).
  { asfun r_ops. rewrite (v_smul_vk r_ring) in M. apply Ok_inj in M. subst u. apply vk_length. }
  split; auto. split; auto. split; auto. unfold unit_len. cbn. asfun r_ops.
  rewrite rv_length in L by auto. apply Ok_inj in L. rewrite (v_dot_vk r_ring) by auto. f_equal.
  change (rsum N (fun i => f i * f i) = 1).
  assert (P0 : 0 <= rsum N (fun i => f i * f i)) by (apply rsum_nonneg; intros; apply sqpos).
  rewrite <- (sqrt_sqrt _ P0), L. ring.
Qed.
Lemma c_normalizes : forall eps, normalizes cspace (c_normalize r_ops (r_float eps)).
Proof.
  intros eps v _ (q & Q & Hq). cbn [sp_dot cspace] in Q. rewrite (c_dot_v r_ring) in Q. apply Ok_inj in Q.
  destruct (@C39_normalize_real eps v) as (u & k & E & L & K & M).
  { intros ->. cbn in Q. lra. }
  exists u, k. repeat (split; auto). unfold unit_len. cbn [sp_dot cspace]. rewrite (c_dot_v r_ring). f_equal.
  rewrite c_norm_v in L. apply Ok_inj in L. cbn. rewrite <- (sqrt_sqrt (re u * re u + im u * im u)) by nra. rewrite L. ring.
Qed.
Lemma q_normalizes : forall eps, normalizes qspace (q_normalize r_ops (r_float eps)).
Proof.
  intros eps v _ (q & Q & Hq). cbn [sp_dot qspace] in Q. rewrite (q_dot_v r_ring) in Q. apply Ok_inj in Q.
  destruct (@C44_normalize_real eps v) as (u & k & E & L & K & M).
  { intros ->. cbn in Q. lra. }
  exists u, k. repeat (split; auto). unfold unit_len. cbn [sp_dot qspace]. rewrite (q_dot_v r_ring). f_equal.
  rewrite q_norm_v in L. apply Ok_inj in L. cbn. rewrite <- (sqrt_sqrt (qw u * qw u + qx u * qx u + qy u * qy u + qz u * qz u)) by nra.
  rewrite L. ring.
Qed.

(** If [m] makes positive multiples of the right angles, so does the normalised [m]. *)
Lemma unit_positive : forall P (sp : Space P) v, unit_len sp v -> positive sp v.
Proof. intros P sp v H. exists 1. split; [exact H|lra]. Qed.
Lemma mul_back : forall P (sp : Space P), SpaceOk sp -> forall v u k, sp_pt sp v -> 0 < k -> sp_mul sp v k = Ok u -> sp_mul sp u (/ k) = Ok v.
Proof.
  intros P sp S v u k Hv Hk M. rewrite (so_mul_mul S _ _ _ _ Hv M), Rinv_r by lra. apply (so_one S). auto.
Qed.

(* ------------------------------------------------------------------------- *)
(** * Chains                                                                   *)

(** A chain of transformations that treat directions (normals) correctly does so too. *)
Theorem C69_chain : forall P A B (sp : Space P) (ta : Transform P A) (tb : Transform P B) da db okA okB rba,
  SpaceOk sp -> defined sp tb okB -> homogeneous sp ta okA ->
  keeps_dirs sp ta da okA -> keeps_dirs sp tb db okB ->
  keeps_dirs sp (chain_transform ta tb rba) (chain_directional tb da db) (ok_chain tb okA okB).
Proof.
  intros P A B sp ta tb da db okA okB rba S DB HA KA KB (a & b) x v (Ob & Oa) Hx Hv Pv. cbn [fst snd] in *.
  destruct (DB b x Ob Hx) as (y & Ey & Py). specialize (Oa y Ey).
  destruct (KB b x v Ob Hx Hv Pv) as (v' & e & k & E1 & Pv' & Po & E2 & Hk & M & U).
  destruct (KA a y v' Oa Py Pv' Po) as (v'' & e' & l & F1 & Pv'' & Po' & F2 & Hl & M' & U').
  exists v''. cbn [t_apply_dir chain_directional t_deriv chain_transform fst snd]. rewrite Ey, E1, E2. cbn [bind].
  destruct (HA a y v' k Oa Py Pv' Hk) as (g & G1 & G2). rewrite M in G1. rewrite F2 in G2. cbn [bind] in G1, G2.
  exists g, (l * k). repeat (split; auto). { nra. }
  rewrite <- (so_mul_mul S _ _ _ _ Pv'' M'). exact G2.
Qed.
Theorem C68_chain : forall P A B (sp : Space P) (ta : Transform P A) (tb : Transform P B) da db okA okB rba,
  defined sp tb okB -> keeps_normals sp ta da okA -> keeps_normals sp tb db okB ->
  keeps_normals sp (chain_transform ta tb rba) (chain_directional tb da db) (ok_chain tb okA okB).
Proof.
  intros P A B sp ta tb da db okA okB rba DB KA KB (a & b) x n (Ob & Oa) Hx Hn Pn. cbn [fst snd] in *.
  destruct (DB b x Ob Hx) as (y & Ey & Py). specialize (Oa y Ey).
  destruct (KB b x n Ob Hx Hn Pn) as (n' & k & E1 & Pn' & Po & Hk & U & V).
  destruct (KA a y n' Oa Py Pn' Po) as (n'' & l & F1 & Pn'' & Po' & Hl & U' & V').
  exists n'', (l * k). cbn [t_apply_normal chain_directional t_deriv chain_transform fst snd]. rewrite Ey, E1. cbn [bind].
  repeat (split; auto). { nra. }
  intros v Hv. destruct (V v Hv) as (e & p & D1 & D2 & D3 & D4). destruct (V' e D2) as (e' & p' & G1 & G2 & G3 & G4).
  exists e', p. rewrite D1. cbn [bind]. repeat (split; auto). rewrite G4. f_equal. rewrite D4 in G3. apply Ok_inj in G3. subst p'. ring.
Qed.

(* ------------------------------------------------------------------------- *)
(** * Linear                                                                   *)

Definition lin_ok (N : nat) (m : list (list R)) (x : list R) : Prop := rect N N m /\ nonsingular r_ops N m.

(** [normal_transform(A)]: for all [n] and [v], [(T n) . (A v) = n . v], over any field. *)
Theorem C68_normal_transform : forall T (o : Ops T) (F : Field o) N m, (0 < N)%nat -> rect N N m -> nonsingular o N m ->
  exists t, linear_normal_transform o N m = Ok t /\ rect N N t /\
  forall n v, dim N n -> dim N v ->
    (let! tn := t_apply (linear_transform o N) t n in let! mv := t_apply (linear_transform o N) m v in v_dot o N tn mv) =!
    v_dot o N n v.
Proof.
  intros T o F N m HN Rm Ns. destruct (act_inv (C57_action F N) m Rm Ns) as (i & Ei & Ri & _ & Hi).
  unfold linear_normal_transform.
  change (m_Inv_inv o N m) with (m_inv o N m). change (t_inv (linear_transform o N) m) with (m_inv o N m) in Ei. rewrite Ei. cbn [bind].
  destruct (mk_ex o Ri) as (fi & ->). rewrite m_transpose_mk. eexists. split; [reflexivity|]. split; [apply rect_mk|].
  intros n v Hn Hv. destruct (Hi v Hv) as (H1 & _). cbn [t_apply linear_transform] in *. unfold dim in *.
  destruct (mk_ex o Rm) as (fm & ->). destruct (@vk_ex _ o _ _ Hn) as (fn & ->). destruct (@vk_ex _ o _ _ Hv) as (fv & ->).
  rewrite (m_dot_v_mk F) in H1 by auto. cbn [bind] in H1. rewrite (m_dot_v_mk F) in H1 by auto.
  apply Ok_inj in H1. rewrite !(m_dot_v_mk F) by auto. cbn [bind].
  set (mv := fun k => bigsum F N (fun l => r_mul F (fm k l) (fv l))) in *. rewrite <- H1. rewrite !(v_dot_vk F) by auto.
  eexists. split; [|reflexivity]. f_equal.
  rewrite (@bigsum_ext _ _ F N _ (fun k => bigsum F N (fun j => r_mul F (r_mul F (fi j k) (fn j)) (mv k)))).
  2: { intros k Hk. symmetry. apply (bigsum_mul_r F). }
  rewrite (bigsum_swap F). apply bigsum_ext. intros j Hj. rewrite <- (bigsum_mul_l F). apply bigsum_ext. intros k Hk.
  rewrite (c_mul_comm F (fi j k) (fn j)), (r_mul_assoc F). auto.
Qed.

Lemma lin_defined : forall N, defined (vspace N) (linear_transform r_ops N) (lin_ok N).
Proof. intros N m x (Rm & _) Hx. apply (act_apply (C57_action r_field N) m x Rm Hx). Qed.
Lemma lin_deriv : forall N m x v, (0 < N)%nat -> rect N N m -> dim N v ->
  exists e, t_deriv (linear_transform r_ops N) m x v = Ok e /\ dim N e.
Proof. intros N m x v HN Rm Hv. apply (act_apply (C57_action r_field N) m v Rm Hv). Qed.
Lemma lin_positive : forall N m v e, (0 < N)%nat -> rect N N m -> nonsingular r_ops N m -> dim N v -> positive (vspace N) v ->
  m_dot_v r_ops N N m v = Ok e -> positive (vspace N) e.
Proof.
  intros N m v e HN Rm Ns Hv (q & Q & Hq) E. pose proof (vspace_ok HN) as S.
  destruct (C68_normal_transform r_field HN Rm Ns) as (t & _ & Rt & H).
  destruct (H v v Hv Hv) as (q' & Q1 & Q2). cbn [sp_dot vspace] in Q. rewrite Q in Q2. apply Ok_inj in Q2. subst q'.
  destruct (act_apply (C57_action r_field N) t v Rt Hv) as (tv & Et & Pt). rewrite Et in Q1. cbn [t_apply linear_transform bind] in Q1.
  rewrite E in Q1. cbn [bind] in Q1.
  assert (Pe : dim N e).
  { destruct (act_apply (C57_action r_field N) m v Rm Hv) as (e' & E' & Pe). cbn [t_apply linear_transform] in E'. rewrite E in E'.
    apply Ok_inj in E'. subst e'. exact Pe. }
  destruct (so_dot S tv e Pt Pe) as (d & D1 & D2). cbn [sp_dot vspace] in D1, D2. rewrite Q1 in D1. apply Ok_inj in D1. subst d.
  apply (so_pos S e tv q Pe Pt D2). lra.
Qed.

Theorem C69_linear : forall N, (0 < N)%nat ->
  keeps_dirs (vspace N) (linear_transform r_ops N) (linear_directional r_ops N sqrt) (lin_ok N).
Proof.
  intros N HN m x v (Rm & Ns) Hx Hv Pv. pose proof (vspace_ok HN) as S.
  destruct (lin_deriv x HN Rm Hv) as (e & E & Pe). pose proof (@lin_positive N m v e HN Rm Ns Hv Pv E) as Po.
  destruct (@v_normalizes N HN e Pe Po) as (u & k & U1 & U2 & U3 & U4 & U5).
  exists u, e, (/ k). cbn [t_apply_dir linear_directional]. rewrite E. cbn [bind]. rewrite U1. repeat (split; auto).
  - apply unit_positive. exact U5.
  - apply Rinv_0_lt_compat. exact U3.
  - apply (mul_back S e); auto.
Qed.
Theorem C68_linear : forall N, (0 < N)%nat ->
  keeps_normals (vspace N) (linear_transform r_ops N) (linear_directional r_ops N sqrt) (lin_ok N).
Proof.
  intros N HN m x n (Rm & Ns) Hx Hn Pn. pose proof (vspace_ok HN) as S.
  destruct (C68_normal_transform r_field HN Rm Ns) as (t & Et & Rt & H).
  destruct (act_apply (C57_action r_field N) t n Rt Hn) as (tn & Etn & Ptn).
  assert (Po : positive (vspace N) tn).
  { destruct Pn as (q & Q & Hq). destruct (H n n Hn Hn) as (q' & Q1 & Q2). cbn [sp_dot vspace] in Q. rewrite Q in Q2. apply Ok_inj in Q2. subst q'.
    rewrite Etn in Q1. cbn [bind] in Q1. destruct (act_apply (C57_action r_field N) m n Rm Hn) as (mn & Em & Pm). rewrite Em in Q1. cbn [bind] in Q1.
    apply (so_pos S tn mn q); auto. lra. }
  destruct (@v_normalizes N HN tn Ptn Po) as (u & k & U1 & U2 & U3 & U4 & U5).
  exists u, k. cbn [t_apply_normal linear_directional]. rewrite Et. cbn [bind]. rewrite Etn. cbn [bind]. rewrite U1. repeat (split; auto).
  - apply unit_positive. exact U5.
  - intros v Hv. destruct (H n v Hn Hv) as (p & P1 & P2). rewrite Etn in P1. cbn [bind] in P1.
    destruct (act_apply (C57_action r_field N) m v Rm Hv) as (mv & Em & Pm). rewrite Em in P1. cbn [bind] in P1.
    exists mv, p. repeat (split; auto). apply (so_dot_mul S tn mv u k p); auto.
Qed.
Theorem C69_linear_unit : forall N, (0 < N)%nat -> unit_results (vspace N) (linear_directional r_ops N sqrt) (lin_ok N).
Proof.
  intros N HN m x v (Rm & Ns) Hx Hv Pv. split.
  - intros v' E'. destruct (lin_deriv x HN Rm Hv) as (e & E & Pe). pose proof (@lin_positive N m v e HN Rm Ns Hv Pv E) as Po.
    destruct (@v_normalizes N HN e Pe Po) as (u & k & U1 & U2 & U3 & U4 & U5).
    cbn [t_apply_dir linear_directional] in E'. rewrite E in E'. cbn [bind] in E'. rewrite U1 in E'. apply Ok_inj in E'. subst v'. exact U5.
  - intros n' E'. destruct (C68_normal_transform r_field HN Rm Ns) as (t & Et & Rt & H).
    destruct (act_apply (C57_action r_field N) t v Rt Hv) as (tn & Etn & Ptn).
    cbn [t_apply_normal linear_directional] in E'. rewrite Et in E'. cbn [bind] in E'. rewrite Etn in E'. cbn [bind] in E'.
    assert (Po : positive (vspace N) tn).
    { destruct Pv as (q & Q & Hq). destruct (H v v Hv Hv) as (q' & Q1 & Q2). cbn [sp_dot vspace] in Q. rewrite Q in Q2. apply Ok_inj in Q2. subst q'.
      rewrite Etn in Q1. cbn [bind] in Q1. destruct (act_apply (C57_action r_field N) m v Rm Hv) as (mn & Em & Pm). rewrite Em in Q1. cbn [bind] in Q1.
      apply (so_pos (vspace_ok HN) tn mn q); auto. lra. }
    destruct (@v_normalizes N HN tn Ptn Po) as (u & k & U1 & U2 & U3 & U4 & U5). rewrite U1 in E'. apply Ok_inj in E'. subst n'. exact U5.
Qed.

(* ------------------------------------------------------------------------- *)
(** * Shift and Scale                                                          *)

Section ShiftScale.
  Context (N : nat) (HN : (0 < N)%nat).
  Let S := vspace_ok HN.

  Lemma shift_defined : defined (vspace N) (shift_transform r_ops N) (fun s _ => dim N s).
  Proof. intros s x Hs Hx. apply (act_apply (C55_action r_field N) s x Hs Hx). Qed.
  Theorem C69_shift : keeps_dirs (vspace N) (shift_transform r_ops N) (shift_directional (T:=R)) (fun s _ => dim N s).
  Proof.
    intros s x v Hs Hx Hv Pv. exists v, v, 1. cbn. repeat (split; auto). { lra. } apply (so_one S). auto.
  Qed.
  Theorem C68_shift : keeps_normals (vspace N) (shift_transform r_ops N) (shift_directional (T:=R)) (fun s _ => dim N s).
  Proof.
    intros s x n Hs Hx Hn Pn. exists n, 1. cbn [t_apply_normal shift_directional t_deriv shift_transform].
    repeat (split; auto). { lra. }
    intros v Hv. destruct (so_dot S n v Hn Hv) as (p & P1 & _). exists v, p. repeat (split; auto). rewrite P1. f_equal. ring.
  Qed.

  (** [Scale] with a positive magnitude. *)
  Theorem C69_scale_positive : forall inv,
    keeps_dirs (vspace N) (scale_transform r_ops inv) (scale_directional (T:=R)) (fun s _ => 0 < s).
  Proof.
    intros inv s x v Hs Hx Hv Pv. destruct (so_mul S v s Hv) as (e & E & Pe). exists v, e, s. cbn. repeat (split; auto).
  Qed.
  Theorem C68_scale_positive : forall inv,
    keeps_normals (vspace N) (scale_transform r_ops inv) (scale_directional (T:=R)) (fun s _ => 0 < s).
  Proof.
    intros inv s x n Hs Hx Hn Pn. exists n, s. cbn [t_apply_normal scale_directional t_deriv scale_transform]. repeat (split; auto).
    intros v Hv. destruct (so_mul S v s Hv) as (e & E & Pe). destruct (so_dot S n v Hn Hv) as (p & P1 & P2).
    exists e, p. repeat (split; auto). destruct (so_dot S n e Hn Pe) as (d & D1 & D2). rewrite D1. rewrite <- D2. apply (so_dot_mul S v n e s p); auto.
  Qed.
  (** For any magnitude orthogonality is preserved, whatever the side. *)
  Theorem C68_scale_orthogonal : forall inv s x n v, dim N n -> dim N v -> v_dot r_ops N n v = Ok 0 ->
    exists n' e, t_apply_normal (scale_directional (T:=R)) s x n = Ok n' /\
      t_deriv (scale_transform r_ops inv) s x v = Ok e /\ v_dot r_ops N n' e = Ok 0.
  Proof.
    intros inv s x n v Hn Hv H. destruct (so_mul S v s Hv) as (e & E & Pe). exists n, e. cbn. repeat (split; auto).
    destruct (so_dot S n v Hn Hv) as (p & P1 & P2). cbn in P1. rewrite H in P1. apply Ok_inj in P1. subst p.
    destruct (so_dot S n e Hn Pe) as (d & D1 & D2). cbn in D1, D2. rewrite D1, <- D2. pose proof (so_dot_mul S v n e s 0 Hv Hn E P2) as Q. cbn in Q.
    rewrite Q. f_equal. ring.
  Qed.
End ShiftScale.

(** For a negative magnitude [apply_dir] returns the direction opposite to the derivative's, and [apply_normal] the
    normal on the other side from the one [Linear] returns for the same map. *)
Theorem C69_scale_refuted : forall inv, exists s x v e,
  t_apply_dir (scale_directional (T:=R)) s x v = Ok v /\ t_deriv (scale_transform r_ops inv) s x v = Ok e /\
  v_dot r_ops 2 v v = Ok 1 /\ v_dot r_ops 2 v e = Ok (-1) /\ ~ (exists k, 0 < k /\ v_smul r_ops v k = Ok e).
Proof.
  intros inv. exists (-1), [0; 0], [1; 0], [1 * -1; 0 * -1]. cbn [t_apply_dir scale_directional t_deriv scale_transform].
  rewrite (v_smul_2 r_ring), !(v_dot_2 r_ring). repeat split; try (f_equal; cbn; ring).
  intros (k & Hk & E). rewrite (v_smul_2 r_ring) in E. apply Ok_inj in E. apply (f_equal (hd 0)) in E. cbn in E. lra.
Qed.
Theorem C68_scale_refuted : forall inv, exists s x n v e p,
  t_apply_normal (scale_directional (T:=R)) s x n = Ok n /\ t_deriv (scale_transform r_ops inv) s x v = Ok e /\
  v_dot r_ops 2 n v = Ok p /\ 0 < p /\ exists p', v_dot r_ops 2 n e = Ok p' /\ p' < 0.
Proof.
  intros inv. exists (-1), [0; 0], [1; 0], [1; 0], [1 * -1; 0 * -1], (1 * 1 + 0 * 0).
  cbn [t_apply_normal scale_directional t_deriv scale_transform].
  rewrite (v_smul_2 r_ring), !(v_dot_2 r_ring). repeat split; try (f_equal; cbn; ring). { lra. }
  eexists. split; [reflexivity|]. cbn. lra.
Qed.

(* ------------------------------------------------------------------------- *)
(** * Rotations                                                                *)

(** A transformation whose [apply_dir], [apply_normal] and [deriv] are one isometry. *)
Lemma isometry_keeps : forall A N (t : Transform (list R) A) (d : Directional (list R) A) (ok : A -> list R -> Prop), (0 < N)%nat ->
  (forall a x v, ok a x -> dim N v -> t_apply_dir d a x v = t_deriv t a x v /\ t_apply_normal d a x v = t_deriv t a x v) ->
  (forall a x v, ok a x -> dim N v -> exists e, t_deriv t a x v = Ok e /\ dim N e) ->
  (forall a x u v, ok a x -> dim N u -> dim N v ->
     (let! u' := t_deriv t a x u in let! v' := t_deriv t a x v in v_dot r_ops N u' v') =! v_dot r_ops N u v) ->
  keeps_dirs (vspace N) t d ok /\ keeps_normals (vspace N) t d ok.
Proof.
  intros A N t d ok HN H1 H2 H3. pose proof (vspace_ok HN) as S.
  assert (K : forall a x v, ok a x -> dim N v -> exists e, t_deriv t a x v = Ok e /\ dim N e /\
    v_dot r_ops N e e = v_dot r_ops N v v).
  { intros a x v Ho Hv. destruct (H2 a x v Ho Hv) as (e & E & Pe). exists e. repeat (split; auto).
    destruct (H3 a x v v Ho Hv Hv) as (q & Q1 & Q2). rewrite E in Q1. cbn [bind] in Q1. congruence. }
  split.
  - intros a x v Ho Hx Hv (q & Q & Hq). destruct (K a x v Ho Hv) as (e & E & Pe & D). destruct (H1 a x v Ho Hv) as (A1 & _).
    exists e, e, 1. rewrite A1. cbn [sp_dot vspace] in Q. repeat (split; auto); try lra.
    + exists q. cbn [sp_dot vspace]. rewrite D. auto.
    + apply (so_one S). exact Pe.
    + unfold unit_len. cbn [sp_dot vspace]. rewrite D. auto.
  - intros a x n Ho Hx Hn (q & Q & Hq). destruct (K a x n Ho Hn) as (n' & E & Pe & D). destruct (H1 a x n Ho Hn) as (_ & A1).
    exists n', 1. rewrite A1. cbn [sp_dot vspace] in Q. repeat (split; auto); try lra.
    + exists q. cbn [sp_dot vspace]. rewrite D. auto.
    + unfold unit_len. cbn [sp_dot vspace]. rewrite D. auto.
    + intros v Hv. destruct (H2 a x v Ho Hv) as (e & Ee & Pv). destruct (H3 a x n v Ho Hn Hv) as (p & P1 & P2).
      rewrite E, Ee in P1. cbn [bind] in P1. exists e, p. repeat (split; auto). cbn [sp_dot vspace]. rewrite P1. f_equal. ring.
Qed.

Theorem C69_rotation2 : keeps_dirs (vspace 2) (rot2_transform r_ops) (rot2_directional r_ops) (fun r _ => unit_c r_ops r) /\
  keeps_normals (vspace 2) (rot2_transform r_ops) (rot2_directional r_ops) (fun r _ => unit_c r_ops r).
Proof.
  apply isometry_keeps; [lia| | |].
  - intros. split; reflexivity.
  - intros a x v Ho Hv. apply (act_apply (C58_action r_ring) a v I Hv).
  - intros a x u v Ho Hu Hv. apply (C58_isometry r_ring); auto.
Qed.
Theorem C69_rotation3 : keeps_dirs (vspace 3) (rot3_transform r_ops) (rot3_directional r_ops) (fun r _ => unit_q r_ops r) /\
  keeps_normals (vspace 3) (rot3_transform r_ops) (rot3_directional r_ops) (fun r _ => unit_q r_ops r).
Proof.
  apply isometry_keeps; [lia| | |].
  - intros. split; reflexivity.
  - intros a x v Ho Hv. apply (act_apply (C59_action r_ring) a v I Hv).
  - intros a x u v Ho Hu Hv. apply (C59_isometry r_ring); auto.
Qed.
(** Normals under rotations: rotated like directions. *)
Theorem C68_rotations : keeps_normals (vspace 2) (rot2_transform r_ops) (rot2_directional r_ops) (fun r _ => unit_c r_ops r) /\
  keeps_normals (vspace 3) (rot3_transform r_ops) (rot3_directional r_ops) (fun r _ => unit_q r_ops r).
Proof. split; [apply C69_rotation2|apply C69_rotation3]. Qed.

(* ------------------------------------------------------------------------- *)
(** * Affine and rigid transformations                                         *)

Lemma shift_homogeneous : forall N, (0 < N)%nat -> homogeneous (vspace N) (shift_transform r_ops N) (fun s _ => dim N s).
Proof.
  intros N HN s x v k Hs Hx Hv Hk. cbn [sp_mul vspace t_deriv shift_transform bind].
  destruct (so_mul (vspace_ok HN) v k Hv) as (b & E & _). cbn in E. rewrite E. exists b. auto.
Qed.
Definition affine_ok (N : nat) (c : list R * list (list R)) (x : list R) : Prop := dim N (fst c) /\ rect N N (snd c) /\ nonsingular r_ops N (snd c).

Lemma keeps_dirs_weaken : forall P A (sp : Space P) (t : Transform P A) d (ok ok' : A -> P -> Prop),
  (forall a x, ok' a x -> ok a x) -> keeps_dirs sp t d ok -> keeps_dirs sp t d ok'.
Proof. intros P A sp t d ok ok' H K a x v O. apply K. auto. Qed.
Lemma keeps_normals_weaken : forall P A (sp : Space P) (t : Transform P A) d (ok ok' : A -> P -> Prop),
  (forall a x, ok' a x -> ok a x) -> keeps_normals sp t d ok -> keeps_normals sp t d ok'.
Proof. intros P A sp t d ok ok' H K a x v O. apply K. auto. Qed.

Theorem C69_affine : forall N, (0 < N)%nat ->
  keeps_dirs (vspace N) (affine_transform r_ops N) (affine_directional r_ops N sqrt) (affine_ok N) /\
  unit_results (vspace N) (affine_directional r_ops N sqrt) (affine_ok N).
Proof.
  intros N HN. split.
  - apply keeps_dirs_weaken with (ok := ok_chain (linear_transform r_ops N) (fun s _ => dim N s) (lin_ok N)).
    { intros (s & m) x (H1 & H2 & H3). split; [split; auto|auto]. }
    apply C69_chain; [apply vspace_ok; auto|apply lin_defined|apply shift_homogeneous; auto|apply C69_shift; auto|apply C69_linear; auto].
  - intros (s & m) x v (H1 & H2 & H3) Hx Hv Pv. cbn [fst snd] in *.
    destruct (act_apply (C57_action r_field N) m x H2 Hx) as (y & Ey & _).
    destruct (@C69_linear_unit N HN m x v (conj H2 H3) Hx Hv Pv) as (U1 & U2).
    cbn [t_apply_dir t_apply_normal affine_directional chain_directional fst snd]. rewrite Ey. cbn [bind].
    split; intros w; cbn [t_apply_dir t_apply_normal shift_directional].
    + destruct (t_apply_dir (linear_directional r_ops N sqrt) m x v) as [u| | | ]; try discriminate. cbn [bind]. intros E. apply Ok_inj in E. subst w. auto.
    + destruct (t_apply_normal (linear_directional r_ops N sqrt) m x v) as [u| | | ]; try discriminate. cbn [bind]. intros E. apply Ok_inj in E. subst w. auto.
Qed.
Theorem C68_affine : forall N, (0 < N)%nat ->
  keeps_normals (vspace N) (affine_transform r_ops N) (affine_directional r_ops N sqrt) (affine_ok N).
Proof.
  intros N HN. apply keeps_normals_weaken with (ok := ok_chain (linear_transform r_ops N) (fun s _ => dim N s) (lin_ok N)).
  { intros (s & m) x (H1 & H2 & H3). split; [split; auto|auto]. }
  apply C68_chain; [apply lin_defined|apply C68_shift; auto|apply C68_linear; auto].
Qed.
(** Rigid motions. *)
Theorem C69_rigid :
  let ok2 := fun (c : list R * complex R) (_ : list R) => dim 2 (fst c) /\ unit_c r_ops (snd c) in
  let ok3 := fun (c : list R * quat R) (_ : list R) => dim 3 (fst c) /\ unit_q r_ops (snd c) in
  let d2 := chain_directional (rot2_transform r_ops) (shift_directional (T:=R)) (rot2_directional r_ops) in
  let d3 := chain_directional (rot3_transform r_ops) (shift_directional (T:=R)) (rot3_directional r_ops) in
  keeps_dirs (vspace 2) (rigid2_transform r_ops) d2 ok2 /\ keeps_normals (vspace 2) (rigid2_transform r_ops) d2 ok2 /\
  keeps_dirs (vspace 3) (rigid3_transform r_ops) d3 ok3 /\ keeps_normals (vspace 3) (rigid3_transform r_ops) d3 ok3.
Proof.
  intros ok2 ok3 d2 d3.
  assert (D2 : defined (vspace 2) (rot2_transform r_ops) (fun r _ => unit_c r_ops r))
    by (intros a x _ Hx; apply (act_apply (C58_action r_ring) a x I Hx)).
  assert (D3 : defined (vspace 3) (rot3_transform r_ops) (fun r _ => unit_q r_ops r))
    by (intros a x _ Hx; apply (act_apply (C59_action r_ring) a x I Hx)).
  assert (W2 : forall c x, ok2 c x -> ok_chain (rot2_transform r_ops) (fun s _ => dim 2 s) (fun r _ => unit_c r_ops r) c x)
    by (intros c x (H1 & H2); split; auto).
  assert (W3 : forall c x, ok3 c x -> ok_chain (rot3_transform r_ops) (fun s _ => dim 3 s) (fun r _ => unit_q r_ops r) c x)
    by (intros c x (H1 & H2); split; auto).
  split; [|split; [|split]].
  - apply (keeps_dirs_weaken _ W2). apply C69_chain; auto; [apply vspace_ok; lia|apply shift_homogeneous; lia|apply C69_shift; lia|apply C69_rotation2].
  - apply (keeps_normals_weaken _ W2). apply C68_chain; auto; [apply C68_shift; lia|apply C69_rotation2].
  - apply (keeps_dirs_weaken _ W3). apply C69_chain; auto; [apply vspace_ok; lia|apply shift_homogeneous; lia|apply C69_shift; lia|apply C69_rotation3].
  - apply (keeps_normals_weaken _ W3). apply C68_chain; auto; [apply C68_shift; lia|apply C69_rotation3].
Qed.

(* ------------------------------------------------------------------------- *)
(** * Moebius transformations                                                  *)

(** A transformation whose [apply_dir] and [apply_normal] are the normalised [deriv], and whose [deriv] is conformal. *)
Lemma conformal_keeps : forall P A (sp : Space P) (t : Transform P A) (d : Directional P A) (ok : A -> P -> Prop) nrm,
  SpaceOk sp -> normalizes sp nrm ->
  (forall a x v, t_apply_dir d a x v = (let! e := t_deriv t a x v in nrm e)) ->
  (forall a x v, t_apply_normal d a x v = (let! e := t_deriv t a x v in nrm e)) ->
  (forall a x, ok a x -> sp_pt sp x -> exists l, 0 < l /\ forall u v, sp_pt sp u -> sp_pt sp v -> exists u' v' q,
     t_deriv t a x u = Ok u' /\ t_deriv t a x v = Ok v' /\ sp_pt sp u' /\ sp_pt sp v' /\
     sp_dot sp u v = Ok q /\ sp_dot sp u' v' = Ok (l * q)) ->
  keeps_dirs sp t d ok /\ keeps_normals sp t d ok /\ unit_results sp d ok.
Proof.
  intros P A sp t d ok nrm S N H1 H2 C.
  assert (K : forall a x v, ok a x -> sp_pt sp x -> sp_pt sp v -> positive sp v -> exists e u k,
    t_deriv t a x v = Ok e /\ sp_pt sp e /\ nrm e = Ok u /\ sp_pt sp u /\ 0 < k /\ sp_mul sp e k = Ok u /\ unit_len sp u).
  { intros a x v Ho Hx Hv (q & Q & Hq). destruct (C a x Ho Hx) as (l & Hl & D).
    destruct (D v v Hv Hv) as (e & e' & q' & E & E' & Pe & _ & Q' & L). rewrite E in E'. apply Ok_inj in E'. subst e'.
    rewrite Q in Q'. apply Ok_inj in Q'. subst q'.
    destruct (N e Pe) as (u & k & U1 & U2 & U3 & U4 & U5). { exists (l * q). split; auto. nra. }
    exists e, u, k. repeat (split; auto). }
  split; [|split].
  - intros a x v Ho Hx Hv Pv. destruct (K a x v Ho Hx Hv Pv) as (e & u & k & E & Pe & E' & Pu & Hk & M & U).
    exists u, e, (/ k). rewrite H1, E. cbn [bind]. rewrite E'. repeat (split; auto).
    + apply unit_positive. exact U. + apply Rinv_0_lt_compat. exact Hk. + apply (mul_back S e); auto.
  - intros a x n Ho Hx Hn Pn. destruct (K a x n Ho Hx Hn Pn) as (e & u & k & E & Pe & E' & Pu & Hk & M & U).
    destruct (C a x Ho Hx) as (l & Hl & D).
    exists u, (k * l). rewrite H2, E. cbn [bind]. rewrite E'. repeat (split; auto).
    + apply unit_positive. exact U.
    + nra.
    + intros v Hv. destruct (D n v Hn Hv) as (e' & w & q & F1 & F2 & F3 & F4 & F5 & F6). rewrite E in F1. apply Ok_inj in F1. subst e'.
      exists w, q. repeat (split; auto). rewrite (so_dot_mul S e w u k (l * q)); auto. f_equal. ring.
  - intros a x v Ho Hx Hv Pv. destruct (K a x v Ho Hx Hv Pv) as (e & u & k & E & Pe & E' & Pu & Hk & M & U).
    rewrite H1, H2, E. cbn [bind]. rewrite E'. split; intros w Ew; apply Ok_inj in Ew; subst w; exact U.
Qed.

Definition moe_c_ok (rem : complex R -> complex R -> res (complex R)) (m : list (list (complex R))) (x : complex R) : Prop :=
  rect 2 2 m /\ nonsingular (c_ops r_ops rem) 2 m /\ off_pole (c_ops r_ops rem) m x.
Definition moe_q_ok (rem : complex R -> complex R -> res (complex R)) (m : list (list (complex R))) (x : quat R) : Prop :=
  rect 2 2 m /\ nonsingular (c_ops r_ops rem) 2 m /\ off_pole_q r_ops rem m x.

Theorem C69_moebius_complex : forall rem eps,
  let t := moebius_c_transform r_ops rem in let d := moebius_c_directional r_ops rem (r_float eps) in
  keeps_dirs cspace t d (moe_c_ok rem) /\ keeps_normals cspace t d (moe_c_ok rem) /\ unit_results cspace d (moe_c_ok rem).
Proof.
  intros rem eps t d. apply conformal_keeps with (nrm := c_normalize r_ops (r_float eps)).
  - apply cspace_ok. - apply c_normalizes. - reflexivity. - reflexivity.
  - intros m x (Rm & Ns & Hp) _.
    assert (W : exists w, (let! cp := c_mul r_ops (mget (c_ops r_ops rem) m 1 0) x in c_add r_ops cp (mget (c_ops r_ops rem) m 1 1)) = Ok w /\ w <> Cx 0 0).
    { destruct Hp as (w & E & Hw). exists w. split; [exact E|exact Hw]. }
    destruct W as (w & W & Hw). destruct (C52_det_over_square r_real2 Rm Hp W) as (D & E & E').
    destruct Ns as (dt & Ed & Hd). unfold mo_det in E'. rewrite Ed in E'. cbn [bind] in E'.
    set (K := CF rem). rewrite (r_mul_ok K : forall x y, c_mul r_ops x y = _) in E'. cbn [bind] in E'.
    assert (NZ : r_mul K w w <> o_zero (c_ops r_ops rem)) by exact (@d_mul_nz _ _ (field_div K) _ _ Hw Hw).
    rewrite (fun x => f_div_ok K x NZ : c_div r_ops x (r_mul K w w) = _) in E'. apply Ok_inj in E'.
    assert (HD : D <> Cx 0 0).
    { rewrite <- E'. apply (@d_mul_nz _ _ (field_div K)); [exact Hd|]. apply (@d_inv_nz _ _ (field_div K)). exact NZ. }
    clear E'. exists (re D * re D + im D * im D). split.
    { destruct D as [p q]. cbn. destruct (Req_dec p 0) as [->|]; [|nra]. destruct (Req_dec q 0) as [->|]; [contradiction HD; auto|nra]. }
    intros u v _ _. unfold t. cbn [t_deriv moebius_c_transform sp_dot cspace sp_pt]. rewrite E. cbn [bind].
    rewrite !(c_mul_v r_ring). do 3 eexists. split; [reflexivity|]. split; [reflexivity|]. split; [exact I|]. split; [exact I|].
    rewrite !(c_dot_v r_ring). split; [reflexivity|]. f_equal. cbn. ring.
Qed.

Lemma qdot_lmul : forall a u v, qdot (qmul a u) (qmul a v) = qn a * qdot u v.
Proof. intros. unfold qdot, qmul, qn. cbn [qw qx qy qz]. ring. Qed.
Lemma qdot_rmul : forall a u v, qdot (qmul u a) (qmul v a) = qn a * qdot u v.
Proof. intros. unfold qdot, qmul, qn. cbn [qw qx qy qz]. ring. Qed.

Theorem C69_moebius_quaternion : forall rem eps,
  let t := moebius_q_transform r_ops rem (r_float eps) in let d := moebius_q_directional r_ops rem (r_float eps) in
  keeps_dirs qspace t d (moe_q_ok rem) /\ keeps_normals qspace t d (moe_q_ok rem) /\ unit_results qspace d (moe_q_ok rem).
Proof.
  intros rem eps t d. apply conformal_keeps with (nrm := q_normalize r_ops (r_float eps)).
  - apply qspace_ok. - apply q_normalizes. - reflexivity. - reflexivity.
  - intros m p (Rm & Ns & Hp) _. set (QQ := q_div_inst (F:=r_field) r_real4).
    destruct (rect22 Rm) as (a & b & c & dd & ->).
    rewrite (off_pole_q_iff rem r_real4), (off_pole_D QQ) in Hp.
    change (r_add QQ (r_mul QQ (cq r_ops c) p) (cq r_ops dd) <> Qt 0 0 0 0) in Hp.
    assert (DV : forall v, mo_deriv_dir r_ops 2 [[a; b]; [c; dd]] p v = _)
      by (intros v; apply (@mo_deriv_dir_v _ _ r_field r_real4 2 eq_refl a b c dd p v Hp)).
    set (w := r_add QQ (r_mul QQ (cq r_ops c) p) (cq r_ops dd)) in *.
    set (u := r_add QQ (r_mul QQ (cq r_ops a) p) (cq r_ops b)) in *.
    set (y := r_mul QQ u (d_inv QQ w)) in *.
    set (al := r_sub QQ (cq r_ops a) (r_mul QQ y (cq r_ops c))).
    assert (EQ : forall v, dform QQ (cq r_ops a) (cq r_ops c) y w v = qmul (qmul al v) (qinv w)).
    { intros v. unfold dform. change (r_mul QQ (r_sub QQ (r_mul QQ (cq r_ops a) v) (r_mul QQ y (r_mul QQ (cq r_ops c) v))) (d_inv QQ w) = r_mul QQ (r_mul QQ al v) (d_inv QQ w)).
      f_equal. unfold al. rewrite (sub_distr_l QQ), (r_mul_assoc QQ). reflexivity. }
    assert (Ha : al <> Qt 0 0 0 0).
    { intros Z. assert (Z1 : cq r_ops a = r_mul QQ y (cq r_ops c)).
      { apply (r_add_cancel_l QQ) with (x := r_opp QQ (r_mul QQ y (cq r_ops c))).
        rewrite (r_opp_l QQ), (r_add_comm QQ), <- (r_sub_def QQ). exact Z. }
      assert (Z2 : cq r_ops b = r_mul QQ y (cq r_ops dd)).
      { apply (r_add_cancel_l QQ) with (x := r_mul QQ (cq r_ops a) p).
        change (u = r_add QQ (r_mul QQ (cq r_ops a) p) (r_mul QQ y (cq r_ops dd))). rewrite Z1, <- (r_mul_assoc QQ), <- (r_distr_r QQ).
        change (u = r_mul QQ y w). unfold y. rewrite <- (r_mul_assoc QQ), (d_inv_l QQ Hp). symmetry. apply (r_mul_1_r QQ). }
      destruct Ns as (dt & Ed & Hd). rewrite (m_det_22 (CF rem)) in Ed. apply Ok_inj in Ed. apply Hd.
      clear - Z1 Z2 Ed. clearbody y. destruct y as [y0 y1 y2 y3], a as [a0 a1], b as [b0 b1], c as [c0 c1], dd as [d0 d1]. subst dt.
      unfold cq in Z1, Z2. cbn in Z1, Z2. injection Z1 as A0 A1 A2 A3. injection Z2 as B0 B1 B2 B3.
      cbn. f_equal; rewrite A0, A1, B0, B1; ring. }
    assert (Qa : qn al <> 0) by exact (@q_nrm_neq _ _ r_field r_real4 al Ha).
    assert (Iw : d_inv QQ w <> Qt 0 0 0 0) by (apply (d_inv_nz QQ); exact Hp).
    assert (Qw : qn (qinv w) <> 0) by exact (@q_nrm_neq _ _ r_field r_real4 (d_inv QQ w) Iw).
    pose proof (qn_pos al). pose proof (qn_pos (qinv w)).
    exists (qn (qinv w) * qn al). split. { apply Rmult_lt_0_compat; lra. }
    intros u1 v1 _ _. unfold t. cbn [t_deriv moebius_q_transform sp_dot qspace sp_pt].
    change (f_two (r_float eps)) with 2. rewrite !DV.
    do 3 eexists. split; [reflexivity|]. split; [reflexivity|]. split; [exact I|]. split; [exact I|].
    rewrite !(q_dot_v r_ring). split; [reflexivity|]. f_equal.
    match goal with |- ?l = _ * ?r => change r with (qdot u1 v1);
      change l with (qdot (dform QQ (cq r_ops a) (cq r_ops c) y w u1) (dform QQ (cq r_ops a) (cq r_ops c) y w v1)) end.
    rewrite !EQ, qdot_rmul, qdot_lmul. ring.
Qed.
Corollary C68_moebius : forall rem eps,
  keeps_normals cspace (moebius_c_transform r_ops rem) (moebius_c_directional r_ops rem (r_float eps)) (moe_c_ok rem) /\
  keeps_normals qspace (moebius_q_transform r_ops rem (r_float eps)) (moebius_q_directional r_ops rem (r_float eps)) (moe_q_ok rem).
Proof. intros. split; [apply C69_moebius_complex|apply C69_moebius_quaternion]. Qed.

(* ------------------------------------------------------------------------- *)
(** * Examples                                                                 *)
Example C68_ex : affine_ok 2 ([5; 7], [[2; 1]; [0; 1]]) [1; 1] /\ positive (vspace 2) [3; 4] /\ ~ unit_len (vspace 2) [3; 4] /\
  v_dot r_ops 2 [3; 4] [-4; 3] = Ok 0.
Proof.
  split; [|split; [|split]].
  - split; [reflexivity|]. split; [split; [reflexivity|repeat constructor]|]. eexists. split; [apply (m_det_22 r_ring)|]. cbn. lra.
  - eexists. split; [apply (v_dot_2 r_ring)|]. cbn. lra.
  - unfold unit_len. cbn [sp_dot vspace]. rewrite (v_dot_2 r_ring). intros E. apply Ok_inj in E. cbn in E. lra.
  - rewrite (v_dot_2 r_ring). f_equal. cbn. ring.
Qed.
Example C69_moebius_ex : forall rem, moe_c_ok rem [[Cx 0 0; Cx 1 0]; [Cx 1 0; Cx 0 0]] (Cx 0 1) /\
  moe_q_ok rem [[Cx 0 0; Cx 1 0]; [Cx 1 0; Cx 0 0]] (Qt 0 0 1 0).
Proof.
  intros rem. assert (N : nonsingular (c_ops r_ops rem) 2 [[Cx 0 0; Cx 1 0]; [Cx 1 0; Cx 0 0]]).
  { eexists. split; [apply (m_det_22 (CF rem))|]. intros E. apply (f_equal (fun z => re z)) in E. cbn in E. lra. }
  split; (split; [split; [reflexivity|repeat constructor]|split; [exact N|]]).
  - apply C52_ex. - apply C53_ex.
Qed.

Print Assumptions C69_chain.
Print Assumptions C68_chain.
Print Assumptions C68_normal_transform.
Print Assumptions C69_linear.
Print Assumptions C68_linear.
Print Assumptions C69_linear_unit.
Print Assumptions C69_shift.
Print Assumptions C68_shift.
Print Assumptions C69_scale_positive.
Print Assumptions C68_scale_positive.
Print Assumptions C68_scale_orthogonal.
Print Assumptions C69_scale_refuted.
Print Assumptions C68_scale_refuted.
Print Assumptions C69_rotation2.
Print Assumptions C69_rotation3.
Print Assumptions C68_rotations.
Print Assumptions C69_affine.
Print Assumptions C68_affine.
Print Assumptions C69_rigid.
Print Assumptions C69_moebius_complex.
Print Assumptions C69_moebius_quaternion.
Print Assumptions C68_moebius.
