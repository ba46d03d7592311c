(* ------------------------------------------------------------------------- *)
(** * Explicit conditions: how large the numbers may be                        *)
Local Open Scope Z_scope.
Section Const.
  Context {T : Type} (o : Ops T).
  (** Operations on arguments all of whose components are equal. *)
  Lemma fold_const : forall n z t, (forall k, (k < n)%nat -> o_add o (t k) z = Ok (t (S k))) -> fold_res (o_add o) (t 0%nat) (vk n (fun _ => z)) = Ok (t n).
  Proof.
    induction n as [|n IH]; intros z t H; auto. rewrite vk_S. cbn [fold_res]. rewrite H by lia. cbn [bind].
    apply (IH z (fun k => t (S k))). intros k Hk. apply H. lia.
  Qed.
  Lemma c_mul_const : forall a b p d s, o_mul o a b = Ok p -> o_sub o p p = Ok d -> o_add o p p = Ok s -> c_mul o (Cx a a) (Cx b b) = Ok (Cx d s).
  Proof. intros a b p d s E F G. unfold c_mul. cbn. rewrite !E. cbn. rewrite F, G. reflexivity. Qed.
  Lemma q_mul_const : forall a b p p2 p3 p4, o_mul o a b = Ok p -> o_sub o p p = Ok p2 -> o_add o p p = Ok p2 ->
    o_sub o p2 p = Ok p3 -> o_add o p2 p = Ok p3 -> o_sub o p3 p = Ok p4 -> o_add o p3 p = Ok p4 ->
    q_mul o (Qt a a a a) (Qt b b b b) = Ok (Qt p4 p4 p4 p4).
  Proof. intros a b p p2 p3 p4 E F1 F2 G1 G2 H1 H2. unfold q_mul. cbn. rewrite !E. cbn. rewrite F1, F2. cbn. rewrite G1, G2. cbn. rewrite H1, H2. reflexivity. Qed.
  Lemma cross3_const : forall a b p d, o_mul o a b = Ok p -> o_sub o p p = Ok d -> v_cross3 o [a; a; a] [b; b; b] = Ok [d; d; d].
  Proof. intros a b p d E F. unfold v_cross3. cbn. rewrite !E. cbn. rewrite !F. reflexivity. Qed.
  Lemma cross2_const : forall a b p d, o_mul o a b = Ok p -> o_sub o p p = Ok d -> v_cross2 o [a; a] [b; b] = Ok d.
  Proof. intros a b p d E F. unfold v_cross2. cbn. rewrite !E. cbn. rewrite !F. reflexivity. Qed.
End Const.

Section Size.
  Context (signed : bool) (w : Z) (Hw : width signed w).
  Local Notation K := (int_max signed w).
  Local Notation ranges := (range_ops signed w).
  Local Notation small := (small signed).
  Let sg (B : Z) : range := ((if signed then - B else 0), B).

  Lemma max_pos : 1 <= K.
  Proof.
    unfold width, int_max in *. destruct signed.
    - assert (2 ^ 1 <= 2 ^ (w - 1)) by (apply Z.pow_le_mono_r; lia). lia.
    - assert (2 ^ 1 <= 2 ^ w) by (apply Z.pow_le_mono_r; lia). lia.
  Qed.
  Lemma sg_clip : forall B, 0 <= B <= K -> clip signed w (if signed then - B else 0) B = Ok (sg B).
  Proof.
    intros B H. unfold clip. replace (_ && _)%bool with true; auto. symmetry. apply andb_true_intro. split; apply Z.leb_le; [|lia].
    unfold int_max, int_min in *. destruct signed; lia.
  Qed.
  Lemma sg_add : forall A B, 0 <= A -> 0 <= B -> A + B <= K -> o_add ranges (sg A) (sg B) = Ok (sg (A + B)).
  Proof. intros A B HA HB H. rewrite <- sg_clip by lia. unfold sg. cbn. f_equal. destruct signed; lia. Qed.
  Lemma sg_mul : forall A B, 0 <= A -> 0 <= B -> A * B <= K -> o_mul ranges (sg A) (sg B) = Ok (sg (A * B)).
  Proof.
    intros A B HA HB H. rewrite <- sg_clip by nia. unfold sg. cbn. assert (0 <= A * B) by nia. unfold min4, max4.
    destruct signed; f_equal; rewrite ?Z.mul_opp_l, ?Z.mul_opp_r, ?Z.mul_0_l, ?Z.mul_0_r; lia.
  Qed.
  Lemma sg_sub : forall A B, signed = true -> 0 <= A -> 0 <= B -> A + B <= K -> o_sub ranges (sg A) (sg B) = Ok (sg (A + B)).
  Proof. intros A B S HA HB H. rewrite <- sg_clip by lia. unfold sg. rewrite S. cbn. f_equal; lia. Qed.
  Lemma v_small : forall N B x, length x = N -> Forall (small B) x -> v_inside (vk N (fun _ => sg B)) x.
  Proof.
    intros N B x L F. subst N. unfold vk. generalize 0%nat as s. induction F as [|y x Hy F IH]; intros s; cbn; constructor; auto. apply IH.
  Qed.
  Lemma v_small_inv : forall N B x, v_inside (vk N (fun _ => sg B)) x -> Forall (small B) x.
  Proof.
    intros N B x. unfold vk. generalize 0%nat as s. revert N. induction x as [|y x IH]; intros [|N] s H; inversion H; subst; constructor; auto. eapply IH. eassumption.
  Qed.
  Lemma m_small : forall M N B x, rect M N x -> Forall (Forall (small B)) x -> m_inside (mk M N (fun _ _ => sg B)) x.
  Proof.
    intros M N B x (L & R) F. subst M. unfold mk. unfold vk at 1. generalize 0%nat as s. induction F as [|y x Hy F IH]; intros s; cbn [seq length map]; constructor.
    - apply v_small; auto. inversion R; auto.
    - apply IH. inversion R; auto.
  Qed.
  Lemma m_small_inv : forall M N B x, m_inside (mk M N (fun _ _ => sg B)) x -> Forall (Forall (small B)) x.
  Proof.
    intros M N B x. unfold mk. unfold vk at 1. generalize 0%nat as s. revert M. induction x as [|y x IH]; intros [|M] s H; inversion H; subst; constructor.
    - eapply v_small_inv. eassumption.
    - eapply IH. eassumption.
  Qed.

  Lemma sum_ranges : forall N B, (0 < N)%nat -> 0 <= B -> Z.of_nat N * B <= K -> v_sum ranges (vk N (fun _ => sg B)) = Ok (sg (Z.of_nat N * B)).
  Proof.
    intros [|n] B HN HB H; [lia|]. rewrite vk_S. unfold v_sum. rewrite v_fold_first_cons.
    replace (sg B) with (sg (Z.of_nat 1 * B)) at 1 by (f_equal; lia).
    rewrite (@fold_const _ ranges n (sg B) (fun k => sg (Z.of_nat (S k) * B))); auto. intros k Hk.
    replace (Z.of_nat (S (S k)) * B) with (Z.of_nat (S k) * B + B) by lia. apply sg_add; nia.
  Qed.
  Lemma dot_ranges : forall N A B, (0 < N)%nat -> 0 <= A -> 0 <= B -> Z.of_nat N * (A * B) <= K ->
    v_dot ranges N (vk N (fun _ => sg A)) (vk N (fun _ => sg B)) = Ok (sg (Z.of_nat N * (A * B))).
  Proof.
    intros N A B HN HA HB H. unfold v_dot. rewrite v_zip_map_res by apply vk_length.
    rewrite (@map2_res_vk _ _ _ _ N _ _ (fun _ => sg (A * B))). 2: { intros. apply sg_mul; auto. nia. }
    cbn [bind]. apply sum_ranges; auto. nia.
  Qed.

  (** ** Element-wise operations *)
  Theorem C109_add_size : forall N A B x y, length x = N -> length y = N -> 0 <= A -> 0 <= B ->
    Forall (small A) x -> Forall (small B) y -> A + B <= K -> exact_in signed w (fun o => v_add o N x y) (Forall (small (A + B))).
  Proof.
    intros N A B x y Lx Ly HA HB Fx Fy H. apply exact_in_mono with (P := v_inside (vk N (fun _ => sg (A + B)))). { apply v_small_inv. }
    eapply (@C109_v_add signed w Hw); [apply vk_length|apply vk_length|apply v_small; eassumption|apply v_small; eassumption|]; auto.
    unfold v_add. rewrite v_zip_map_res by apply vk_length. apply map2_res_vk. intros. apply sg_add; auto.
  Qed.
  Theorem C109_mul_size : forall N A B x y, length x = N -> length y = N -> 0 <= A -> 0 <= B ->
    Forall (small A) x -> Forall (small B) y -> A * B <= K -> exact_in signed w (fun o => v_mul o N x y) (Forall (small (A * B))).
  Proof.
    intros N A B x y Lx Ly HA HB Fx Fy H. apply exact_in_mono with (P := v_inside (vk N (fun _ => sg (A * B)))). { apply v_small_inv. }
    eapply (@C109_v_mul signed w Hw); [apply vk_length|apply vk_length|apply v_small; eassumption|apply v_small; eassumption|]; auto.
    unfold v_mul. rewrite v_zip_map_res by apply vk_length. apply map2_res_vk. intros. apply sg_mul; auto.
  Qed.
  (** ** Sums, dot products and products of matrices: the number of terms times the bound on one *)
  Theorem C109_sum_size : forall N B x, length x = N -> (0 < N)%nat -> 0 <= B -> Forall (small B) x -> Z.of_nat N * B <= K ->
    exact_in signed w (fun o => v_sum o x) (small (Z.of_nat N * B)).
  Proof.
    intros N B x Lx HN HB Fx H. apply exact_in_mono with (P := inside (sg (Z.of_nat N * B))). { auto. }
    eapply (@C109_v_sum signed w Hw N); [apply vk_length|apply v_small; eassumption|]. apply sum_ranges; auto.
  Qed.
  Theorem C109_dot_size : forall N A B x y, length x = N -> length y = N -> (0 < N)%nat -> 0 <= A -> 0 <= B ->
    Forall (small A) x -> Forall (small B) y -> Z.of_nat N * (A * B) <= K ->
    exact_in signed w (fun o => v_dot o N x y) (small (Z.of_nat N * (A * B))).
  Proof.
    intros N A B x y Lx Ly HN HA HB Fx Fy H. apply exact_in_mono with (P := inside (sg (Z.of_nat N * (A * B)))). { auto. }
    eapply (@C109_v_dot signed w Hw); [apply vk_length|apply vk_length|apply v_small; eassumption|apply v_small; eassumption|]; auto. apply dot_ranges; auto.
  Qed.
  Theorem C109_square_length_size : forall N A x, length x = N -> (0 < N)%nat -> 0 <= A -> Forall (small A) x -> Z.of_nat N * (A * A) <= K ->
    exact_in signed w (fun o => v_square_length o x) (small (Z.of_nat N * (A * A))).
  Proof.
    intros N A x Lx HN HA Fx H. apply exact_in_mono with (P := inside (sg (Z.of_nat N * (A * A)))). { auto. }
    eapply (@C109_v_square_length signed w Hw N); [apply vk_length|apply v_small; eassumption|]. unfold v_square_length. rewrite v_map_res.
    unfold vk. rewrite map_res_map. erewrite map_res_ext. 2: { intros. apply sg_mul with (A := A) (B := A); auto. nia. }
    rewrite map_res_ok. cbn [bind]. exact (@sum_ranges N (A * A) HN ltac:(nia) H).
  Qed.
  Theorem C109_product_size : forall L M N A B x y, rect L M x -> rect M N y -> (0 < M)%nat -> 0 <= A -> 0 <= B ->
    Forall (Forall (small A)) x -> Forall (Forall (small B)) y -> Z.of_nat M * (A * B) <= K ->
    exact_in signed w (fun o => m_dot o L M N x y) (Forall (Forall (small (Z.of_nat M * (A * B))))).
  Proof.
    intros L M N A B x y Rx Ry HM HA HB Fx Fy H. apply exact_in_mono with (P := m_inside (mk L N (fun _ _ => sg (Z.of_nat M * (A * B))))). { apply m_small_inv. }
    eapply (@C109_m_dot signed w Hw); [apply rect_mk|apply rect_mk|apply m_small; eassumption|apply m_small; eassumption|]; auto.
    unfold m_dot. rewrite m_indices_mk. cbn [bind]. apply m_map_mk. intros i j Hi Hj. rewrite m_row_mk, m_col_mk by auto. cbn [bind]. apply dot_ranges; auto.
  Qed.
  Theorem C109_matrix_vector_size : forall M N A B x y, rect M N x -> length y = N -> (0 < N)%nat -> 0 <= A -> 0 <= B ->
    Forall (Forall (small A)) x -> Forall (small B) y -> Z.of_nat N * (A * B) <= K ->
    exact_in signed w (fun o => m_dot_v o M N x y) (Forall (small (Z.of_nat N * (A * B)))).
  Proof.
    intros M N A B x y Rx Ly HN HA HB Fx Fy H. apply exact_in_mono with (P := v_inside (vk M (fun _ => sg (Z.of_nat N * (A * B))))). { apply v_small_inv. }
    eapply (@C109_m_dot_v signed w Hw); [apply rect_mk|apply vk_length|apply m_small; eassumption|apply v_small; eassumption|]; auto.
    unfold m_dot_v. rewrite v_indices_seq. cbn [bind]. rewrite <- vk_seq. apply v_map_vk. intros i Hi. rewrite m_row_mk by auto. cbn [bind]. apply dot_ranges; auto.
  Qed.
  (** ** The condition on dot products cannot be weakened: with full-size arguments a larger product overflows *)
  Theorem C109_dot_sharp : forall N A B, (0 < N)%nat -> 0 <= A -> 0 <= B ->
    ((forall x y, length x = N -> length y = N -> Forall (small A) x -> Forall (small B) y -> returns (v_dot (checked_ops signed w) N x y)) <->
     Z.of_nat N * (A * B) <= K).
  Proof.
    intros N A B HN HA HB. split.
    - intros H. destruct (H (vk N (fun _ => A)) (vk N (fun _ => B)) (vk_length _ _) (vk_length _ _)) as (r & E).
      1,2: apply Forall_forall; intros z Hz; apply in_map_iff in Hz as (i & <- & _); unfold SpecRange.small; destruct signed; lia.
      apply C70_dot_exact in E; try apply vk_length. destruct E as (_ & -> & P1 & P2).
      assert (E : forall k, (k <= N)%nat -> bigsum z_ring k (fun i => vget z_ops (vk N (fun _ => A)) i * vget z_ops (vk N (fun _ => B)) i) = Z.of_nat k * (A * B)).
      { induction k as [|k IH]; intros Hk; [reflexivity|]. cbn [bigsum]. rewrite IH by lia. rewrite !vget_vk by lia. change (r_add z_ring) with Z.add. lia. }
      destruct (Nat.eq_dec N 1) as [->|Ne].
      + specialize (P1 0%nat ltac:(lia)). rewrite !vget_vk in P1 by lia. unfold in_word in P1. lia.
      + specialize (P2 N ltac:(lia)). rewrite E in P2 by lia. unfold in_word in P2. lia.
    - intros H x y Lx Ly Fx Fy. destruct (@C109_dot_size N A B x y Lx Ly HN HA HB Fx Fy H) as (s & _ & E & _). exists s. exact E.
  Qed.
End Size.

(** ** Signed types: products of complex numbers and quaternions, cross products, determinants, adjugates and inverses *)
Section SignedSize.
  Context (w : Z) (Hw : width true w).
  Local Notation K := (int_max true w).
  Local Notation small := (small true).
  Local Notation ranges := (range_ops true w).
  Local Notation chk := (checked_ops true w).
  Let sg (B : Z) : range := (- B, B).
  Theorem C109_complex_mul_size : forall A B x y, 0 <= A -> 0 <= B -> c_all (small A) x -> c_all (small B) y -> 2 * (A * B) <= K ->
    exact_in true w (fun o => c_mul o x y) (c_all (small (2 * (A * B)))).
  Proof.
    intros A B x y HA HB (X1 & X2) (Y1 & Y2) H. apply exact_in_mono with (P := c_inside (Cx (sg (2 * (A * B))) (sg (2 * (A * B))))). { auto. }
    apply (@C109_c_mul true w Hw (Cx (sg A) (sg A)) (Cx (sg B) (sg B))). { split; auto. } { split; auto. }
    apply c_mul_const with (p := sg (A * B)).
    - apply (@sg_mul true w Hw); auto. nia.
    - replace (2 * (A * B)) with (A * B + A * B) by lia. apply (@sg_sub true w Hw); [reflexivity|..]; nia.
    - replace (2 * (A * B)) with (A * B + A * B) by lia. apply (@sg_add true w Hw); nia.
  Qed.
  Theorem C109_quaternion_mul_size : forall A B x y, 0 <= A -> 0 <= B -> q_all (small A) x -> q_all (small B) y -> 4 * (A * B) <= K ->
    exact_in true w (fun o => q_mul o x y) (q_all (small (4 * (A * B)))).
  Proof.
    intros A B x y HA HB (X1 & X2 & X3 & X4) (Y1 & Y2 & Y3 & Y4) H. set (s := sg (4 * (A * B))). apply exact_in_mono with (P := q_inside (Qt s s s s)). { auto. }
    apply (@C109_q_mul true w Hw (Qt (sg A) (sg A) (sg A) (sg A)) (Qt (sg B) (sg B) (sg B) (sg B))). { repeat split; apply X1 || apply X2 || apply X3 || apply X4. } { repeat split; apply Y1 || apply Y2 || apply Y3 || apply Y4. }
    unfold s. clear s. assert (P : 0 <= A * B) by nia.
    apply q_mul_const with (p := sg (A * B)) (p2 := sg (2 * (A * B))) (p3 := sg (3 * (A * B))).
    - apply (@sg_mul true w Hw); auto. lia.
    - replace (2 * (A * B)) with (A * B + A * B) by lia. apply (@sg_sub true w Hw); [reflexivity|..]; lia.
    - replace (2 * (A * B)) with (A * B + A * B) by lia. apply (@sg_add true w Hw); lia.
    - replace (3 * (A * B)) with (2 * (A * B) + A * B) by lia. apply (@sg_sub true w Hw); [reflexivity|..]; lia.
    - replace (3 * (A * B)) with (2 * (A * B) + A * B) by lia. apply (@sg_add true w Hw); lia.
    - replace (4 * (A * B)) with (3 * (A * B) + A * B) by lia. apply (@sg_sub true w Hw); [reflexivity|..]; lia.
    - replace (4 * (A * B)) with (3 * (A * B) + A * B) by lia. apply (@sg_add true w Hw); lia.
  Qed.
  Theorem C109_cross3_size : forall A B x y, length x = 3%nat -> length y = 3%nat -> 0 <= A -> 0 <= B ->
    Forall (small A) x -> Forall (small B) y -> 2 * (A * B) <= K ->
    exact_in true w (fun o => v_cross3 o x y) (Forall (small (2 * (A * B)))).
  Proof.
    intros A B x y Lx Ly HA HB Fx Fy H. apply exact_in_mono with (P := v_inside (vk 3 (fun _ => sg (2 * (A * B))))). { apply (@v_small_inv true). }
    apply (@C109_v_cross3 true w Hw (vk 3 (fun _ => sg A)) (vk 3 (fun _ => sg B))); auto; try (apply (@v_small true); auto).
    apply cross3_const with (p := sg (A * B)).
    - apply (@sg_mul true w Hw); auto. nia.
    - replace (2 * (A * B)) with (A * B + A * B) by lia. apply (@sg_sub true w Hw); [reflexivity|..]; nia.
  Qed.

  (** The determinant: N! B^N. *)
  Definition det_size (n : nat) (B : Z) : Z := Z.of_nat (fact n) * B ^ Z.of_nat n.
  Lemma det_size_pos : forall n B, 0 <= B -> 0 <= det_size n B.
  Proof. intros. unfold det_size. apply Z.mul_nonneg_nonneg; [lia|]. apply Z.pow_nonneg. auto. Qed.
  Lemma det_size_S : forall n B, det_size (S n) B = Z.of_nat (S n) * (B * det_size n B).
  Proof.
    intros. unfold det_size. rewrite Nat2Z.inj_succ, Z.pow_succ_r by lia. change (fact (S n)) with (S n * fact n)%nat. rewrite Nat2Z.inj_mul, Nat2Z.inj_succ. ring.
  Qed.
  Lemma det_size_mono : forall n B, 0 <= B -> det_size (S n) B <= K -> det_size n B <= K.
  Proof.
    intros n B HB H. pose proof (@max_pos true w Hw) as M. pose proof (@det_size_pos n _ HB) as P. rewrite det_size_S in H.
    destruct (Z.eq_dec B 0) as [->|].
    - clear H. destruct n; [change (det_size 0 0) with 1; lia|]. rewrite det_size_S. lia.
    - assert (0 < Z.of_nat (S n) * B) by nia. rewrite Z.mul_assoc in H. nia.
  Qed.
  Lemma check_small : forall x B, Z.abs x <= B -> B <= K -> check true w x = Ok x.
  Proof.
    intros x B H1 H2. unfold check. replace (in_wordb true w x) with true; auto. symmetry. apply in_wordb_spec. unfold in_word, int_min, int_max in *. lia.
  Qed.
  Lemma rneg_small : forall k c B, Z.abs c <= B -> B <= K -> exists c1, rneg chk k c = Ok c1 /\ Z.abs c1 <= B.
  Proof.
    intros k c B H1 H2. unfold rneg. destruct (_ =? _)%nat. { eauto. } cbn [o_neg checked_ops]. rewrite (@check_small (- c) B) by lia. exists (- c). split; auto. lia.
  Qed.
  Lemma rdet_small : forall N m B, rect N N m -> 0 <= B -> Forall (Forall (small B)) m ->
    forall rows cols, length rows = length cols -> (forall x, In x rows -> (x < N)%nat) -> (forall x, In x cols -> (x < N)%nat) ->
    det_size (length rows) B <= K -> exists d, rdet chk m rows cols = Ok d /\ Z.abs d <= det_size (length rows) B.
  Proof.
    intros N m B Rm HB Fm. induction rows as [|i rows IH]; intros cols L Hr Hc H. { exists 1. split; auto. cbn. lia. }
    cbn [rdet]. cbn [length] in H, L |- *. pose proof (@det_size_mono _ _ HB H) as H1. rewrite det_size_S in H |- *. set (D := det_size (length rows) B) in *.
    assert (PD : 0 <= D) by (apply det_size_pos; auto). assert (PBD : 0 <= B * D) by nia.
    assert (G : forall l a n, (forall k, In k l -> (k < length cols)%nat) -> Z.abs a <= Z.of_nat n * (B * D) -> (n + length l <= S (length rows))%nat ->
      exists d, fold_res (fun a k =>
          let! x := m_index m (i, nth k cols 0%nat) in
          let! c := rdet chk m rows (remove_at k cols) in
          let! c1 := rneg chk k c in
          let! p := o_mul chk x c1 in
          o_add chk a p) a l = Ok d /\ Z.abs d <= Z.of_nat (n + length l) * (B * D)).
    { induction l as [|k l IHl]; intros a n Hl Ha Hn. { exists a. split; auto. cbn [length]. replace (n + 0)%nat with n by lia. auto. }
      cbn [fold_res]. assert (Hk : (k < length cols)%nat) by (apply Hl; left; auto).
      assert (Hk2 : (nth k cols 0 < N)%nat) by (apply Hc; apply nth_In; auto).
      destruct (m_index_spec i (nth k cols 0%nat) Rm) as (X & _).
      destruct X as (x & Ex1 & Ex & _); [split; [apply Hr; left; auto|auto]|]. rewrite Ex. cbn [bind].
      assert (Sx : Z.abs x <= B).
      { assert (Q : small B x). { unfold elt in Ex1. destruct (nth_error m i) as [r|] eqn:Er; [|discriminate]. cbn in Ex1.
          apply nth_error_In in Er, Ex1. rewrite Forall_forall in Fm. specialize (Fm r Er). rewrite Forall_forall in Fm. auto. }
        unfold SpecRange.small in Q. lia. }
      destruct (IH (remove_at k cols)) as (c & Ec & Sc); auto.
      { rewrite remove_at_length by auto. lia. } { intros. apply Hr. right. auto. }
      { intros y Hy. apply Hc. clear -Hy. revert k Hy. induction cols; intros [|k] Hy; simpl in *; auto. destruct Hy; auto. right. eapply IHcols. eauto. }
      rewrite Ec. cbn [bind]. destruct (@rneg_small k c D Sc H1) as (c1 & E1 & S1). rewrite E1. cbn [bind o_mul o_add checked_ops].
      assert (P : Z.abs (x * c1) <= B * D) by (rewrite Z.abs_mul; nia).
      assert (BK : B * D <= K) by (cbn [length] in Hn; nia).
      rewrite (@check_small (x * c1) (B * D)) by auto. cbn [bind].
      assert (A1 : Z.abs (a + x * c1) <= Z.of_nat (S n) * (B * D)) by lia.
      rewrite (@check_small (a + x * c1) (Z.of_nat (S n) * (B * D))); auto. 2: { cbn [length] in Hn. nia. }
      cbn [bind]. destruct (IHl (a + x * c1) (S n)) as (d & Ed & Sd); auto. { intros. apply Hl. right. auto. } { cbn [length] in Hn. lia. }
      exists d. split; auto. cbn [length]. replace (n + S (length l))%nat with (S n + length l)%nat by lia. auto. }
    destruct (G (seq 0 (length cols)) 0 0%nat) as (d & Ed & Sd).
    - intros k Hk. apply in_seq in Hk. lia.
    - cbn. lia.
    - rewrite seq_length. lia.
    - exists d. split; auto. rewrite seq_length in Sd. replace (S (length rows)) with (0 + length cols)%nat by lia. auto.
  Qed.
  Theorem C109_det_size : forall N m B, rect N N m -> 0 <= B -> Forall (Forall (small B)) m -> Z.of_nat (fact N) * B ^ Z.of_nat N <= K ->
    exact_in true w (fun o => m_det o N m) (small (Z.of_nat (fact N) * B ^ Z.of_nat N)).
  Proof.
    intros N m B Rm HB Fm H. apply exact_in_intro; [|intros s Hs; eapply C70_m_det; eassumption|intros s Hs; eapply C71_release_m_det; eassumption].
    rewrite m_det_spec. destruct (@rdet_small N m B Rm HB Fm (seq 0 N) (seq 0 N)) as (d & Ed & Sd); auto.
    1,2: intros x Hx; apply in_seq in Hx; lia.
    { rewrite seq_length. exact H. }
    exists d. split; auto. rewrite seq_length in Sd. unfold det_size in Sd. unfold SpecRange.small. lia.
  Qed.
  Lemma cofactor_small : forall n m B i j, rect (S n) (S n) m -> 0 <= B -> Forall (Forall (small B)) m -> det_size n B <= K -> (i < S n)%nat -> (j < S n)%nat ->
    exists c, m_cofactor chk (S n) m i j = Ok c /\ Z.abs c <= det_size n B.
  Proof.
    intros n m B i j Rm HB Fm H Hi Hj. rewrite m_cofactor_spec by auto.
    assert (Q : forall k x, (k < S n)%nat -> In x (remove_at k (seq 0 (S n))) -> (x < S n)%nat).
    { intros k x Hk Hx. rewrite remove_at_seq in Hx by auto. apply in_map_iff in Hx as (y & <- & Hy). apply in_seq in Hy. unfold skip. destruct (y <? k)%nat; lia. }
    destruct (@rdet_small (S n) m B Rm HB Fm (remove_at i (seq 0 (S n))) (remove_at j (seq 0 (S n)))) as (d & Ed & Sd); eauto.
    { rewrite !remove_at_length by (rewrite seq_length; auto). auto. }
    { rewrite remove_at_length by (rewrite seq_length; auto). rewrite seq_length. replace (S n - 1)%nat with n by lia. auto. }
    rewrite remove_at_length in Sd by (rewrite seq_length; auto). rewrite seq_length in Sd. replace (S n - 1)%nat with n in Sd by lia.
    rewrite Ed. cbn [bind]. apply rneg_small; auto.
  Qed.
  Lemma adj_small : forall n m B, rect (S n) (S n) m -> 0 <= B -> Forall (Forall (small B)) m -> det_size n B <= K ->
    exists a, m_adj chk (S n) m = Ok a /\ rect (S n) (S n) a /\ Forall (Forall (small (det_size n B))) a.
  Proof.
    intros n m B Rm HB Fm H. set (c := fun i j => match m_cofactor chk (S n) m j i with Ok x => x | _ => 0 end).
    exists (mk (S n) (S n) c). split; [|split; [apply rect_mk|]].
    - unfold m_adj. rewrite m_indices_mk. cbn [bind]. apply m_map_mk. intros i j Hi Hj. unfold c.
      destruct (@cofactor_small n m B j i Rm HB Fm H Hj Hi) as (x & -> & _). reflexivity.
    - apply Forall_forall. intros r Hr. apply in_map_iff in Hr as (i & <- & Hi). apply in_seq in Hi. apply Forall_forall. intros x Hx.
      apply in_map_iff in Hx as (j & <- & Hj). apply in_seq in Hj. unfold c.
      destruct (@cofactor_small n m B j i Rm HB Fm H) as (x & -> & S); try lia. unfold SpecRange.small. lia.
  Qed.
  Theorem C109_adj_size : forall n m B, rect (S n) (S n) m -> 0 <= B -> Forall (Forall (small B)) m -> Z.of_nat (fact n) * B ^ Z.of_nat n <= K ->
    exact_in true w (fun o => m_adj o (S n) m) (Forall (Forall (small (Z.of_nat (fact n) * B ^ Z.of_nat n)))).
  Proof.
    intros n m B Rm HB Fm H. apply exact_in_intro; [|intros s Hs; eapply C70_m_adj; eassumption|intros s Hs; eapply C71_release_m_adj; eassumption].
    destruct (@adj_small n m B Rm HB Fm H) as (a & E & _ & F). eauto.
  Qed.
  (** The inverse, which truncates each quotient: no overflow if the determinant and the cofactors fit; it panics only if det is zero. *)
  Theorem C109_inv_size : forall n m B d, rect (S n) (S n) m -> 0 <= B -> Forall (Forall (small B)) m -> Z.of_nat (fact (S n)) * B ^ Z.of_nat (S n) <= K ->
    m_det z_ops (S n) m = Ok d -> d <> 0 ->
    exact_in true w (fun o => m_inv o (S n) m) (Forall (Forall (small (Z.of_nat (fact n) * B ^ Z.of_nat n)))).
  Proof.
    intros n m B d Rm HB Fm H Hd Hz. apply exact_in_intro; [|intros s Hs; eapply C70_m_inv; eassumption|intros s Hs; eapply C71_release_m_inv; eassumption].
    destruct (@C109_det_size (S n) m B Rm HB Fm H) as (d' & E1 & E2 & _ & _). rewrite Hd in E1. apply Ok_inj in E1. subst d'.
    pose proof (@det_size_mono _ _ HB H) as H1. destruct (@adj_small n m B Rm HB Fm H1) as (a & E & Ra & F).
    unfold m_inv. rewrite E, E2. cbn [bind]. unfold m_sdiv.
    destruct (mk_ex z_ops Ra) as (f & ->). exists (mk (S n) (S n) (fun i j => Z.quot (f i j) d)).
    assert (Sf : forall i j, (i < S n)%nat -> (j < S n)%nat -> Z.abs (Z.quot (f i j) d) <= det_size n B).
    { intros i j Hi Hj. assert (Q : small (det_size n B) (f i j)).
      { rewrite Forall_forall in F. specialize (F (vk (S n) (f i))). rewrite Forall_forall in F. apply F.
        - apply in_map_iff. exists i. split; auto. apply in_seq. lia.
        - apply in_map_iff. exists j. split; auto. apply in_seq. lia. }
      unfold SpecRange.small in Q. rewrite <- Z.quot_abs by auto. assert (Z.quot (Z.abs (f i j)) (Z.abs d) <= Z.abs (f i j)); [|lia].
      rewrite Z.quot_div_nonneg by lia. apply Z.div_le_upper_bound; nia. }
    split.
    - apply m_map_mk. intros i j Hi Hj. cbn [o_div checked_ops]. replace (d =? 0) with false by (symmetry; apply Z.eqb_neq; auto). eapply check_small; eauto.
    - apply Forall_forall. intros r Hr. apply in_map_iff in Hr as (i & <- & Hi). apply in_seq in Hi. apply Forall_forall. intros x Hx.
      apply in_map_iff in Hx as (j & <- & Hj). apply in_seq in Hj. specialize (Sf i j ltac:(lia) ltac:(lia)). unfold SpecRange.small. unfold det_size in Sf. lia.
  Qed.
End SignedSize.

(** Chaining: the product of k + 1 matrices with elements up to B has elements up to N^k B^(k+1). *)
Section Powers.
  Context (signed : bool) (w : Z) (Hw : width signed w).
  Local Notation small := (small signed).
  Theorem C109_chain_size : forall N B x xs, rect N N x -> Forall (rect N N) xs -> (0 < N)%nat -> 1 <= B ->
    Forall (Forall (small B)) x -> Forall (Forall (Forall (small B))) xs ->
    Z.of_nat N ^ Z.of_nat (length xs) * B ^ Z.of_nat (S (length xs)) <= int_max signed w ->
    exact_in signed w (fun o => fold_res (fun a b => m_dot o N N N a b) x xs)
      (Forall (Forall (small (Z.of_nat N ^ Z.of_nat (length xs) * B ^ Z.of_nat (S (length xs)))))).
  Proof.
    intros N B x xs Rx Rxs HN HB Fx Fxs.
    assert (G : forall C xs x, 0 <= C -> rect N N x -> Forall (rect N N) xs -> Forall (Forall (small C)) x -> Forall (Forall (Forall (small B))) xs ->
      C * (Z.of_nat N * B) ^ Z.of_nat (length xs) <= int_max signed w ->
      exact_in signed w (fun o => fold_res (fun a b => m_dot o N N N a b) x xs) (Forall (Forall (small (C * (Z.of_nat N * B) ^ Z.of_nat (length xs)))))).
    { clear x xs Rx Rxs Fx Fxs. intros C xs. revert C. induction xs as [|y xs IH]; intros C x HC Rx Rxs Fx Fxs H.
      { exists x. cbn [length]. change (Z.of_nat 0) with 0. rewrite Z.pow_0_r, Z.mul_1_r. auto. }
      inversion Rxs as [|? ? Ry Rys]; subst. inversion Fxs as [|? ? Fy Fys]; subst.
      cbn [length] in *. rewrite Nat2Z.inj_succ, Z.pow_succ_r in H |- * by lia.
      set (q := (Z.of_nat N * B) ^ Z.of_nat (length xs)) in *.
      assert (Q : 1 <= q). { unfold q. assert (0 < (Z.of_nat N * B) ^ Z.of_nat (length xs)) by (apply Z.pow_pos_nonneg; nia). lia. }
      assert (E : C * (Z.of_nat N * B * q) = Z.of_nat N * (C * B) * q) by ring. rewrite E in H |- *.
      assert (H1 : Z.of_nat N * (C * B) <= int_max signed w). { assert (0 <= Z.of_nat N * (C * B)) by nia. nia. }
      destruct (@C109_product_size signed w Hw N N N C B x y Rx Ry HN HC ltac:(lia) Fx Fy H1) as (p & P1 & P2 & P3 & Fp).
      assert (Rp : rect N N p).
      { destruct (mk_ex z_ops Rx) as (f & ->). destruct (mk_ex z_ops Ry) as (g & ->). rewrite (m_dot_mk z_ring) in P1 by auto. apply Ok_inj in P1. subst p. apply rect_mk. }
      destruct (IH (Z.of_nat N * (C * B)) p ltac:(nia) Rp Rys Fp Fys H) as (s & S1 & S2 & S3 & S4).
      exists s. cbn [fold_res]. rewrite P1, P2, P3. auto. }
    intros H. assert (E : Z.of_nat N ^ Z.of_nat (length xs) * B ^ Z.of_nat (S (length xs)) = B * (Z.of_nat N * B) ^ Z.of_nat (length xs)).
    { rewrite Nat2Z.inj_succ, Z.pow_succ_r by lia. rewrite Z.pow_mul_l. ring. }
    rewrite E in H |- *. apply G; auto. lia.
  Qed.
End Powers.

(** i32: 4 by 4 determinants are exact for elements up to 97 in size (24 * 97^4 < 2^31), 3 by 3 for elements up to 710, 2 by 2 up to 32767. *)
Example C109_ex_i32 : forall m, 
  (rect 4 4 m -> Forall (Forall (small true 97)) m -> exact_in true 32 (fun o => m_det o 4 m) (small true (24 * 97 ^ 4))) /\
  (rect 3 3 m -> Forall (Forall (small true 710)) m -> exact_in true 32 (fun o => m_det o 3 m) (small true (6 * 710 ^ 3))) /\
  (rect 2 2 m -> Forall (Forall (small true 32767)) m -> exact_in true 32 (fun o => m_det o 2 m) (small true (2 * 32767 ^ 2))).
Proof.
  intros m. assert (Hw : width true 32) by (cbn; lia).
  repeat split; intros R F; [apply (@C109_det_size 32 Hw 4 m 97)|apply (@C109_det_size 32 Hw 3 m 710)|apply (@C109_det_size 32 Hw 2 m 32767)]; auto; vm_compute; discriminate.
Qed.
(** Ranges computed by the library itself: elements of known signs, u8 and i8; a difference that may be negative is rejected. *)
Example C109_ex_ranges :
  v_dot (range_ops true 8) 3 [(0, 5); (-2, 3); (1, 1)] [(4, 6); (-7, 7); (-10, 10)] = Ok (-31, 61) /\
  m_det (range_ops true 8) 2 [[(5, 7); (0, 2)]; (0, 3) :: [(4, 5)]] = Ok (14, 35) /\
  m_inv (range_ops true 8) 2 [[(1, 1); (0, 2)]; [(0, 3); (8, 9)]] = Ok [[(0, 4); (-1, 0)]; [(-1, 0); (0, 0)]] /\
  v_sub (range_ops false 8) 2 [(10, 20); (0, 9)] [(0, 10); (0, 1)] = Panic /\
  v_div (range_ops true 8) 2 [(-9, 10); (-128, 0)] [(2, 3); (1, 5)] = Ok [(-4, 5); (-128, 0)] /\
  v_div (range_ops true 8) 1 [(-128, 0)] [(-1, -1)] = Panic /\
  v_rem (range_ops true 8) 2 [(-9, 10); (20, 30)] [(2, 3); (-7, -5)] = Ok [(-2, 2); (0, 6)].
Proof. vm_compute. repeat split; reflexivity. Qed.
Example C109_ex_use : exact_in true 8 (fun o => v_dot o 3 [3; -2; 1] [4; 6; -10]) (inside (-31, 61)).
Proof.
  apply (@C109_v_dot true 8 ltac:(cbn; lia) 3 [(0, 5); (-2, 3); (1, 1)] [(4, 6); (-7, 7); (-10, 10)]); auto; repeat constructor; cbn; lia.
Qed.
