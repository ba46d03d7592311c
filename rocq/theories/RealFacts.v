(** Sums and norms over the reals. *)
From Coq Require Import Reals Lra Psatz.
From Verif Require Import AlgFacts MatProofs RealInst VecProofs.
Set Implicit Arguments.
Local Open Scope R_scope.

Definition rsum (n : nat) (f : nat -> R) : R := bigsum r_ring n f.

Lemma rsum_S : forall n f, rsum (S n) f = rsum n f + f n.
Proof. reflexivity. Qed.
Lemma rsum_ext : forall n f g, (forall i, (i < n)%nat -> f i = g i) -> rsum n f = rsum n g.
Proof. intros. apply bigsum_ext. auto. Qed.
Lemma rsum_add : forall n f g, rsum n (fun i => f i + g i) = rsum n f + rsum n g.
Proof. intros. apply (bigsum_add r_ring). Qed.
Lemma rsum_mul_l : forall n c f, rsum n (fun i => c * f i) = c * rsum n f.
Proof. intros. apply (bigsum_mul_l r_ring). Qed.
Lemma rsum_le : forall n f g, (forall i, (i < n)%nat -> f i <= g i) -> rsum n f <= rsum n g.
Proof.
  induction n; intros f g H. { apply Rle_refl. }
  rewrite !rsum_S. apply Rplus_le_compat. - apply IHn. intros. apply H. lia. - apply H. lia.
Qed.
Lemma rsum_nonneg : forall n f, (forall i, (i < n)%nat -> 0 <= f i) -> 0 <= rsum n f.
Proof.
  induction n; intros f H. { apply Rle_refl. }
  rewrite rsum_S. apply Rplus_le_le_0_compat. - apply IHn. intros. apply H. lia. - apply H. lia.
Qed.
Lemma rsum_term_le : forall n f k, (forall i, (i < n)%nat -> 0 <= f i) -> (k < n)%nat -> f k <= rsum n f.
Proof.
  induction n; intros f k H Hk; [lia|]. rewrite rsum_S.
  assert (P : 0 <= rsum n f) by (apply rsum_nonneg; intros; apply H; lia).
  destruct (Nat.eq_dec k n) as [->|Hn]. { lra. }
  specialize (IHn f k (fun i Hi => H i ltac:(lia)) ltac:(lia)). specialize (H n ltac:(lia)). lra.
Qed.
Lemma rsum_zero : forall n f, (forall i, (i < n)%nat -> 0 <= f i) -> rsum n f = 0 -> forall i, (i < n)%nat -> f i = 0.
Proof.
  intros n f H E i Hi. pose proof (rsum_term_le f H Hi). specialize (H i Hi). lra.
Qed.
Lemma rsum_const0 : forall n, rsum n (fun _ => 0) = 0.
Proof. apply (bigsum_zero r_ring). Qed.

Lemma sqpos : forall x, 0 <= x * x.
Proof. intros. apply Rle_0_sqr. Qed.

(** Cauchy-Schwarz. *)
Lemma cauchy : forall n a b,
  Rsqr (rsum n (fun i => a i * b i)) <= rsum n (fun i => a i * a i) * rsum n (fun i => b i * b i).
Proof.
  intros n a b. set (A := rsum n (fun i => a i * a i)). set (B := rsum n (fun i => b i * b i)).
  set (S := rsum n (fun i => a i * b i)).
  assert (HA : 0 <= A) by (apply rsum_nonneg; intros; apply sqpos).
  assert (P : forall t, 0 <= A * (t * t) + 2 * S * t + B).
  { intros t. replace (A * (t * t) + 2 * S * t + B) with (rsum n (fun i => (a i * t + b i) * (a i * t + b i))).
    - apply rsum_nonneg. intros. apply sqpos.
    - unfold A, B, S.
      replace (rsum n (fun i => a i * a i) * (t * t)) with (rsum n (fun i => (t * t) * (a i * a i)))
        by (rewrite rsum_mul_l; ring).
      replace (2 * rsum n (fun i => a i * b i) * t) with (rsum n (fun i => (2 * t) * (a i * b i)))
        by (rewrite rsum_mul_l; ring).
      rewrite <- !rsum_add. apply rsum_ext. intros. ring. }
  unfold Rsqr. destruct (Req_dec A 0) as [E|E].
  - assert (Z : S = 0).
    { unfold S. rewrite <- (rsum_const0 n). apply rsum_ext. intros i Hi.
      assert (Q : a i * a i = 0) by (apply (@rsum_zero n (fun i => a i * a i)); auto; intros; apply sqpos).
      apply Rmult_integral in Q. destruct Q as [Q|Q]; rewrite Q; ring. }
    rewrite Z, E. lra.
  - specialize (P (- S / A)).
    replace (A * (- S / A * (- S / A)) + 2 * S * (- S / A) + B) with (B - S * S / A) in P by (field; auto).
    assert (Q : 0 <= A * (B - S * S / A)) by (apply Rmult_le_pos; auto).
    replace (A * (B - S * S / A)) with (A * B - S * S) in Q by (field; auto). lra.
Qed.
Lemma sq_sum_le : forall n a, rsum n (fun i => a i * a i) <= Rsqr (rsum n (fun i => Rabs (a i))).
Proof.
  induction n; intros a. { cbn. unfold Rsqr. lra. }
  rewrite !rsum_S. specialize (IHn a).
  assert (P : 0 <= rsum n (fun i => Rabs (a i))) by (apply rsum_nonneg; intros; apply Rabs_pos).
  pose proof (Rabs_pos (a n)). pose proof (Rsqr_abs (a n)). unfold Rsqr in *. nra.
Qed.

Lemma r_swo : strict_weak_order r_ltb.
Proof.
  repeat split; intros.
  - apply r_ltb_false. lra.
  - apply r_ltb_true in H, H0. apply r_ltb_true. lra.
  - apply r_ltb_false in H, H0. apply r_ltb_false. lra.
Qed.

(** Values of the operations. *)
Lemma rv_norm_l1 : forall N f, (0 < N)%nat -> v_norm_l1 r_ops (ok1 Rabs) (vk N f) = Ok (rsum N (fun i => Rabs (f i))).
Proof.
  intros. unfold v_norm_l1. rewrite (@v_map_vk _ _ (ok1 Rabs) (fun i => Rabs (f i))) by reflexivity. cbn [bind].
  apply (v_sum_vk r_ring). auto.
Qed.
Lemma rv_square_length : forall N f, (0 < N)%nat -> v_square_length r_ops (vk N f) = Ok (rsum N (fun i => f i * f i)).
Proof. intros. apply (v_square_length_vk r_ring). auto. Qed.
Lemma rv_norm_l2 : forall N f, (0 < N)%nat -> v_norm_l2 r_ops sqrt (vk N f) = Ok (sqrt (rsum N (fun i => f i * f i))).
Proof.
  intros. unfold v_norm_l2. change (v_norm_l2_sqr r_ops (vk N f)) with (v_square_length r_ops (vk N f)).
  rewrite rv_square_length by auto. reflexivity.
Qed.
Lemma rv_length : forall N f, (0 < N)%nat -> v_length r_ops sqrt (vk N f) = Ok (sqrt (rsum N (fun i => f i * f i))).
Proof. exact rv_norm_l2. Qed.
Lemma rv_sdiv : forall N f s, s <> 0 -> v_sdiv r_ops (vk N f) s = Ok (vk N (fun i => f i / s)).
Proof.
  intros. apply v_map_vk. intros. cbn. destruct (Req_EM_T s 0); [contradiction|reflexivity].
Qed.
Lemma rv_normalize : forall N f, (0 < N)%nat -> sqrt (rsum N (fun i => f i * f i)) <> 0 ->
  v_normalize r_ops sqrt (vk N f) = Ok (vk N (fun i => f i / sqrt (rsum N (fun i => f i * f i)))).
Proof. intros. unfold v_normalize. rewrite rv_length by auto. cbn [bind]. apply rv_sdiv. auto. Qed.

Lemma rv_norm_l_inf : forall N f, (0 < N)%nat -> exists m, v_norm_l_inf r_ops (ok1 Rabs) (vk N f) = Ok m /\
  (exists k, (k < N)%nat /\ m = Rabs (f k)) /\ (forall i, (i < N)%nat -> Rabs (f i) <= m).
Proof.
  intros N f H. unfold v_norm_l_inf. rewrite (@v_map_vk _ _ (ok1 Rabs) (fun i => Rabs (f i))) by reflexivity. cbn [bind].
  destruct (@v_max_spec _ r_ops (vk N (fun i => Rabs (f i))) r_swo) as (_ & P).
  destruct P as (m & E & I & U). { destruct N; [lia|]. rewrite vk_S. discriminate. }
  exists m. split; auto. split.
  - unfold vk in I. apply in_map_iff in I as (k & <- & Hk). apply in_seq in Hk. exists k. split; [lia|auto].
  - intros i Hi. apply r_ltb_false. apply U. unfold vk. apply in_map_iff. exists i. split; auto. apply in_seq. lia.
Qed.

(** A vector of length N is [0, ..., 0] or has positive length. *)
Lemma sqrt_sum_zero : forall N f, sqrt (rsum N (fun i => f i * f i)) = 0 <-> (forall i, (i < N)%nat -> f i = 0).
Proof.
  intros N f. assert (P : forall i, (i < N)%nat -> 0 <= (fun i => f i * f i) i) by (intros; apply sqpos).
  split; intros H.
  - apply sqrt_eq_0 in H. 2: { apply rsum_nonneg. exact P. }
    intros i Hi. pose proof (@rsum_zero N (fun i => f i * f i) P H i Hi) as Q. cbv beta in Q. apply Rmult_integral in Q. tauto.
  - rewrite (@rsum_ext N _ (fun _ => 0)). { rewrite rsum_const0. apply sqrt_0. }
    intros. rewrite H by auto. ring.
Qed.
