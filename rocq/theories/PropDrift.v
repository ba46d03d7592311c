(** C90: how far chained and applied rotations drift in floating point. *)
From Coq Require Import ZArith Reals Lra Lia Psatz SpecFloat.
From Verif Require Import SpecFacts VFacts VecProofs MFacts AlgFacts ComplexModel TransformModel FloatInst PropFloat SpecRound FlocqFacts PropOrder PropRound PropFNorm.
Set Implicit Arguments.
Local Open Scope list_scope.
Local Open Scope R_scope.

(** * Specification: real quaternions and complex numbers *)
Definition hprod (a b : quat R) : quat R :=
  Qt (qw a * qw b - qx a * qx b - qy a * qy b - qz a * qz b) (qw a * qx b + qx a * qw b + qy a * qz b - qz a * qy b)
     (qw a * qy b - qx a * qz b + qy a * qw b + qz a * qx b) (qw a * qz b + qx a * qy b - qy a * qx b + qz a * qw b).
Definition hnorm (a : quat R) : R := sqrt (qw a ^ 2 + qx a ^ 2 + qy a ^ 2 + qz a ^ 2).
Definition hdist (a b : quat R) : R := hnorm (Qt (qw a - qw b) (qx a - qx b) (qy a - qy b) (qz a - qz b)).
Definition hconj (a : quat R) : quat R := Qt (qw a) (- qx a) (- qy a) (- qz a).
Definition cprod (a b : complex R) : complex R := Cx (re a * re b - im a * im b) (re a * im b + im a * re b).
Definition cnorm (a : complex R) : R := sqrt (re a ^ 2 + im a ^ 2).
Definition cdist (a b : complex R) : R := cnorm (Cx (re a - re b) (im a - im b)).
(** The numbers denoted by the components. *)
Definition qval (a : quat spec_float) : quat R := Qt (value (qw a)) (value (qx a)) (value (qy a)) (value (qz a)).
Definition cval (a : complex spec_float) : complex R := Cx (value (re a)) (value (im a)).
Definition finite_q (a : quat spec_float) : Prop := finite (qw a) = true /\ finite (qx a) = true /\ finite (qy a) = true /\ finite (qz a) = true.
Definition finite_c (a : complex spec_float) : Prop := finite (re a) = true /\ finite (im a) = true.
(** [n] steps, each multiplying a size by at most [rho] and adding a relative error [c] and an absolute error [t]. *)
Definition drift_bound (c t rho size : R) (n : nat) : R := size * rho ^ n * ((1 + c) ^ n - 1) + t * rsum n (fun k => ((1 + c) * rho) ^ k).

(** * Geometry *)
Lemma cs4 : forall a b c d a' b' c' d' : R, (a * a' + b * b' + c * c' + d * d') ^ 2 <= (a ^ 2 + b ^ 2 + c ^ 2 + d ^ 2) * (a' ^ 2 + b' ^ 2 + c' ^ 2 + d' ^ 2).
Proof.
  intros. apply Rminus_le.
  replace (_ - _) with (- ((a * b' - b * a') ^ 2 + (a * c' - c * a') ^ 2 + (a * d' - d * a') ^ 2 + (b * c' - c * b') ^ 2 + (b * d' - d * b') ^ 2 + (c * d' - d * c') ^ 2)) by ring.
  assert (forall x : R, 0 <= x ^ 2) by (intros; nra).
  pose proof (H (a * b' - b * a')). pose proof (H (a * c' - c * a')). pose proof (H (a * d' - d * a')). pose proof (H (b * c' - c * b')).
  pose proof (H (b * d' - d * b')). pose proof (H (c * d' - d * c')). lra.
Qed.
Lemma sq4 : forall a b c d : R, 0 <= a ^ 2 + b ^ 2 + c ^ 2 + d ^ 2.
Proof. intros. nra. Qed.
Lemma hnorm_pos : forall a, 0 <= hnorm a.
Proof. intros. apply sqrt_pos. Qed.
Lemma hnorm_sqr : forall a, hnorm a ^ 2 = qw a ^ 2 + qx a ^ 2 + qy a ^ 2 + qz a ^ 2.
Proof. intros. unfold hnorm. rewrite pow2_sqrt; auto. apply sq4. Qed.
Lemma abs_le_sqr : forall x y, 0 <= y -> x ^ 2 <= y ^ 2 -> x <= y.
Proof. intros. nra. Qed.
Lemma hdot_le : forall a b, qw a * qw b + qx a * qx b + qy a * qy b + qz a * qz b <= hnorm a * hnorm b.
Proof.
  intros a b. apply abs_le_sqr. { apply Rmult_le_pos; apply hnorm_pos. } rewrite Rpow_mult_distr, !hnorm_sqr. apply cs4.
Qed.
Definition hadd (a b : quat R) : quat R := Qt (qw a + qw b) (qx a + qx b) (qy a + qy b) (qz a + qz b).
Definition hsub (a b : quat R) : quat R := Qt (qw a - qw b) (qx a - qx b) (qy a - qy b) (qz a - qz b).
Lemma hnorm_triangle : forall a b, hnorm (hadd a b) <= hnorm a + hnorm b.
Proof.
  intros a b. pose proof (hnorm_pos a). pose proof (hnorm_pos b). apply abs_le_sqr; [lra|]. rewrite hnorm_sqr. pose proof (hnorm_sqr a). pose proof (hnorm_sqr b). pose proof (hdot_le a b).
  unfold hadd. cbn [qw qx qy qz]. nra.
Qed.
Lemma hdist_triangle : forall a b c, hdist a c <= hdist a b + hdist b c.
Proof.
  intros a b c. unfold hdist. eapply Rle_trans; [|apply hnorm_triangle]. right. f_equal. unfold hadd. cbn [qw qx qy qz]. f_equal; ring.
Qed.
Lemma hnorm_prod : forall a b, hnorm (hprod a b) = hnorm a * hnorm b.
Proof. intros a b. unfold hnorm. rewrite <- sqrt_mult by apply sq4. f_equal. unfold hprod. cbn [qw qx qy qz]. ring. Qed.
Lemma hdist_prod_r : forall a b r, hdist (hprod a r) (hprod b r) = hdist a b * hnorm r.
Proof. intros. unfold hdist. rewrite <- hnorm_prod. f_equal. unfold hprod. cbn [qw qx qy qz]. f_equal; ring. Qed.
Lemma hdist_prod_l : forall a b r, hdist (hprod r a) (hprod r b) = hdist a b * hnorm r.
Proof. intros. unfold hdist. rewrite Rmult_comm, <- hnorm_prod. f_equal. unfold hprod. cbn [qw qx qy qz]. f_equal; ring. Qed.
Lemma hnorm_dist : forall a b, hnorm a <= hnorm b + hdist a b.
Proof. intros. unfold hdist. eapply Rle_trans; [|apply hnorm_triangle]. right. f_equal. unfold hadd. destruct a as [w x y z]. cbn. f_equal; ring. Qed.
Lemma hdist_sym : forall a b, hdist a b = hdist b a.
Proof. intros. unfold hdist, hnorm. cbn [qw qx qy qz]. f_equal. ring. Qed.
Lemma hnorm_conj : forall a, hnorm (hconj a) = hnorm a.
Proof. intros. unfold hnorm, hconj. cbn [qw qx qy qz]. f_equal. ring. Qed.
Lemma hdist_refl : forall a, hdist a a = 0.
Proof. intros. unfold hdist, hnorm. cbn [qw qx qy qz]. rewrite <- sqrt_0. f_equal. ring. Qed.
(** Components bounded by [e]. *)
Lemma hdist_comp : forall a b e, 0 <= e -> Rabs (qw a - qw b) <= e -> Rabs (qx a - qx b) <= e -> Rabs (qy a - qy b) <= e -> Rabs (qz a - qz b) <= e -> hdist a b <= 2 * e.
Proof.
  intros a b e He H1 H2 H3 H4. unfold hdist. apply abs_le_sqr; [lra|]. rewrite hnorm_sqr. cbn [qw qx qy qz].
  assert (S : forall x, Rabs x <= e -> x ^ 2 <= e ^ 2). { intros x Hx. rewrite <- (pow2_abs x). pose proof (Rabs_pos x). nra. }
  apply S in H1. apply S in H2. apply S in H3. apply S in H4. nra.
Qed.
(** Sums of the absolute values of products. *)
Lemma cs_abs : forall a b : quat R, Rabs (qw a * qw b) + Rabs (qx a * qx b) + Rabs (qy a * qy b) + Rabs (qz a * qz b) <= hnorm a * hnorm b.
Proof.
  intros a b. rewrite !Rabs_mult.
  pose proof (hdot_le (Qt (Rabs (qw a)) (Rabs (qx a)) (Rabs (qy a)) (Rabs (qz a))) (Qt (Rabs (qw b)) (Rabs (qx b)) (Rabs (qy b)) (Rabs (qz b)))) as H.
  unfold hnorm in H. cbn [qw qx qy qz] in H. rewrite !pow2_abs in H. exact H.
Qed.
Definition emb (a : complex R) : quat R := Qt (re a) (im a) 0 0.
Lemma emb_norm : forall a, hnorm (emb a) = cnorm a.
Proof. intros. unfold hnorm, cnorm, emb. cbn. f_equal. ring. Qed.
Lemma emb_dist : forall a b, hdist (emb a) (emb b) = cdist a b.
Proof. intros. unfold hdist, cdist, hnorm, cnorm, emb. cbn. f_equal. ring. Qed.
Lemma emb_prod : forall a b, hprod (emb a) (emb b) = emb (cprod a b).
Proof. intros. unfold hprod, cprod, emb. cbn. f_equal; ring. Qed.

(** * Error propagation *)
Section Propagate.
  Context {F E : Type} (op : F -> F -> res F) (val : F -> E) (mul : E -> E -> E) (norm : E -> R) (dist : E -> E -> R) (good fin : F -> Prop).
  Context (c t : R) (Hc : 0 <= c) (Ht : 0 <= t).
  Context (N0 : forall a, 0 <= norm a) (Nm : forall a b, norm (mul a b) = norm a * norm b) (Nd : forall a b, norm a <= norm b + dist a b)
    (Dt : forall a b d, dist a d <= dist a b + dist b d) (Dm : forall a b r, dist (mul a r) (mul b r) = dist a b * norm r) (Dr : forall a, dist a a = 0).
  Context (op_good : forall a b x, good a -> good b -> op a b = Ok x -> good x) (op_fin : forall a b x, op a b = Ok x -> fin x -> fin a /\ fin b)
    (op_close : forall a b x, good a -> good b -> op a b = Ok x -> fin x -> dist (val x) (mul (val a) (val b)) <= c * (norm (val a) * norm (val b)) + t).
  Lemma fold_fin : forall rs a x, fold_res op a rs = Ok x -> fin x -> fin a.
  Proof.
    induction rs as [|r rs IH]; intros a x E1 Fx; cbn [fold_res] in E1. { apply Ok_inj in E1. now subst. }
    destruct (op a r) as [y| | |] eqn:Eo; try discriminate. cbn [bind] in E1. apply (op_fin Eo). eapply IH; eauto.
  Qed.
  Lemma propagate : forall rho, 0 <= rho -> forall rs a x b e h, good a -> Forall good rs -> Forall (fun r => norm (val r) <= rho) rs ->
    fold_res op a rs = Ok x -> fin x -> 0 <= e -> 0 <= h -> dist (val a) b <= e -> norm b <= h ->
    dist (val x) (fold_left mul (map val rs) b) <= e * ((1 + c) * rho) ^ length rs + drift_bound c t rho h (length rs).
  Proof.
    intros rho Hr. induction rs as [|r rs IH]; intros a x b e h Ga Gs Ns E1 Fx He Hh Hd Hn; cbn [fold_res] in E1.
    - apply Ok_inj in E1. subst. cbn. unfold drift_bound. cbn. lra.
    - destruct (op a r) as [y| | |] eqn:Eo; try discriminate. cbn [bind] in E1. inversion Gs as [|? ? Gr Gs']; inversion Ns as [|? ? Nr Ns']; subst.
      assert (Fy : fin y) by (eapply fold_fin; eauto). pose proof (op_close Ga Gr Eo Fy) as Hcl.
      assert (Hd' : dist (val y) (mul b (val r)) <= (1 + c) * rho * e + c * rho * h + t).
      { eapply Rle_trans; [apply (Dt _ (mul (val a) (val r)))|]. rewrite Dm.
        pose proof (Nd (val a) b). pose proof (N0 (val a)). pose proof (N0 (val r)).
        assert (norm (val a) * norm (val r) <= (h + e) * rho) by (apply Rmult_le_compat; lra).
        assert (dist (val a) b * norm (val r) <= e * rho) by (destruct (Rle_dec 0 (dist (val a) b)); [apply Rmult_le_compat; lra|assert (0 <= e * rho) by (now apply Rmult_le_pos); nra]).
        assert (c * (norm (val a) * norm (val r)) <= c * ((h + e) * rho)) by (apply Rmult_le_compat_l; lra). lra. }
      assert (Hn' : norm (mul b (val r)) <= rho * h) by (rewrite Nm, Rmult_comm; apply Rmult_le_compat; auto).
      eapply Rle_trans; [apply (IH y x (mul b (val r)) ((1 + c) * rho * e + c * rho * h + t) (rho * h))|]; eauto.
      + assert (0 <= (1 + c) * rho * e) by (apply Rmult_le_pos; [apply Rmult_le_pos; lra|lra]). assert (0 <= c * rho * h) by (apply Rmult_le_pos; [apply Rmult_le_pos; lra|lra]). lra.
      + now apply Rmult_le_pos.
      + right. unfold drift_bound. cbn [length rsum pow]. rewrite !Rpow_mult_distr. ring.
  Qed.
  Lemma propagate0 : forall rho rs a x, 0 <= rho -> good a -> Forall good rs -> Forall (fun r => norm (val r) <= rho) rs ->
    fold_res op a rs = Ok x -> fin x -> dist (val x) (fold_left mul (map val rs) (val a)) <= drift_bound c t rho (norm (val a)) (length rs).
  Proof.
    intros rho rs a x Hr Ga Gs Ns E1 Fx. pose proof (@propagate rho Hr rs a x (val a) 0 (norm (val a)) Ga Gs Ns E1 Fx (Rle_refl 0) (N0 _)) as H.
    rewrite Dr in H. specialize (H (Rle_refl 0) (Rle_refl _)). lra.
  Qed.
End Propagate.

(** * More geometry *)
Lemma cdist_triangle : forall a b c, cdist a c <= cdist a b + cdist b c.
Proof. intros. rewrite <- !emb_dist. apply hdist_triangle. Qed.
Lemma cnorm_prod : forall a b, cnorm (cprod a b) = cnorm a * cnorm b.
Proof. intros. rewrite <- !emb_norm, <- emb_prod. apply hnorm_prod. Qed.
Lemma cdist_prod_r : forall a b r, cdist (cprod a r) (cprod b r) = cdist a b * cnorm r.
Proof. intros. rewrite <- !emb_dist, <- !emb_prod, <- emb_norm. apply hdist_prod_r. Qed.
Lemma cdist_prod_l : forall a b r, cdist (cprod r a) (cprod r b) = cdist a b * cnorm r.
Proof. intros. rewrite <- !emb_dist, <- !emb_prod, <- emb_norm. apply hdist_prod_l. Qed.
Lemma cnorm_dist : forall a b, cnorm a <= cnorm b + cdist a b.
Proof. intros. rewrite <- !emb_norm, <- emb_dist. apply hnorm_dist. Qed.
Lemma cdist_refl : forall a, cdist a a = 0.
Proof. intros. rewrite <- emb_dist. apply hdist_refl. Qed.
Lemma cdist_sym : forall a b, cdist a b = cdist b a.
Proof. intros. rewrite <- !emb_dist. apply hdist_sym. Qed.
Lemma cnorm_pos : forall a, 0 <= cnorm a.
Proof. intros. apply sqrt_pos. Qed.
Lemma cdist_comp : forall a b e, 0 <= e -> Rabs (re a - re b) <= e -> Rabs (im a - im b) <= e -> cdist a b <= sqrt 2 * e.
Proof.
  intros a b e He H1 H2. unfold cdist, cnorm. cbn [re im]. rewrite <- (sqrt_pow2 e) by auto. rewrite <- sqrt_mult by nra. apply sqrt_le_1_alt.
  assert (S : forall x, Rabs x <= e -> x ^ 2 <= e ^ 2). { intros x Hx. rewrite <- (pow2_abs x). pose proof (Rabs_pos x). nra. }
  apply S in H1. apply S in H2. lra.
Qed.
Lemma c_cs1 : forall a b : complex R, Rabs (re a * re b) + Rabs (im a * im b) <= cnorm a * cnorm b.
Proof. intros a b. pose proof (cs_abs (emb a) (emb b)) as H. rewrite !emb_norm in H. unfold emb in H. cbn [qw qx qy qz] in H. rewrite !Rmult_0_r, !Rabs_R0 in H. lra. Qed.
Lemma c_cs2 : forall a b : complex R, Rabs (re a * im b) + Rabs (im a * re b) <= cnorm a * cnorm b.
Proof.
  intros a b. pose proof (c_cs1 a (Cx (im b) (re b))) as H. cbn [re im] in H. replace (cnorm (Cx (im b) (re b))) with (cnorm b) in H; auto. unfold cnorm. cbn [re im]. f_equal. ring.
Qed.
Lemma q_perm : forall (a : quat R) w x y z, w ^ 2 + x ^ 2 + y ^ 2 + z ^ 2 = qw a ^ 2 + qx a ^ 2 + qy a ^ 2 + qz a ^ 2 -> hnorm (Qt w x y z) = hnorm a.
Proof. intros. unfold hnorm. cbn [qw qx qy qz]. now f_equal. Qed.
Lemma norm_gap : forall a b, Rabs (hnorm a - hnorm b) <= hdist a b.
Proof. intros. pose proof (hnorm_dist a b). pose proof (hnorm_dist b a). rewrite (hdist_sym b a) in *. apply Rabs_le. lra. Qed.
Lemma cnorm_gap : forall a b, Rabs (cnorm a - cnorm b) <= cdist a b.
Proof. intros. rewrite <- !emb_norm, <- emb_dist. apply norm_gap. Qed.
Lemma fold_norm : forall rs a, hnorm (fold_left hprod rs a) = fold_left Rmult (map hnorm rs) (hnorm a).
Proof. induction rs as [|r rs IH]; intros a; cbn [fold_left map]; auto. rewrite IH, hnorm_prod. reflexivity. Qed.
Lemma fold_norm_l : forall rs a, hnorm (fold_left (fun x r => hprod r x) rs a) = fold_left Rmult (map hnorm rs) (hnorm a).
Proof. induction rs as [|r rs IH]; intros a; cbn [fold_left map]; auto. rewrite IH, hnorm_prod, Rmult_comm. reflexivity. Qed.
Lemma fold_cnorm : forall rs a, cnorm (fold_left cprod rs a) = fold_left Rmult (map cnorm rs) (cnorm a).
Proof. induction rs as [|r rs IH]; intros a; cbn [fold_left map]; auto. rewrite IH, cnorm_prod. reflexivity. Qed.
Definition vecpart (a : quat R) : quat R := Qt 0 (qx a) (qy a) (qz a).
Lemma vecpart_dist : forall a b, hdist (vecpart a) (vecpart b) <= hdist a b.
Proof. intros. unfold hdist, hnorm. apply sqrt_le_1_alt. cbn [vecpart qw qx qy qz]. pose proof (pow2_ge_0 (qw a - qw b)). lra. Qed.

Section Drift.
  Context (prec emax : Z) (rem : spec_float -> spec_float -> spec_float).
  Context (Hp : (0 < prec)%Z) (He : (prec < emax)%Z).
  Local Notation fo := (sf_ops prec emax rem).
  Local Notation valid x := (valid_binary prec emax x = true).
  Local Notation u := (roundoff prec).
  Local Notation eta := (half_tiny prec emax).
  Definition valid_q (a : quat spec_float) : Prop := valid (qw a) /\ valid (qx a) /\ valid (qy a) /\ valid (qz a).
  Definition valid_c (a : complex spec_float) : Prop := valid (re a) /\ valid (im a).
  (** The relative and the absolute error of one quaternion product and one complex product. *)
  Definition qrel : R := 2 * ((1 + u) ^ 4 - 1).
  Definition qabs : R := 8 * (1 + u) ^ 3 * eta.
  Definition crel : R := sqrt 2 * ((1 + u) ^ 2 - 1).
  Definition cabs : R := sqrt 2 * (2 * (1 + u) * eta).
  Lemma up : 0 < u. Proof. apply u_pos. Qed.
  Lemma ep : 0 < eta. Proof. apply eta_pos. Qed.
  Lemma pow_ge1 : forall n, 1 <= (1 + u) ^ n.
  Proof. intros. apply pow_R1_Rle. pose proof up. lra. Qed.
  Lemma qrel_pos : 0 <= qrel. Proof. unfold qrel. pose proof (pow_ge1 4). lra. Qed.
  Lemma qabs_pos : 0 <= qabs. Proof. unfold qabs. pose proof (pow_ge1 3). pose proof ep. apply Rmult_le_pos; lra. Qed.
  Lemma crel_pos : 0 <= crel. Proof. unfold crel. pose proof (pow_ge1 2). pose proof (sqrt_pos 2). apply Rmult_le_pos; lra. Qed.
  Lemma cabs_pos : 0 <= cabs. Proof. unfold cabs. pose proof ep. pose proof up. pose proof (sqrt_pos 2). apply Rmult_le_pos; auto. apply Rmult_le_pos; lra. Qed.

  Lemma q_mul_good : forall a b x, valid_q a -> valid_q b -> q_mul fo a b = Ok x -> valid_q x.
  Proof.
    intros [a1 a2 a3 a4] [b1 b2 b3 b4] x (V1 & V2 & V3 & V4) (W1 & W2 & W3 & W4) E. cbn [qw qx qy qz] in *. cbn in E. apply Ok_inj in E. subst x.
    unfold valid_q. cbn [qw qx qy qz]. repeat split; repeat first [apply add_valid|apply sub_valid|apply mul_valid|assumption].
  Qed.
  Ltac fins := repeat match goal with
    | H : finite (SFadd _ _ _ _) = true |- _ => apply add_fin in H; destruct H
    | H : finite (SFsub _ _ _ _) = true |- _ => apply sub_fin in H; destruct H
    | H : finite (SFmul _ _ _ _) = true |- _ => apply mul_fin in H; destruct H end.
  Lemma q_mul_finx : forall a b x, q_mul fo a b = Ok x -> finite (qx x) = true -> finite_q a /\ finite_q b.
  Proof.
    intros [a1 a2 a3 a4] [b1 b2 b3 b4] x E F. cbn in E. apply Ok_inj in E. subst x. cbn [qw qx qy qz] in *. fins. unfold finite_q; cbn; auto 10.
  Qed.
  Lemma q_mul_fin : forall a b x, q_mul fo a b = Ok x -> finite_q x -> finite_q a /\ finite_q b.
  Proof. intros a b x E (_ & F & _). eapply q_mul_finx; eauto. Qed.
  Lemma c_mul_good : forall a b x, valid_c a -> valid_c b -> c_mul fo a b = Ok x -> valid_c x.
  Proof.
    intros [a1 a2] [b1 b2] x (V1 & V2) (W1 & W2) E. cbn [re im] in *. cbn in E. apply Ok_inj in E. subst x.
    unfold valid_c. cbn [re im]. repeat split; repeat first [apply add_valid|apply sub_valid|apply mul_valid|assumption].
  Qed.
  Lemma c_mul_fin : forall a b x, c_mul fo a b = Ok x -> finite_c x -> finite_c a /\ finite_c b.
  Proof.
    intros [a1 a2] [b1 b2] x E (F & G). cbn in E. apply Ok_inj in E. subst x. cbn [re im] in *. fins. unfold finite_c; cbn; auto 10.
  Qed.
  (* each component of a product *)
  Definition comp_bound (m : R) : R := ((1 + u) ^ 4 - 1) * m + 4 * (1 + u) ^ 3 * eta.
  Lemma q_mul_comps : forall a b x, valid_q a -> valid_q b -> q_mul fo a b = Ok x ->
    let e := hprod (qval a) (qval b) in let m := hnorm (qval a) * hnorm (qval b) in
    (finite (qw x) = true -> Rabs (value (qw x) - qw e) <= comp_bound m) /\ (finite (qx x) = true -> Rabs (value (qx x) - qx e) <= comp_bound m) /\
    (finite (qy x) = true -> Rabs (value (qy x) - qy e) <= comp_bound m) /\ (finite (qz x) = true -> Rabs (value (qz x) - qz e) <= comp_bound m).
  Proof.
    intros a b x (V1 & V2 & V3 & V4) (W1 & W2 & W3 & W4) E e m.
    pose proof (@C74_quaternion_mul prec emax rem Hp He a b V1 V2 V3 V4 W1 W2 W3 W4) as H. cbv zeta in H. destruct H as (x' & E' & H1 & H2 & H3 & H4).
    rewrite E' in E. apply Ok_inj in E. subst x'.
    assert (K : forall s, s <= m -> ((1 + u) ^ 4 - 1) * s + 4 * (1 + u) ^ 3 * eta <= comp_bound m).
    { intros s Hs. unfold comp_bound. apply Rplus_le_compat_r. apply Rmult_le_compat_l; auto. pose proof (pow_ge1 4). lra. }
    set (A := qval a) in *. set (B := qval b) in *.
    change (value (qw a)) with (qw A) in *. change (value (qx a)) with (qx A) in *. change (value (qy a)) with (qy A) in *. change (value (qz a)) with (qz A) in *.
    change (value (qw b)) with (qw B) in *. change (value (qx b)) with (qx B) in *. change (value (qy b)) with (qy B) in *. change (value (qz b)) with (qz B) in *.
    pose proof (cs_abs A B) as C1. pose proof (cs_abs A (Qt (qx B) (qw B) (qz B) (qy B))) as C2. pose proof (cs_abs A (Qt (qy B) (qz B) (qw B) (qx B))) as C3.
    pose proof (cs_abs A (Qt (qz B) (qy B) (qx B) (qw B))) as C4. cbn [qw qx qy qz] in C2, C3, C4.
    rewrite (@q_perm B) in C2, C3, C4 by ring.
    repeat split; intros F; (eapply Rle_trans; [first [apply H1|apply H2|apply H3|apply H4]; exact F|]); apply K; unfold m; lra.
  Qed.
  Lemma q_mul_close : forall a b x, valid_q a -> valid_q b -> q_mul fo a b = Ok x -> finite_q x ->
    hdist (qval x) (hprod (qval a) (qval b)) <= qrel * (hnorm (qval a) * hnorm (qval b)) + qabs.
  Proof.
    intros a b x Va Vb E (F1 & F2 & F3 & F4). destruct (q_mul_comps Va Vb E) as (H1 & H2 & H3 & H4).
    eapply Rle_trans. { apply hdist_comp; [|apply H1; auto|apply H2; auto|apply H3; auto|apply H4; auto]. eapply Rle_trans; [apply Rabs_pos|apply H1; auto]. }
    unfold comp_bound, qrel, qabs. lra.
  Qed.
  Lemma c_mul_close : forall a b x, valid_c a -> valid_c b -> c_mul fo a b = Ok x -> finite_c x ->
    cdist (cval x) (cprod (cval a) (cval b)) <= crel * (cnorm (cval a) * cnorm (cval b)) + cabs.
  Proof.
    intros a b x (V1 & V2) (W1 & W2) E (F1 & F2). destruct (@C74_complex_mul prec emax rem Hp He a b V1 V2 W1 W2) as (x' & E' & H1 & H2).
    rewrite E' in E. apply Ok_inj in E. subst x'. specialize (H1 F1). specialize (H2 F2). set (A := cval a) in *. set (B := cval b) in *.
    change (value (re a)) with (re A) in *. change (value (im a)) with (im A) in *. change (value (re b)) with (re B) in *. change (value (im b)) with (im B) in *.
    pose proof (c_cs1 A B). pose proof (c_cs2 A B). set (m := cnorm A * cnorm B) in *.
    assert (K : forall s, s <= m -> ((1 + u) ^ 2 - 1) * s + 2 * (1 + u) * eta <= ((1 + u) ^ 2 - 1) * m + 2 * (1 + u) * eta).
    { intros s Hs. apply Rplus_le_compat_r. apply Rmult_le_compat_l; auto. pose proof (pow_ge1 2). lra. }
    eapply Rle_trans. { apply cdist_comp; [|eapply Rle_trans; [exact H1|apply K; auto]|eapply Rle_trans; [exact H2|apply K; auto]]. eapply Rle_trans; [apply Rabs_pos|eapply Rle_trans; [exact H1|apply K; auto]]. }
    unfold crel, cabs. fold m. lra.
  Qed.
  Lemma fold_ok : forall {A : Type} (op : A -> A -> res A) rs a, (forall x y, exists z, op x y = Ok z) -> exists z, fold_res op a rs = Ok z.
  Proof.
    intros A op rs. induction rs as [|r rs IH]; intros a H; cbn [fold_res]; [eauto|]. destruct (H a r) as (y & ->). cbn [bind]. auto.
  Qed.
  Lemma q_mul_ok : forall a b, exists x, q_mul fo a b = Ok x.
  Proof. intros [a1 a2 a3 a4] [b1 b2 b3 b4]. eexists. reflexivity. Qed.
  Lemma c_mul_ok : forall a b, exists x, c_mul fo a b = Ok x.
  Proof. intros [a1 a2] [b1 b2]. eexists. reflexivity. Qed.

  (** Chaining rotations one after the other, on either side: the quaternion product of the operands, up to the drift;
      and so the norm of the result is the product of the norms, up to the drift. *)
  Theorem C90_chain3 : forall rho r0 rs, 0 <= rho -> valid_q r0 -> Forall valid_q rs -> Forall (fun r => hnorm (qval r) <= rho) rs ->
    let bound := drift_bound qrel qabs rho (hnorm (qval r0)) (length rs) in
    (exists x, fold_res (t_chain (rot3_transform fo)) r0 rs = Ok x /\ valid_q x /\ (finite_q x ->
       hdist (qval x) (fold_left hprod (map qval rs) (qval r0)) <= bound /\
       Rabs (hnorm (qval x) - fold_left Rmult (map hnorm (map qval rs)) (hnorm (qval r0))) <= bound)) /\
    (exists x, fold_res (fun a r => t_chain (rot3_transform fo) r a) r0 rs = Ok x /\ valid_q x /\ (finite_q x ->
       hdist (qval x) (fold_left (fun a r => hprod r a) (map qval rs) (qval r0)) <= bound /\
       Rabs (hnorm (qval x) - fold_left Rmult (map hnorm (map qval rs)) (hnorm (qval r0))) <= bound)).
  Proof.
    intros rho r0 rs Hr V0 Vs Ns bound. cbn [t_chain rot3_transform]. split.
    - destruct (@fold_ok _ (q_mul fo) rs r0 q_mul_ok) as (x & E). exists x. split; [exact E|]. split.
      { revert r0 V0 E bound Vs. clear Ns. induction rs as [|r rs IH]; intros r0 V0 E bound Vs; cbn [fold_res] in E. { apply Ok_inj in E. now subst. }
        destruct (q_mul fo r0 r) as [y| | |] eqn:Ey; try discriminate. cbn [bind] in E. inversion Vs; subst. eapply IH; [eapply (@q_mul_good r0 r); eauto|eauto|auto]. }
      intros F. rewrite <- fold_norm.
      assert (D : hdist (qval x) (fold_left hprod (map qval rs) (qval r0)) <= bound).
      { apply (@propagate0 _ _ (q_mul fo) qval hprod hnorm hdist valid_q finite_q qrel qabs qrel_pos qabs_pos hnorm_pos hnorm_prod hnorm_dist
          hdist_triangle hdist_prod_r hdist_refl q_mul_good q_mul_fin q_mul_close); auto. }
      split; auto. eapply Rle_trans; [apply norm_gap|exact D].
    - pose (op := fun a r => q_mul fo r a). destruct (@fold_ok _ op rs r0 (fun x y => q_mul_ok y x)) as (x & E). exists x. split; [exact E|].
      assert (G : forall a b x, valid_q a -> valid_q b -> op a b = Ok x -> valid_q x). { unfold op. intros. eapply q_mul_good; [..|eauto]; auto. }
      assert (Fi : forall a b x, op a b = Ok x -> finite_q x -> finite_q a /\ finite_q b). { unfold op. intros a b y Ey Fy. destruct (q_mul_fin Ey Fy); auto. }
      split.
      { revert r0 V0 E bound Vs. clear Ns. induction rs as [|r rs IH]; intros r0 V0 E bound Vs; cbn [fold_res] in E. { apply Ok_inj in E. now subst. }
        destruct (op r0 r) as [y| | |] eqn:Ey; try discriminate. cbn [bind] in E. inversion Vs; subst. eapply IH; [eapply (@G r0 r); eauto|eauto|auto]. }
      intros F. rewrite <- fold_norm_l.
      assert (D : hdist (qval x) (fold_left (fun a r => hprod r a) (map qval rs) (qval r0)) <= bound).
      { apply (@propagate0 _ _ op qval (fun a r => hprod r a) hnorm hdist valid_q finite_q qrel qabs qrel_pos qabs_pos hnorm_pos
          (fun a b => eq_trans (hnorm_prod b a) (Rmult_comm _ _)) hnorm_dist hdist_triangle hdist_prod_l hdist_refl G Fi); auto.
        intros a b y Ga Gb Ey Fy. rewrite (Rmult_comm (hnorm (qval a))). apply q_mul_close; auto. }
      split; auto. eapply Rle_trans; [apply norm_gap|exact D].
  Qed.
  Theorem C90_chain2 : forall rho r0 rs, 0 <= rho -> valid_c r0 -> Forall valid_c rs -> Forall (fun r => cnorm (cval r) <= rho) rs ->
    let bound := drift_bound crel cabs rho (cnorm (cval r0)) (length rs) in
    exists x, fold_res (t_chain (rot2_transform fo)) r0 rs = Ok x /\ valid_c x /\ (finite_c x ->
       cdist (cval x) (fold_left cprod (map cval rs) (cval r0)) <= bound /\
       Rabs (cnorm (cval x) - fold_left Rmult (map cnorm (map cval rs)) (cnorm (cval r0))) <= bound).
  Proof.
    intros rho r0 rs Hr V0 Vs Ns bound. cbn [t_chain rot2_transform].
    destruct (@fold_ok _ (c_mul fo) rs r0 c_mul_ok) as (x & E). exists x. split; [exact E|]. split.
    { revert r0 V0 E bound Vs. clear Ns. induction rs as [|r rs IH]; intros r0 V0 E bound Vs; cbn [fold_res] in E. { apply Ok_inj in E. now subst. }
      destruct (c_mul fo r0 r) as [y| | |] eqn:Ey; try discriminate. cbn [bind] in E. inversion Vs; subst. eapply IH; [eapply (@c_mul_good r0 r); eauto|eauto|auto]. }
    intros F. rewrite <- fold_cnorm.
    assert (D : cdist (cval x) (fold_left cprod (map cval rs) (cval r0)) <= bound).
    { apply (@propagate0 _ _ (c_mul fo) cval cprod cnorm cdist valid_c finite_c crel cabs crel_pos cabs_pos cnorm_pos cnorm_prod cnorm_dist
        cdist_triangle cdist_prod_r cdist_refl c_mul_good c_mul_fin c_mul_close); auto. }
    split; auto. eapply Rle_trans; [apply cnorm_gap|exact D].
  Qed.
  (** Applying a rotation of the plane to a vector. *)
  Theorem C90_apply2 : forall r p1 p2, valid_c r -> valid p1 -> valid p2 ->
    exists x y, t_apply (rot2_transform fo) r [p1; p2] = Ok [x; y] /\ (finite x = true -> finite y = true ->
      let p := Cx (value p1) (value p2) in
      cdist (Cx (value x) (value y)) (cprod (cval r) p) <= crel * (cnorm (cval r) * cnorm p) + cabs /\
      Rabs (cnorm (Cx (value x) (value y)) - cnorm (cval r) * cnorm p) <= crel * (cnorm (cval r) * cnorm p) + cabs).
  Proof.
    intros r p1 p2 Vr V1 V2. destruct (c_mul_ok (Cx p1 p2) r) as (z & E). exists (re z), (im z). split.
    { cbn [t_apply rot2_transform]. unfold rot2_apply. cbn [c_from_vector bind]. rewrite E. reflexivity. }
    intros F1 F2 p. pose proof (@c_mul_close (Cx p1 p2) r z (conj V1 V2) Vr E (conj F1 F2)) as H. change (cval (Cx p1 p2)) with p in H.
    replace (cprod p (cval r)) with (cprod (cval r) p) in H by (unfold cprod; f_equal; ring). rewrite (Rmult_comm (cnorm p)) in H. change (cval z) with (Cx (value (re z)) (value (im z))) in H.
    split; auto. rewrite <- cnorm_prod. eapply Rle_trans; [apply cnorm_gap|]. rewrite cnorm_prod. exact H.
  Qed.
  (** Applying a rotation of space: the vector part of q p q*, up to two products' error. *)
  Definition pure (x y z : spec_float) : quat R := Qt 0 (value x) (value y) (value z).
  Theorem C90_apply3 : forall r p1 p2 p3, valid_q r -> valid p1 -> valid p2 -> valid p3 ->
    exists x y z, t_apply (rot3_transform fo) r [p1; p2; p3] = Ok [x; y; z] /\ (finite x = true -> finite y = true -> finite z = true ->
      let q := qval r in let p := pure p1 p2 p3 in let n := hnorm q in
      let bound := ((1 + qrel) ^ 2 - 1) * (n ^ 2 * hnorm p) + qabs * (1 + (1 + qrel) * n) in
      hdist (pure x y z) (hprod (hprod q p) (hconj q)) <= bound /\ Rabs (hnorm (pure x y z) - n ^ 2 * hnorm p) <= bound).
  Proof.
    intros r p1 p2 p3 Vr V1 V2 V3. set (P := Qt (S754_zero false) p1 p2 p3). destruct (q_mul_ok r P) as (s & Es).
    set (C := Qt (qw r) (SFopp (qx r)) (SFopp (qy r)) (SFopp (qz r))). destruct (q_mul_ok s C) as (w & Ew).
    assert (EC : q_conj fo r = Ok C) by (destruct r; reflexivity).
    exists (qx w), (qy w), (qz w). split.
    { cbn [t_apply rot3_transform]. unfold rot3_apply. change (q_from_scalar_and_vector3 (o_zero fo) [p1; p2; p3]) with (Ok P). cbn [bind].
      rewrite Es, EC. cbn [lift2 bind]. rewrite Ew. cbn [bind]. destruct w. reflexivity. }
    intros F1 F2 F3 q p n bound.
    assert (VP : valid_q P) by (repeat split; auto).
    assert (VC : valid_q C). { destruct Vr as (R1 & R2 & R3 & R4). unfold C, valid_q. cbn [qw qx qy qz]. repeat split; auto; apply opp_valid; auto. }
    assert (Vs : valid_q s) by (eapply q_mul_good; [exact Vr|exact VP|exact Es]).
    destruct (q_mul_finx Ew F1) as (Fs & FC).
    assert (HP : qval P = p) by reflexivity.
    assert (HC : qval C = hconj q). { unfold qval, C, hconj, q. cbn [qw qx qy qz qval]. now rewrite !(proj1 (opp_value _)). }
    pose proof (q_mul_close Vr VP Es Fs) as H1. fold q in H1. rewrite HP in H1. fold n in H1.
    destruct (q_mul_comps Vs VC Ew) as (_ & G1 & G2 & G3). specialize (G1 F1). specialize (G2 F2). specialize (G3 F3). rewrite HC, hnorm_conj in G1, G2, G3. fold n in G1, G2, G3.
    assert (Z : hprod (hprod q p) (hconj q) = vecpart (hprod (hprod q p) (hconj q))).
    { unfold vecpart, hprod, hconj, p, pure. cbn [qw qx qy qz]. f_equal. ring. }
    assert (H2 : hdist (pure (qx w) (qy w) (qz w)) (vecpart (hprod (qval s) (hconj q))) <= qrel * (hnorm (qval s) * n) + qabs).
    { eapply Rle_trans. { apply (@hdist_comp _ _ (comp_bound (hnorm (qval s) * n))); cbn [pure vecpart qw qx qy qz]; auto.
        - eapply Rle_trans; [apply Rabs_pos|exact G1].
        - rewrite Rminus_diag_eq, Rabs_R0 by auto. eapply Rle_trans; [apply Rabs_pos|exact G1]. }
      unfold comp_bound, qrel, qabs. lra. }
    assert (D : hdist (pure (qx w) (qy w) (qz w)) (hprod (hprod q p) (hconj q)) <= bound).
    { rewrite Z. eapply Rle_trans; [apply (@hdist_triangle _ (vecpart (hprod (qval s) (hconj q))))|]. 
      pose proof (@vecpart_dist (hprod (qval s) (hconj q)) (hprod (hprod q p) (hconj q))) as H3. rewrite hdist_prod_r, hnorm_conj in H3. fold n in H3.
      pose proof (hnorm_dist (qval s) (hprod q p)) as H4. rewrite hnorm_prod in H4. fold n in H4.
      assert (N0 : 0 <= n) by apply hnorm_pos. pose proof (hnorm_pos (qval s)). pose proof qrel_pos as Q0.
      assert (H5 : hnorm (qval s) * n <= ((1 + qrel) * (n * hnorm p) + qabs) * n) by (apply Rmult_le_compat_r; lra).
      assert (H6 : hdist (qval s) (hprod q p) * n <= (qrel * (n * hnorm p) + qabs) * n) by (apply Rmult_le_compat_r; lra).
      assert (H7 : qrel * (hnorm (qval s) * n) <= qrel * (((1 + qrel) * (n * hnorm p) + qabs) * n)) by (apply Rmult_le_compat_l; lra).
      unfold bound. nra. }
    split; auto. replace (n ^ 2 * hnorm p) with (hnorm (hprod (hprod q p) (hconj q))). { eapply Rle_trans; [apply norm_gap|exact D]. }
    rewrite !hnorm_prod, hnorm_conj. fold n. ring.
  Qed.
End Drift.

(** For unit rotations the drift grows at most linearly with the number of steps. *)
Lemma pow_linear : forall c n, 0 <= c -> 2 * INR n * c <= 1 -> (1 + c) ^ n <= 1 + 2 * INR n * c.
Proof.
  intros c n Hc. induction n as [|n IH]; intros H. { cbn. lra. }
  rewrite S_INR in *. pose proof (pos_INR n). assert (H' : 2 * INR n * c <= 1) by nra. specialize (IH H'). cbn [pow].
  assert ((1 + c) * (1 + c) ^ n <= (1 + c) * (1 + 2 * INR n * c)) by (apply Rmult_le_compat_l; lra).
  assert (c * (2 * INR n * c) <= c * 1) by (apply Rmult_le_compat_l; lra). nra.
Qed.
Theorem C90_linear : forall c t size n, 0 <= c -> 0 <= t -> 0 <= size -> 2 * INR n * c <= 1 ->
  drift_bound c t 1 size n <= 2 * INR n * (size * c + t).
Proof.
  intros c t size n Hc Ht Hs H. unfold drift_bound. rewrite pow1, Rmult_1_r.
  assert (S : rsum n (fun k => ((1 + c) * 1) ^ k) <= 2 * INR n).
  { assert (G : forall m, (m <= n)%nat -> rsum m (fun k => ((1 + c) * 1) ^ k) <= 2 * INR m); [|now apply G].
    induction m as [|m IH]; intros Hm. { cbn. lra. }
    cbn [rsum]. rewrite S_INR. assert (Hm' : (m <= n)%nat) by lia. specialize (IH Hm').
    assert (INR m <= INR n) by (apply le_INR; lia). assert (2 * INR m * c <= 1) by nra.
    pose proof (@pow_linear c m Hc H1) as PL. replace ((1 + c) ^ m) with (((1 + c) * 1) ^ m) in PL by (f_equal; ring). lra. }
  pose proof (@pow_linear c n Hc H). assert (size * ((1 + c) ^ n - 1) <= size * (2 * INR n * c)) by (apply Rmult_le_compat_l; lra).
  assert (t * rsum n (fun k => ((1 + c) * 1) ^ k) <= t * (2 * INR n)) by (apply Rmult_le_compat_l; auto). nra.
Qed.

(** Non-trivial case (f64): chaining the unit rotation (1/2, 1/2, 1/2, 1/2) three times, the hypotheses hold and the result is finite. *)
Definition f64_half : spec_float := SpecFloat.binary_round 53 1024 false 1 (-1).
Lemma f64_half_value : value f64_half = / 2.
Proof.
  change f64_half with (S754_finite false 4503599627370496 (-53)). unfold value, powerRZ. rewrite pow_IZR.
  (match goal with |- _ * / IZR ?b = _ => let v := eval vm_compute in b in replace b with v by (vm_compute; reflexivity) end). lra.
Qed.
Definition f64_turn : quat spec_float := Qt f64_half f64_half f64_half f64_half.
Lemma turn_norm : hnorm (qval f64_turn) = 1.
Proof. unfold hnorm, qval, f64_turn. cbn [qw qx qy qz]. rewrite !f64_half_value. replace (_ + _) with 1 by lra. apply sqrt_1. Qed.
Example C90_hypotheses_met :
  valid_q 53 1024 f64_turn /\ Forall (fun r => hnorm (qval r) <= 1) [f64_turn; f64_turn] /\
  exists x, fold_res (t_chain (rot3_transform f64)) f64_turn [f64_turn; f64_turn] = Ok x /\ finite_q x /\
    Rabs (hnorm (qval x) - 1) <= drift_bound (qrel 53) (qabs 53 1024) 1 1 2.
Proof.
  assert (V : valid_q 53 1024 f64_turn) by (repeat split; vm_compute; reflexivity).
  split; auto. split. { repeat constructor; rewrite turn_norm; lra. }
  assert (exists x, fold_res (t_chain (rot3_transform f64)) f64_turn [f64_turn; f64_turn] = Ok x /\ finite_q x) as (x & E & F).
  { eexists. split; [vm_compute; reflexivity|]. repeat split; vm_compute; reflexivity. }
  exists x. split; auto. split; auto.
  destruct (@C90_chain3 53 1024 (fun x _ => x) (eq_refl _) (eq_refl _) 1 f64_turn [f64_turn; f64_turn]) as ((y & Ey & Vy & Hy) & _); auto.
  - lra.
  - repeat constructor; rewrite turn_norm; lra.
  - unfold f64 in E. rewrite E in Ey. apply Ok_inj in Ey. subst y. specialize (Hy F). destruct Hy as (_ & Hy). cbn [map fold_left length] in Hy. rewrite turn_norm in Hy. rewrite !Rmult_1_r in Hy. exact Hy.
Qed.

Print Assumptions C90_chain3.
Print Assumptions C90_chain2.
Print Assumptions C90_apply2.
Print Assumptions C90_apply3.
Print Assumptions C90_linear.
