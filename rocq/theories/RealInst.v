(** Real numbers as scalars.  [r_ops] is the exact counterpart of [f32]/[f64]: the same operations without
    rounding, infinities or NaN.  Dividing by zero is made a failure here, so that no theorem can rest on
    the value the standard library happens to give it.  [r_float eps] are the functions of
    [num_traits::Float]; [eps] stands for the type's machine epsilon. *)
From Coq Require Import Reals Lra Psatz.
From Verif Require Import SpecRing ComplexModel.
Set Implicit Arguments.
Local Open Scope R_scope.

Definition r_eqb (x y : R) : bool := if Req_EM_T x y then true else false.
Definition r_ltb (x y : R) : bool := if Rlt_dec x y then true else false.
Definition r_leb (x y : R) : bool := if Rle_dec x y then true else false.
Definition r_ops : Ops R :=
  {| o_zero := 0; o_one := 1; o_add := ok2 Rplus; o_sub := ok2 Rminus; o_mul := ok2 Rmult;
     o_div := fun x y => if Req_EM_T y 0 then Panic else Ok (x / y);
     o_rem := fun _ _ => Panic;
     o_neg := ok1 Ropp; o_is_zero := r_eqb 0; o_eq := r_eqb; o_lt := r_ltb; o_le := r_leb |}.

Lemma r_ltb_true : forall x y, r_ltb x y = true <-> x < y.
Proof. intros. unfold r_ltb. destruct (Rlt_dec x y); split; intros; auto; try discriminate; contradiction. Qed.
Lemma r_ltb_false : forall x y, r_ltb x y = false <-> y <= x.
Proof. intros. unfold r_ltb. destruct (Rlt_dec x y); split; intros; auto; try discriminate; lra. Qed.
Lemma r_leb_true : forall x y, r_leb x y = true <-> x <= y.
Proof. intros. unfold r_leb. destruct (Rle_dec x y); split; intros; auto; try discriminate; contradiction. Qed.
Lemma r_leb_false : forall x y, r_leb x y = false <-> y < x.
Proof. intros. unfold r_leb. destruct (Rle_dec x y); split; intros; auto; try discriminate; lra. Qed.

Lemma r_ring_theory : ring_theory (o_zero r_ops) (o_one r_ops) Rplus Rmult Rminus Ropp eq.
Proof. constructor; intros; cbn; ring. Qed.
Definition r_ring : CRing r_ops :=
  @CRing_of_theory R r_ops Rplus Rmult Rminus Ropp (fun _ _ => eq_refl) (fun _ _ => eq_refl)
    (fun _ _ => eq_refl) (fun _ => eq_refl) r_ring_theory.
Definition r_field : Field r_ops.
Proof.
  refine (@mkField R r_ops r_ring Rinv _ _ _).
  - cbn. lra.
  - intros x H. cbn in *. field. exact H.
  - intros x y H. cbn in *. destruct (Req_EM_T y 0); [contradiction|reflexivity].
Defined.
Lemma r_real4 : real4 r_field.
Proof. intros a b c d H. cbn in *. repeat split; nra. Qed.
Lemma r_real2 : real2 r_field.
Proof. intros a b H. cbn in *. split; nra. Qed.

(** The four-quadrant arctangent. *)
Definition atan2 (y x : R) : R :=
  if Rlt_dec 0 x then atan (y / x)
  else if Rlt_dec x 0 then (if Rle_dec 0 y then atan (y / x) + PI else atan (y / x) - PI)
  else if Rlt_dec 0 y then PI / 2 else if Rlt_dec y 0 then - PI / 2 else 0.

Definition r_float (eps : R) : FloatOps R :=
  {| f_sqrt := sqrt; f_sin := sin; f_cos := cos; f_atan2 := atan2; f_abs := Rabs; f_pi := PI;
     f_two := 2; f_half := / 2; f_epsilon := eps |}.

(** [atan2] is the angle of the point [(x, y)]. *)
Lemma sqrt_scale : forall x y, 0 < x -> sqrt (x * x + y * y) = x * sqrt (1 + (y / x) * (y / x)).
Proof.
  intros x y H. apply sqrt_lem_1.
  - nra.
  - apply Rmult_le_pos; [lra|apply sqrt_pos].
  - replace (x * sqrt (1 + y / x * (y / x)) * (x * sqrt (1 + y / x * (y / x))))
      with (x * x * (sqrt (1 + y / x * (y / x)) * sqrt (1 + y / x * (y / x)))) by ring.
    rewrite sqrt_sqrt. { field. lra. } nra.
Qed.
Lemma atan2_pos : forall x y, 0 < x ->
  sqrt (x * x + y * y) * cos (atan (y / x)) = x /\ sqrt (x * x + y * y) * sin (atan (y / x)) = y.
Proof.
  intros x y H. rewrite (sqrt_scale _ H), cos_atan, sin_atan. unfold Rsqr.
  assert (S : sqrt (1 + y / x * (y / x)) <> 0). { apply Rgt_not_eq. apply sqrt_lt_R0. nra. }
  split; field; try split; auto; lra.
Qed.
Lemma atan2_spec : forall x y, sqrt (x * x + y * y) * cos (atan2 y x) = x /\ sqrt (x * x + y * y) * sin (atan2 y x) = y.
Proof.
  intros x y. unfold atan2. destruct (Rlt_dec 0 x) as [H|H]. { apply atan2_pos. auto. }
  destruct (Rlt_dec x 0) as [H1|H1].
  - pose proof (@atan2_pos (- x) (- y) ltac:(lra)) as (A & B).
    replace (- y / - x) with (y / x) in * by (field; lra). replace (- x * - x + - y * - y) with (x * x + y * y) in * by ring.
    destruct (Rle_dec 0 y).
    + rewrite neg_cos, neg_sin. split; lra.
    + replace (atan (y / x) - PI) with (- (- atan (y / x) + PI)) by ring. rewrite cos_neg, sin_neg, neg_cos, neg_sin, cos_neg, sin_neg.
      split; lra.
  - assert (x = 0) by lra. subst x. replace (0 * 0 + y * y) with (y * y) by ring.
    destruct (Rlt_dec 0 y).
    + rewrite cos_PI2, sin_PI2, sqrt_square by lra. split; lra.
    + destruct (Rlt_dec y 0).
      * replace (- PI / 2) with (- (PI / 2)) by field. rewrite cos_neg, sin_neg, cos_PI2, sin_PI2.
        replace (y * y) with (- y * - y) by ring. rewrite sqrt_square by lra. split; lra.
      * assert (y = 0) by lra. subst y. rewrite cos_0, sin_0. replace (0 * 0) with 0 by ring. rewrite sqrt_0. split; lra.
Qed.
Lemma atan2_bound : forall x y, - PI < atan2 y x <= PI.
Proof.
  intros. pose proof PI_RGT_0. unfold atan2. pose proof (atan_bound (y / x)) as B.
  assert (Q : x < 0 -> 0 <= y -> y / x <= 0).
  { intros. unfold Rdiv. assert (/ x < 0) by (apply Rinv_lt_0_compat; auto). nra. }
  assert (Q1 : x < 0 -> y < 0 -> 0 < y / x).
  { intros. unfold Rdiv. assert (/ x < 0) by (apply Rinv_lt_0_compat; auto). nra. }
  destruct (Rlt_dec 0 x). { lra. }
  destruct (Rlt_dec x 0).
  - destruct (Rle_dec 0 y).
    + specialize (Q ltac:(auto) ltac:(auto)).
      assert (atan (y / x) <= 0). { rewrite <- atan_0. destruct Q as [Q|Q]. left. apply atan_increasing. auto. rewrite Q. lra. }
      lra.
    + specialize (Q1 ltac:(auto) ltac:(lra)).
      assert (0 < atan (y / x)). { rewrite <- atan_0. apply atan_increasing. auto. }
      lra.
  - destruct (Rlt_dec 0 y); [lra|]. destruct (Rlt_dec y 0); lra.
Qed.
(** The angle in (-pi, pi] is determined by cosine and sine. *)
Lemma angle_unique : forall a b, - PI < a <= PI -> - PI < b <= PI -> cos a = cos b -> sin a = sin b -> a = b.
Proof.
  intros a b Ha Hb C S. pose proof PI_RGT_0.
  assert (P : forall u v, 0 <= u <= PI -> 0 <= v <= PI -> cos u = cos v -> u = v).
  { intros u v Hu Hv E. destruct (Rtotal_order u v) as [L|[L|L]]; auto; exfalso.
    - pose proof (cos_decreasing_1 u v ltac:(lra) ltac:(lra) ltac:(lra) ltac:(lra) L). lra.
    - pose proof (cos_decreasing_1 v u ltac:(lra) ltac:(lra) ltac:(lra) ltac:(lra) L). lra. }
  assert (N : forall u, - PI < u < 0 -> sin u < 0).
  { intros u Hu. replace u with (- (- u)) by ring. rewrite sin_neg. pose proof (sin_gt_0 (- u) ltac:(lra) ltac:(lra)). lra. }
  assert (G : forall u, 0 <= u <= PI -> 0 <= sin u) by (intros; apply sin_ge_0; lra).
  destruct (Rle_dec 0 a), (Rle_dec 0 b).
  - apply P; auto; lra.
  - exfalso. pose proof (G a ltac:(lra)). pose proof (N b ltac:(lra)). lra.
  - exfalso. pose proof (G b ltac:(lra)). pose proof (N a ltac:(lra)). lra.
  - enough (- a = - b) by lra. apply P; try lra. rewrite !cos_neg. auto.
Qed.
Lemma atan2_polar : forall r t, 0 < r -> - PI < t <= PI -> atan2 (r * sin t) (r * cos t) = t.
Proof.
  intros r t Hr Ht. pose proof (atan2_spec (r * cos t) (r * sin t)) as (A & B).
  replace (r * cos t * (r * cos t) + r * sin t * (r * sin t)) with (r * r * (Rsqr (sin t) + Rsqr (cos t))) in * by (unfold Rsqr; ring).
  rewrite sin2_cos2, Rmult_1_r, sqrt_square in * by lra.
  apply angle_unique; auto using atan2_bound; apply Rmult_eq_reg_l with r; lra.
Qed.
