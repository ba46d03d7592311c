(** Property C113: Moebius transformations map circles and lines to circles and lines, and (acting on quaternions) spheres
    and hyperplanes to spheres and hyperplanes. *)
From Coq Require Import ZArith Ring Field Reals Lra.
From Verif Require Import SpecDet SpecFacts MFacts MatProofs MoFacts SqProofs CxFacts Instances PropSquare PropComplex PropMoebius PropHyper RealInst.
Set Implicit Arguments.
Local Open Scope nat_scope.
Local Open Scope list_scope.

(** The sphere or hyperplane [A |q|^2 + Re(conj B (w + x i)) + Re(conj G (y + z i)) + E = 0] in the space of quaternions
    [q = w + x i + y j + z k]; its intersection with the complex plane is the circle or line
    [A |z|^2 + Re(conj B z) + E = 0]. *)
Record sphere (T : Type) : Type := Sphere { s_A : T; s_B : complex T; s_G : complex T; s_E : T }.
Section Eq.
  Context {T : Type} {o : Ops T} (F : Field o).
  Local Notation "x + y" := (r_add F x y).
  Local Notation "x - y" := (r_sub F x y).
  Local Notation "x * y" := (r_mul F x y).
  (** The left-hand sides of the two equations. *)
  Definition at_q (S : sphere T) (q : quat T) : T :=
    s_A S * (qw q * qw q + qx q * qx q + qy q * qy q + qz q * qz q) + (re (s_B S) * qw q + im (s_B S) * qx q) +
    (re (s_G S) * qy q + im (s_G S) * qz q) + s_E S.
  Definition at_c (S : sphere T) (z : complex T) : T :=
    s_A S * (re z * re z + im z * im z) + (re (s_B S) * re z + im (s_B S) * im z) + s_E S.
  (** |B|^2 + |G|^2 - 4 A E.  For A not zero this is 4 A^2 times the square of the radius. *)
  Definition discr (S : sphere T) : T :=
    let two := o_one o + o_one o in
    re (s_B S) * re (s_B S) + im (s_B S) * im (s_B S) + (re (s_G S) * re (s_G S) + im (s_G S) * im (s_G S)) - two * two * (s_A S * s_E S).
End Eq.

Section C113.
  Context {T : Type} {o : Ops T} (F : Field o) (rem : complex T -> complex T -> res (complex T)) (H4 : real4 F).
  Local Notation co := (c_ops o rem).
  Add Field F113 : (Field_theory F).
  Local Notation "0" := (o_zero o).
  Local Notation "1" := (o_one o).
  Local Notation "x + y" := (r_add F x y).
  Local Notation "x - y" := (r_sub F x y).
  Local Notation "x * y" := (r_mul F x y).
  Local Notation "- x" := (r_opp F x).
  Local Notation Q := (q_ring_inst F).
  Local Notation C := (c_ring_inst F rem).
  Local Notation N := (q_nrm F).
  Local Notation cmul := (r_mul C).
  Local Notation cadd := (r_add C).
  Local Notation cn := (c_nrm F).
  Definition cc (z : complex T) : complex T := Cx (re z) (- im z).
  Definition sc (s : T) (z : complex T) : complex T := Cx (s * re z) (s * im z).
  (** The image sphere. *)
  Definition image (a b c d : complex T) (S : sphere T) : sphere T :=
    let A := s_A S in let B := s_B S in let E := s_E S in
    Sphere (A * cn d - re (cmul (cc B) (cmul d (cc c))) + E * cn c)
      (cadd (cadd (sc (- ((1 + 1) * A)) (cmul b (cc d))) (cmul B (cmul a (cc d)))) (cadd (cmul (cc B) (cmul b (cc c))) (sc (- ((1 + 1) * E)) (cmul a (cc c)))))
      (cmul (s_G S) (r_sub C (cmul a d) (cmul b c)))
      (A * cn b - re (cmul (cc B) (cmul b (cc a))) + E * cn a).
  Lemma image_discr : forall a b c d S, discr F (image a b c d S) = cn (r_sub C (cmul a d) (cmul b c)) * discr F S.
  Proof. intros [] [] [] [] [A [] [] E]. unfold image, discr, cc, sc, c_nrm. cbn. ring. Qed.
  (** With the denominator cleared: [q' = p conj u / |u|^2]. *)
  Lemma image_q : forall a b c d S q,
    let p := num_v F a b q in let u := num_v F c d q in let r := qmul_v F p (qconj_v F u) in let S' := image a b c d S in
    s_A S' * N p + (re (s_B S') * qw r + im (s_B S') * qx r) + (re (s_G S') * qy r + im (s_G S') * qz r) + s_E S' * N u =
    cn (r_sub C (cmul a d) (cmul b c)) * at_q F S q.
  Proof.
    intros [] [] [] [] [A [] [] E] []. unfold image, at_q, cc, sc, c_nrm, q_nrm, num_v, qmul_v, qconj_v. cbn. ring.
  Qed.
  Lemma at_quot : forall S p u, N u <> 0 ->
    at_q F S (qmul_v F p (q_finv F u)) * N u =
    let r := qmul_v F p (qconj_v F u) in
    s_A S * N p + (re (s_B S) * qw r + im (s_B S) * qx r) + (re (s_G S) * qy r + im (s_G S) * qz r) + s_E S * N u.
  Proof.
    intros S p u Hu.
    assert (E : qmul_v F p (q_finv F u) =
      let r := qmul_v F p (qconj_v F u) in let i := f_inv F (N u) in Qt (qw r * i) (qx r * i) (qy r * i) (qz r * i)).
    { destruct p, u. unfold qmul_v, q_finv, qconj_v. cbn. f_equal; ring. }
    assert (M : N (qmul_v F p (qconj_v F u)) = N p * N u).
    { destruct p, u. unfold qmul_v, qconj_v, q_nrm. cbn. ring. }
    rewrite E. cbv zeta. set (r := qmul_v F p (qconj_v F u)) in *. set (i := f_inv F (N u)).
    assert (Ei : i * N u = 1) by (unfold i; apply (f_inv_l F); auto). unfold at_q. cbn [qw qx qy qz].
    set (n := N u) in *. set (k := N p) in *. clearbody i n k.
    transitivity (s_A S * (N r * i * (i * n)) + (re (s_B S) * qw r + im (s_B S) * qx r) * (i * n) + (re (s_G S) * qy r + im (s_G S) * qz r) * (i * n) + s_E S * n).
    { unfold q_nrm. ring. }
    rewrite Ei, M. transitivity (s_A S * (k * (i * n)) + (re (s_B S) * qw r + im (s_B S) * qx r) + (re (s_G S) * qy r + im (s_G S) * qz r) + s_E S * n); [ring|].
    rewrite Ei. ring.
  Qed.

  Lemma image_full : forall a b c d S,
    let m := [[a; b]; [c; d]] in let S' := image a b c d S in let D := r_sub C (cmul a d) (cmul b c) in
    (forall q q', off_pole_q o rem m q -> mo_apply_q o m q = Ok q' ->
       exists u, denominator o m q = Ok u /\ N u <> 0 /\ at_q F S' q' * N u = cn D * at_q F S q) /\
    (forall z z', off_pole co m z -> mo_apply_self co m z = Ok z' ->
       exists u, (let! cz := c_mul o (mget co m 1 0) z in c_add o cz (mget co m 1 1)) = Ok u /\ cn u <> 0 /\
       at_c F S' z' * cn u = cn D * at_c F S z).
  Proof.
    intros a b c d S m S' D. subst m S' D. split.
    - intros q q' Hq Eq. destruct (value H4 Hq) as (Nq & Dq & Vq). rewrite Vq in Eq. apply Ok_inj in Eq. subst q'.
      exists (num_v F c d q). split; [exact Dq|]. split; auto. rewrite at_quot by auto. apply image_q.
    - assert (H2 : real2 F).
      { intros x y E. destruct (H4 x y 0 0) as (? & ? & _); [|auto]. etransitivity; [|exact E]. ring. }
      intros z z' Hz Ez. pose proof Hz as H'. rewrite (off_pole_D (field_div (c_field_inst (F:=F) rem H2))) in H'.
      rewrite (mo_apply_v (field_div (c_field_inst (F:=F) rem H2)) a b c d z H') in Ez. apply Ok_inj in Ez.
      exists (cadd (cmul c z) d). split; [|split].
      + change (mget co [[a; b]; [c; d]] 1 0) with c. change (mget co [[a; b]; [c; d]] 1 1) with d.
        rewrite (r_mul_ok C : forall x y, c_mul o x y = _). cbn [bind]. apply (r_add_ok C).
      + apply (c_nrm_neq H2). exact H'.
      + apply (c_nrm_neq H2) in H'. change (c_nrm F (cadd (cmul c z) d) <> 0) in H'.
        assert (Z : z' = cmul (cadd (cmul a z) b) (c_finv F (cadd (cmul c z) d))) by (symmetry; exact Ez). clear Ez Hz. subst z'.
        pose proof (@image_q a b c d S (Qt (re z) (im z) 0 0)) as K. cbv zeta in K.
        assert (Nu : N (num_v F c d (Qt (re z) (im z) 0 0)) = c_nrm F (cadd (cmul c z) d)) by (destruct c, d, z; unfold q_nrm, c_nrm, num_v; cbn; ring).
        rewrite <- (@at_quot (image a b c d S)) in K by (rewrite Nu; exact H'). rewrite Nu in K.
        transitivity (at_q F (image a b c d S) (qmul_v F (num_v F a b (Qt (re z) (im z) 0 0)) (q_finv F (num_v F c d (Qt (re z) (im z) 0 0)))) * c_nrm F (cadd (cmul c z) d)).
        * f_equal. unfold q_finv. rewrite Nu. unfold c_finv. set (i := f_inv F _). clearbody i. unfold at_c, at_q. generalize (image a b c d S). intros S'.
          destruct a, b, c, d, z. cbn. ring.
        * rewrite K. f_equal. unfold at_c, at_q. cbn. ring.
  Qed.
  (** Every sphere S has an image S' with [S'(m(q)) |c q + d|^2 = |det m|^2 S(q)], with discriminant multiplied by |det|^2. *)
  Theorem C113_image : forall m D S, rect 2 2 m -> mo_det co m = Ok D ->
    exists S', discr F S' = cn D * discr F S /\ cmul (s_G S) D = s_G S' /\
    (forall q q', off_pole_q o rem m q -> mo_apply_q o m q = Ok q' ->
       exists u, denominator o m q = Ok u /\ N u <> 0 /\ at_q F S' q' * N u = cn D * at_q F S q) /\
    (forall z z', off_pole co m z -> mo_apply_self co m z = Ok z' ->
       exists u, (let! cz := c_mul o (mget co m 1 0) z in c_add o cz (mget co m 1 1)) = Ok u /\ cn u <> 0 /\
       at_c F S' z' * cn u = cn D * at_c F S z).
  Proof.
    intros m D S Rm ED. destruct (rect22 Rm) as (a & b & c & d & ->).
    unfold mo_det in ED. rewrite (m_det_22 C) in ED. apply Ok_inj in ED. subst D.
    exists (image a b c d S). split; [apply image_discr|]. split; [reflexivity|]. exact (image_full a b c d S).
  Qed.
End C113.
Section C113_on.
  Context {T : Type} {o : Ops T} (F : Field o) (rem : complex T -> complex T -> res (complex T)) (H4 : real4 F).
  Local Notation co := (c_ops o rem).
  Add Field F113b : (Field_theory F).
  Local Notation "0" := (o_zero o).
  Local Notation "x * y" := (r_mul F x y).
  Lemma cancel_zero : forall x n k y, n <> 0 -> k <> 0 -> x * n = k * y -> (y = 0 <-> x = 0).
  Proof.
    intros x n k y Hn Hk E. split; intros Z.
    - transitivity (x * n * f_inv F n). { transitivity (x * (f_inv F n * n)); [rewrite (f_inv_l F) by auto; ring|ring]. } rewrite E, Z. ring.
    - transitivity (k * y * f_inv F k). { transitivity (y * (f_inv F k * k)); [rewrite (f_inv_l F) by auto; ring|ring]. } rewrite <- E, Z. ring.
  Qed.
  (** With non-zero determinant: a point is on the sphere exactly when its image is on the image sphere; spheres centred on the
      complex plane (G = 0) have images centred there; the same for circles in the complex plane. *)
  Theorem C113_on : forall m D S, rect 2 2 m -> mo_det co m = Ok D -> D <> Cx 0 0 ->
    exists S', discr F S' = c_nrm F D * discr F S /\ (s_G S = Cx 0 0 -> s_G S' = Cx 0 0) /\
    (forall q q', off_pole_q o rem m q -> mo_apply_q o m q = Ok q' -> (at_q F S q = 0 <-> at_q F S' q' = 0)) /\
    (forall z z', off_pole co m z -> mo_apply_self co m z = Ok z' -> (at_c F S z = 0 <-> at_c F S' z' = 0)).
  Proof.
    intros m D S Rm ED HD. destruct (@C113_image _ _ F rem H4 m D S Rm ED) as (S' & E1 & E2 & HQ & HC). exists S'.
    assert (H2 : real2 F).
    { intros x y E. destruct (H4 x y 0 0) as (? & ? & _); [|auto]. etransitivity; [|exact E]. ring. }
    assert (ND : c_nrm F D <> 0) by (apply (c_nrm_neq H2); auto).
    split; auto. split; [|split].
    - intros G. rewrite <- E2, G. destruct D. cbn. f_equal. { ring. } { ring. }
    - intros q q' Hq Eq. destruct (HQ q q' Hq Eq) as (u & _ & Nu & E). exact (cancel_zero _ _ Nu ND E).
    - intros q q' Hq Eq. destruct (HC q q' Hq Eq) as (u & _ & Nu & E). exact (cancel_zero _ _ Nu ND E).
  Qed.
End C113_on.

(* ------------------------------------------------------------------------- *)
(** * Centres and radii, over the real numbers                                  *)
Local Open Scope R_scope.
Definition qd2 (p q : quat R) : R := (qw q - qw p) ^ 2 + (qx q - qx p) ^ 2 + (qy q - qy p) ^ 2 + (qz q - qz p) ^ 2.
Definition cd2 (p z : complex R) : R := (re z - re p) ^ 2 + (im z - im p) ^ 2.
Definition cabs2 (z : complex R) : R := re z ^ 2 + im z ^ 2.
Definition qabs2 (q : quat R) : R := qw q ^ 2 + qx q ^ 2 + qy q ^ 2 + qz q ^ 2.
(** The sphere around [p] of radius [r]. *)
Definition ball (p : quat R) (r : R) : sphere R :=
  Sphere 1 (Cx (-2 * qw p) (-2 * qx p)) (Cx (-2 * qy p) (-2 * qz p)) (qabs2 p - r ^ 2).
Lemma ball_q : forall p r q, at_q r_field (ball p r) q = qd2 p q - r ^ 2.
Proof. intros. unfold at_q, ball, qd2, qabs2. cbn. ring. Qed.
Lemma ball_c : forall p r z, at_c r_field (ball (Qt (re p) (im p) 0 0) r) z = cd2 p z - r ^ 2.
Proof. intros. unfold at_c, ball, cd2, qabs2. cbn. ring. Qed.
Lemma ball_discr : forall p r, discr r_field (ball p r) = 4 * r ^ 2.
Proof. intros. unfold discr, ball, qabs2. cbn. ring. Qed.
(** Completing the square. *)
Definition centre (S : sphere R) : quat R := let k := - / (2 * s_A S) in Qt (k * re (s_B S)) (k * im (s_B S)) (k * re (s_G S)) (k * im (s_G S)).
Lemma at_centre : forall S q, s_A S <> 0 -> at_q r_field S q = s_A S * (qd2 (centre S) q - discr r_field S / (4 * s_A S ^ 2)).
Proof. intros [A [B1 B2] [G1 G2] E] [] HA. unfold at_q, qd2, centre, discr in *. cbn in *. field. auto. Qed.
Lemma at_c_q : forall S z, at_c r_field S z = at_q r_field S (Qt (re z) (im z) 0 0).
Proof. intros. unfold at_c, at_q. cbn. ring. Qed.

(** [|c p + d|^2 - r^2 |c|^2]: positive when the pole [- d / c] is outside the sphere, negative when it is inside, zero when
    the sphere passes through it. *)
Definition clearance (c d : complex R) (p : quat R) (r : R) : R :=
  ((re c * qw p - im c * qx p + re d) ^ 2 + (re c * qx p + im c * qw p + im d) ^ 2 + (re c * qy p - im c * qz p) ^ 2 + (re c * qz p + im c * qy p) ^ 2) -
  r ^ 2 * cabs2 c.
Lemma image_A : forall rem a b c d p r, s_A (image r_field rem a b c d (ball p r)) = clearance c d p r.
Proof. intros rem [] [] [] [] [] r. unfold image, ball, clearance, qabs2, cabs2, c_nrm, cc, sc. cbn. ring. Qed.
Lemma clearance_denominator : forall rem m p r u, rect 2 2 m -> denominator r_ops m p = Ok u ->
  clearance (mget (c_ops r_ops rem) m 1 0) (mget (c_ops r_ops rem) m 1 1) p r = qabs2 u - r ^ 2 * cabs2 (mget (c_ops r_ops rem) m 1 0).
Proof.
  intros rem m p r u Rm E. destruct (rect22 Rm) as (a & b & c & d & ->).
  unfold denominator in E. change (mo_c [[a; b]; [c; d]]) with (Ok c) in E. change (mo_d [[a; b]; [c; d]]) with (Ok d) in E. cbn in E.
  apply Ok_inj in E. subst u. destruct c, d, p. unfold clearance, qabs2, cabs2. cbn. ring.
Qed.
Lemma discr_plane : forall S, s_A S = 0 -> 0 < discr r_field S -> ~ (re (s_B S) = 0 /\ im (s_B S) = 0 /\ re (s_G S) = 0 /\ im (s_G S) = 0).
Proof.
  intros [A [] [] E] EA HD (E1 & E2 & E3 & E4). unfold discr in HD. cbn in *. subst. lra.
Qed.
Lemma sign_lemma : forall A X n k Y, 0 < n -> 0 < k -> A * X * n = k * Y ->
  (A <> 0 -> (Y = 0 <-> X = 0)) /\ (0 < A -> (Y < 0 <-> X < 0)) /\ (A < 0 -> (Y < 0 <-> 0 < X)).
Proof.
  intros A X n k Y Hn Hk E.
  assert (P : forall u v, 0 < u -> 0 < v -> 0 < u * v) by (intros; apply Rmult_lt_0_compat; auto).
  assert (Z : forall x, x < 0 \/ x = 0 \/ 0 < x) by (intros; destruct (Rtotal_order x 0) as [|[|]]; auto).
  assert (B : forall A' X' Y', 0 < A' -> A' * X' * n = k * Y' -> (Y' = 0 <-> X' = 0) /\ (Y' < 0 <-> X' < 0) /\ (0 < Y' <-> 0 < X')).
  { intros A' X' Y' HA E'. pose proof (P A' n HA Hn) as Q.
    destruct (Z X') as [HX|[HX|HX]], (Z Y') as [HY|[HY|HY]]; try (split; [|split]; split; intros; lra); exfalso.
    - subst Y'. assert (0 < A' * n * - X') by (apply P; lra). lra.
    - assert (0 < A' * n * - X') by (apply P; lra). assert (0 < k * Y') by (apply P; lra). lra.
    - subst X'. assert (0 < k * - Y') by (apply P; lra). lra.
    - subst X'. assert (0 < k * Y') by (apply P; lra). lra.
    - assert (0 < A' * n * X') by (apply P; lra). assert (0 < k * - Y') by (apply P; lra). lra.
    - subst Y'. assert (0 < A' * n * X') by (apply P; lra). lra. }
  split; [|split].
  - intros HA. destruct (Z A) as [HA'|[HA'|HA']]; [|lra|].
    + destruct (B (- A) (- X) Y) as (B1 & _); try lra; rewrite B1; lra.
    + destruct (B A X Y) as (B1 & _); auto.
  - intros HA. destruct (B A X Y) as (_ & B1 & _); auto.
  - intros HA. destruct (B (- A) (- X) Y) as (_ & B1 & _); try lra; rewrite B1; lra.
Qed.
Lemma q_nrm_pos : forall u, q_nrm r_field u <> 0 -> 0 < q_nrm r_field u.
Proof.
  intros [w x y z]. unfold q_nrm. cbn. intros H. pose proof (Rle_0_sqr w). pose proof (Rle_0_sqr x). pose proof (Rle_0_sqr y). pose proof (Rle_0_sqr z).
  unfold Rsqr in *. lra.
Qed.
Lemma c_nrm_pos : forall u, c_nrm r_field u <> 0 -> 0 < c_nrm r_field u.
Proof. intros [x y]. unfold c_nrm. cbn. intros H. pose proof (Rle_0_sqr x). pose proof (Rle_0_sqr y). unfold Rsqr in *. lra. Qed.
Lemma det_eq : forall rem a b c d D, mo_det (c_ops r_ops rem) [[a; b]; [c; d]] = Ok D ->
  D = r_sub (c_ring_inst r_field rem) (r_mul (c_ring_inst r_field rem) a d) (r_mul (c_ring_inst r_field rem) b c).
Proof. intros rem a b c d D HD. unfold mo_det in HD. rewrite (m_det_22 (c_ring_inst r_field rem)) in HD. apply Ok_inj in HD. auto. Qed.
Lemma cabs2_nrm : forall D, c_nrm r_field D = cabs2 D.
Proof. intros []. unfold c_nrm, cabs2. cbn. ring. Qed.
Lemma det_pos : forall D, D <> Cx 0 0 -> 0 < c_nrm r_field D.
Proof. intros D HD. apply c_nrm_pos. apply (c_nrm_neq r_real2). auto. Qed.

Section Radii.
  Context (rem : complex R -> complex R -> res (complex R)).
  Local Notation co := (c_ops r_ops rem).
  (** The radius of the image is [r |det m| / | |c p + d|^2 - r^2 |c|^2 |].  A pole outside the sphere: the inside goes to the
      inside.  A pole inside: the inside goes to the outside. *)
  Theorem C113_radius : forall m D p r, rect 2 2 m -> mo_det co m = Ok D -> D <> Cx 0 0 -> 0 < r ->
    let k := clearance (mget co m 1 0) (mget co m 1 1) p r in k <> 0 ->
    exists p' r', 0 < r' /\ r' ^ 2 * k ^ 2 = r ^ 2 * cabs2 D /\
    forall q q', off_pole_q r_ops rem m q -> mo_apply_q r_ops m q = Ok q' ->
      (qd2 p q = r ^ 2 <-> qd2 p' q' = r' ^ 2) /\
      (0 < k -> (qd2 p q < r ^ 2 <-> qd2 p' q' < r' ^ 2)) /\
      (k < 0 -> (qd2 p q < r ^ 2 <-> r' ^ 2 < qd2 p' q')).
  Proof.
    intros m D p r Rm ED HD Hr. destruct (rect22 Rm) as (a & b & c & d & ->).
    change (mget co [[a; b]; [c; d]] 1 0) with c. change (mget co [[a; b]; [c; d]] 1 1) with d. intros k Hk.
    destruct (@image_full _ _ r_field rem r_real4 a b c d (ball p r)) as (HQ & _). apply det_eq in ED. rewrite <- ED in HQ.
    set (S' := image r_field rem a b c d (ball p r)) in *.
    assert (EA : s_A S' = k) by apply image_A.
    assert (Ed : discr r_field S' = cabs2 D * (4 * r ^ 2)).
    { unfold S'. rewrite (image_discr r_field rem), <- ED, ball_discr, cabs2_nrm. reflexivity. }
    pose proof (det_pos HD) as PD.
    assert (Pr : 0 < discr r_field S' / (4 * s_A S' ^ 2)).
    { rewrite Ed, EA, <- cabs2_nrm. apply Rdiv_lt_0_compat.
      - apply Rmult_lt_0_compat; auto. apply Rmult_lt_0_compat; [lra|]. apply pow_lt. auto.
      - apply Rmult_lt_0_compat; [lra|]. rewrite <- Rsqr_pow2. apply Rsqr_pos_lt. auto. }
    set (rho := discr r_field S' / (4 * s_A S' ^ 2)) in *.
    assert (Es : sqrt rho ^ 2 = rho) by (rewrite <- Rsqr_pow2; apply Rsqr_sqrt; lra).
    exists (centre S'), (sqrt rho). split; [apply sqrt_lt_R0; auto|]. split.
    { rewrite Es. unfold rho. rewrite Ed, EA. field. auto. }
    intros q q' Hq Eq. destruct (HQ q q' Hq Eq) as (u & _ & Nu & E). apply q_nrm_pos in Nu.
    rewrite Es. rewrite (at_centre S' q') in E by (rewrite EA; auto). rewrite ball_q in E. fold rho in E. rewrite EA in E.
    change (k * (qd2 (centre S') q' - rho) * q_nrm r_field u = c_nrm r_field D * (qd2 p q - r ^ 2)) in E.
    destruct (@sign_lemma k (qd2 (centre S') q' - rho) (q_nrm r_field u) (c_nrm r_field D) (qd2 p q - r ^ 2) Nu PD E) as (S1 & S2 & S3).
    specialize (S1 Hk). split; [|split].
    - split; intros; [assert (qd2 p q - r ^ 2 = 0) by lra; apply S1 in H0; lra | assert (qd2 (centre S') q' - rho = 0) by lra; apply S1 in H0; lra].
    - intros G. specialize (S2 G). split; intros; [assert (qd2 p q - r ^ 2 < 0) by lra; apply S2 in H0; lra | assert (qd2 (centre S') q' - rho < 0) by lra; apply S2 in H0; lra].
    - intros G. specialize (S3 G). split; intros; [assert (qd2 p q - r ^ 2 < 0) by lra; apply S3 in H0; lra | assert (0 < qd2 (centre S') q' - rho) by lra; apply S3 in H0; lra].
  Qed.
  (** A sphere through the pole becomes a hyperplane, its inside one of the half-spaces. *)
  Theorem C113_plane : forall m D p r, rect 2 2 m -> mo_det co m = Ok D -> D <> Cx 0 0 -> 0 < r ->
    clearance (mget co m 1 0) (mget co m 1 1) p r = 0 ->
    exists n e, n <> Qt 0 0 0 0 /\
    forall q q', off_pole_q r_ops rem m q -> mo_apply_q r_ops m q = Ok q' ->
      let s := qw n * qw q' + qx n * qx q' + qy n * qy q' + qz n * qz q' in
      (qd2 p q = r ^ 2 <-> s = e) /\ (qd2 p q < r ^ 2 <-> s < e).
  Proof.
    intros m D p r Rm ED HD Hr. destruct (rect22 Rm) as (a & b & c & d & ->).
    change (mget co [[a; b]; [c; d]] 1 0) with c. change (mget co [[a; b]; [c; d]] 1 1) with d. intros Hk.
    destruct (@image_full _ _ r_field rem r_real4 a b c d (ball p r)) as (HQ & _). apply det_eq in ED. rewrite <- ED in HQ.
    set (S' := image r_field rem a b c d (ball p r)) in *.
    assert (EA : s_A S' = 0) by (unfold S'; rewrite image_A; auto).
    pose proof (det_pos HD) as PD.
    assert (Ed : 0 < discr r_field S').
    { unfold S'. rewrite (image_discr r_field rem), <- ED, ball_discr. apply Rmult_lt_0_compat; auto. pose proof (pow_lt r 2 Hr). lra. }
    exists (Qt (re (s_B S')) (im (s_B S')) (re (s_G S')) (im (s_G S'))), (- s_E S'). split.
    { intros E. apply (discr_plane EA Ed). injection E. auto. }
    intros q q' Hq Eq s. destruct (HQ q q' Hq Eq) as (u & _ & Nu & E). apply q_nrm_pos in Nu. rewrite ball_q in E.
    assert (Es : at_q r_field S' q' = 1 * (s + s_E S')). { unfold at_q, s. rewrite EA. cbn. ring. }
    rewrite Es in E. change (1 * (s + s_E S') * q_nrm r_field u = c_nrm r_field D * (qd2 p q - r ^ 2)) in E.
    destruct (@sign_lemma 1 (s + s_E S') (q_nrm r_field u) (c_nrm r_field D) (qd2 p q - r ^ 2) Nu PD E) as (S1 & S2 & _).
    specialize (S1 ltac:(lra)). specialize (S2 ltac:(lra)). clearbody s. split.
    - split; intros; [assert (qd2 p q - r ^ 2 = 0) by lra; apply S1 in H0; lra | assert (s + s_E S' = 0) by lra; apply S1 in H0; lra].
    - split; intros; [assert (qd2 p q - r ^ 2 < 0) by lra; apply S2 in H0; lra | assert (s + s_E S' < 0) by lra; apply S2 in H0; lra].
  Qed.
End Radii.

(** Spheres and hyperplanes of the quaternions; circles and lines of the complex plane. *)
Inductive sphere_or_plane : (quat R -> Prop) -> Prop :=
| a_sphere : forall p r, 0 < r -> sphere_or_plane (fun q => qd2 p q = r ^ 2)
| a_plane : forall n e, n <> Qt 0 0 0 0 -> sphere_or_plane (fun q => qw n * qw q + qx n * qx q + qy n * qy q + qz n * qz q = e).
Inductive circle_or_line : (complex R -> Prop) -> Prop :=
| a_circle : forall p r, 0 < r -> circle_or_line (fun z => cd2 p z = r ^ 2)
| a_line : forall n e, n <> Cx 0 0 -> circle_or_line (fun z => re n * re z + im n * im z = e).

Lemma of_sphere : forall P, sphere_or_plane P -> exists S, 0 < discr r_field S /\ forall q, P q <-> at_q r_field S q = 0.
Proof.
  intros P [p r Hr|n e Hn].
  - exists (ball p r). rewrite ball_discr. split; [pose proof (pow_lt r 2 Hr); lra|]. intros q. rewrite ball_q. split; lra.
  - exists (Sphere 0 (Cx (qw n) (qx n)) (Cx (qy n) (qz n)) (- e)). split.
    + apply (q_nrm_neq r_real4) in Hn. apply q_nrm_pos in Hn. unfold q_nrm in Hn. unfold discr. cbn in *. lra.
    + intros q. unfold at_q. cbn. split; lra.
Qed.
Lemma to_sphere : forall S, 0 < discr r_field S -> exists P, sphere_or_plane P /\ forall q, P q <-> at_q r_field S q = 0.
Proof.
  intros S HS. destruct (Req_dec (s_A S) 0) as [EA|EA].
  - exists (fun q => re (s_B S) * qw q + im (s_B S) * qx q + re (s_G S) * qy q + im (s_G S) * qz q = - s_E S). split.
    + apply (@a_plane (Qt (re (s_B S)) (im (s_B S)) (re (s_G S)) (im (s_G S)))). intros E. apply (discr_plane EA HS). injection E. auto.
    + intros q. unfold at_q. cbn. rewrite EA. split; lra.
  - assert (Pr : 0 < discr r_field S / (4 * s_A S ^ 2)).
    { apply Rdiv_lt_0_compat; auto. apply Rmult_lt_0_compat; [lra|]. rewrite <- Rsqr_pow2. apply Rsqr_pos_lt. auto. }
    exists (fun q => qd2 (centre S) q = sqrt (discr r_field S / (4 * s_A S ^ 2)) ^ 2). split.
    + apply a_sphere. apply sqrt_lt_R0. auto.
    + intros q. rewrite at_centre by auto. rewrite <- Rsqr_pow2, Rsqr_sqrt by lra. set (X := qd2 _ _). set (Y := discr _ _ / _). split; intros H.
      * rewrite H. ring.
      * apply Rmult_integral in H. destruct H; [contradiction|lra].
Qed.
Lemma of_circle : forall P, circle_or_line P -> exists S, 0 < discr r_field S /\ s_G S = Cx 0 0 /\ forall z, P z <-> at_c r_field S z = 0.
Proof.
  intros P [p r Hr|n e Hn].
  - exists (ball (Qt (re p) (im p) 0 0) r). rewrite ball_discr. split; [pose proof (pow_lt r 2 Hr); lra|]. split; [cbn; f_equal; ring|].
    intros z. rewrite ball_c. split; lra.
  - exists (Sphere 0 n (Cx 0 0) (- e)). split; [|split; auto].
    + apply det_pos in Hn. unfold c_nrm in Hn. unfold discr. cbn in *. lra.
    + intros z. unfold at_c. cbn. split; lra.
Qed.
Lemma to_circle : forall S, 0 < discr r_field S -> s_G S = Cx 0 0 -> exists P, circle_or_line P /\ forall z, P z <-> at_c r_field S z = 0.
Proof.
  intros S HS G. destruct (Req_dec (s_A S) 0) as [EA|EA].
  - exists (fun z => re (s_B S) * re z + im (s_B S) * im z = - s_E S). split.
    + apply a_line. intros E. apply (discr_plane EA HS). rewrite E, G. auto.
    + intros z. unfold at_c. cbn. rewrite EA. split; lra.
  - assert (Pr : 0 < discr r_field S / (4 * s_A S ^ 2)).
    { apply Rdiv_lt_0_compat; auto. apply Rmult_lt_0_compat; [lra|]. rewrite <- Rsqr_pow2. apply Rsqr_pos_lt. auto. }
    exists (fun z => cd2 (Cx (qw (centre S)) (qx (centre S))) z = sqrt (discr r_field S / (4 * s_A S ^ 2)) ^ 2). split.
    + apply a_circle. apply sqrt_lt_R0. auto.
    + intros z. rewrite at_c_q, at_centre by auto. rewrite <- Rsqr_pow2, Rsqr_sqrt by lra.
      assert (X : qd2 (centre S) (Qt (re z) (im z) 0 0) = cd2 (Cx (qw (centre S)) (qx (centre S))) z).
      { unfold qd2, cd2, centre. cbn. rewrite G. cbn. ring. }
      rewrite X. set (Y := discr _ _ / _). split; intros H.
      * rewrite H. ring.
      * apply Rmult_integral in H. destruct H; [contradiction|lra].
Qed.

Theorem C113_spheres : forall rem m D P, rect 2 2 m -> mo_det (c_ops r_ops rem) m = Ok D -> D <> Cx 0 0 -> sphere_or_plane P ->
  exists P', sphere_or_plane P' /\
  forall q q', off_pole_q r_ops rem m q -> mo_apply_q r_ops m q = Ok q' -> (P q <-> P' q').
Proof.
  intros rem m D P Rm ED HD HP. destruct (of_sphere HP) as (S & HS & ES).
  destruct (@C113_on _ _ r_field rem r_real4 m D S Rm ED HD) as (S' & E & _ & HQ & _).
  destruct (@to_sphere S') as (P' & HP' & EP').
  { rewrite E. apply Rmult_lt_0_compat; auto. apply det_pos. auto. }
  exists P'. split; auto. intros q q' Hq Eq. rewrite ES, EP'. apply HQ; auto.
Qed.
Theorem C113_circles : forall rem m D P, rect 2 2 m -> mo_det (c_ops r_ops rem) m = Ok D -> D <> Cx 0 0 -> circle_or_line P ->
  exists P', circle_or_line P' /\
  forall z z', off_pole (c_ops r_ops rem) m z -> mo_apply_self (c_ops r_ops rem) m z = Ok z' -> (P z <-> P' z').
Proof.
  intros rem m D P Rm ED HD HP. destruct (of_circle HP) as (S & HS & G & ES).
  destruct (@C113_on _ _ r_field rem r_real4 m D S Rm ED HD) as (S' & E & G' & _ & HC).
  destruct (@to_circle S') as (P' & HP' & EP'); auto.
  { rewrite E. apply Rmult_lt_0_compat; auto. apply det_pos. auto. }
  exists P'. split; auto. intros z z' Hz Ez. rewrite ES, EP'. apply HC; auto.
Qed.

(** The inversion [q -> 1 / q] meets the hypotheses: determinant -1, clearance 4 - 1 = 3 for the sphere around 2 of radius 1
    (so the image has radius 1/3), clearance 0 for the sphere around 1 of radius 1 (so the image is a hyperplane). *)
Definition inversion : list (list (complex R)) := [[Cx 0 0; Cx 1 0]; [Cx 1 0; Cx 0 0]].
Example inversion_hyps : forall rem,
  rect 2 2 inversion /\ mo_det (c_ops r_ops rem) inversion = Ok (Cx (-1) 0) /\ Cx (-1) 0 <> Cx 0 0 /\
  clearance (mget (c_ops r_ops rem) inversion 1 0) (mget (c_ops r_ops rem) inversion 1 1) (Qt 2 0 0 0) 1 = 3 /\
  clearance (mget (c_ops r_ops rem) inversion 1 0) (mget (c_ops r_ops rem) inversion 1 1) (Qt 1 0 0 0) 1 = 0 /\
  off_pole_q r_ops rem inversion (Qt 2 0 1 0) /\ (exists q', mo_apply_q r_ops inversion (Qt 2 0 1 0) = Ok q') /\
  qd2 (Qt 2 0 0 0) (Qt 2 0 1 0) = 1 ^ 2 /\ off_pole (c_ops r_ops rem) inversion (Cx 2 1) /\
  (exists z', mo_apply_self (c_ops r_ops rem) inversion (Cx 2 1) = Ok z') /\ cd2 (Cx 2 0) (Cx 2 1) = 1 ^ 2.
Proof.
  intros rem.
  assert (P : off_pole_q r_ops rem inversion (Qt 2 0 1 0)).
  { eexists. split; [reflexivity|]. cbn. intros E. injection E. intros. lra. }
  assert (P' : off_pole (c_ops r_ops rem) inversion (Cx 2 1)).
  { eexists. split; [reflexivity|]. cbn. intros E. injection E. intros. lra. }
  split; [split; [reflexivity|]; repeat constructor|]. split.
  { unfold mo_det, inversion. rewrite (m_det_22 (c_ring_inst r_field rem)). cbn. do 2 f_equal; ring. }
  split. { intros E. injection E. lra. }
  split. { unfold clearance, cabs2, inversion. cbn. ring. }
  split. { unfold clearance, cabs2, inversion. cbn. ring. }
  split; auto. split.
  { destruct (value r_real4 P) as (_ & _ & E). eexists. exact E. }
  split. { unfold qd2. cbn. ring. }
  split; auto. split.
  { rewrite (off_pole_D (field_div (c_field_inst (F:=r_field) rem r_real2))) in P'.
    pose proof (mo_apply_v (field_div (c_field_inst (F:=r_field) rem r_real2)) (Cx 0 0) (Cx 1 0) (Cx 1 0) (Cx 0 0) (Cx 2 1) P') as E. eexists. exact E. }
  unfold cd2. cbn. ring.
Qed.

Print Assumptions C113_image.
Print Assumptions C113_on.
Print Assumptions C113_radius.
Print Assumptions C113_plane.
Print Assumptions C113_spheres.
Print Assumptions C113_circles.
