(** Properties C48-C51 and C54: Moebius transformations as an algebra of maps.  (C52 and C53, the
    derivatives, are in [PropMoebiusR.v].) *)
From Coq Require Import ZArith QArith Qcanon Ring Field.
From Verif Require Import SpecDet SpecFacts MFacts MatProofs MoFacts SqProofs Instances PropSquare PropComplex.
Set Implicit Arguments.
Local Open Scope nat_scope.
Local Open Scope list_scope.

(** The point [x] is not a pole of [m]: the denominator [c * x + d] is not zero.  For coefficients and
    points of one type, and for complex coefficients with quaternion points. *)
Definition off_pole {T : Type} (o : Ops T) (m : list (list T)) (x : T) : Prop :=
  exists w, (let! cx := o_mul o (mget o m 1 0) x in o_add o cx (mget o m 1 1)) = Ok w /\ w <> o_zero o.
Definition off_pole_q {T : Type} (o : Ops T) (rem : complex T -> complex T -> res (complex T))
  (m : list (list (complex T))) (x : quat T) : Prop :=
  exists w, (let! cx := c_mul_q o (mget (c_ops o rem) m 1 0) x in q_add_c o cx (mget (c_ops o rem) m 1 1)) = Ok w /\
    w <> Qt (o_zero o) (o_zero o) (o_zero o) (o_zero o).

Lemma off_pole_D : forall T (o : Ops T) (D : DivRing o) m x,
  off_pole o m x <-> r_add D (r_mul D (mget o m 1 0) x) (mget o m 1 1) <> o_zero o.
Proof.
  intros. unfold off_pole. rewrite (r_mul_ok D). cbn [bind]. rewrite (r_add_ok D). split.
  - intros (w & E & H). injection E as <-. auto.
  - eauto.
Qed.

(* ------------------------------------------------------------------------- *)
(** * C48: composition, for any division ring                                  *)

Section C48.
  Context {T : Type} {o : Ops T} (D : DivRing o).

  (** The value [y] of the transformation satisfies [y * (c x + d) = a x + b]. *)
  Theorem C48_value : forall a b c d x, off_pole o [[a; b]; [c; d]] x ->
    exists y, mo_apply_self o [[a; b]; [c; d]] x = Ok y /\
      (let! cx := o_mul o c x in let! w := o_add o cx d in o_mul o y w) =!
      (let! ax := o_mul o a x in o_add o ax b).
  Proof.
    intros a b c d x H. rewrite (off_pole_D D) in H. change (r_add D (r_mul D c x) d <> o_zero o) in H.
    rewrite (mo_apply_v D) by auto. eexists. split; [reflexivity|].
    rewrite !(r_mul_ok D). cbn [bind]. rewrite !(r_add_ok D). cbn [bind]. rewrite (r_mul_ok D).
    eexists. split; [|reflexivity]. f_equal. rewrite <- (r_mul_assoc D), (d_inv_l D) by auto. apply (r_mul_1_r D).
  Qed.
  Theorem C48_compose : forall A B x y, rect 2 2 A -> rect 2 2 B ->
    off_pole o B x -> mo_apply_self o B x = Ok y -> off_pole o A y ->
    (let! m := mo_chain o A B in mo_apply_self o m x) =! mo_apply_self o A y.
  Proof.
    intros A B x y RA RB HB Hy HA. destruct (rect22 RA) as (a & b & c & d & ->). destruct (rect22 RB) as (a' & b' & c' & d' & ->).
    rewrite (off_pole_D D) in *. change (r_add D (r_mul D c' x) d' <> o_zero o) in HB.
    change (r_add D (r_mul D c y) d <> o_zero o) in HA.
    pose proof (@mo_apply_v _ _ D a' b' c' d' x HB) as E. rewrite E in Hy. apply Ok_inj in Hy. subst y.
    pose proof (mo_compose D a b c d a' b' c' d' x HB HA) as P. rewrite E in P. cbn [bind] in P. exact P.
  Qed.
  Theorem C48_identity : forall x, (let! m := mo_identity o in mo_apply_self o m x) = Ok x.
  Proof. intros. rewrite mo_identity_v. cbn [bind]. apply (mo_apply_identity D). Qed.
  (** Composition is associative, and the identity is neutral, as matrices. *)
  Theorem C48_monoid : forall A B C, rect 2 2 A -> rect 2 2 B -> rect 2 2 C ->
    (let! ab := mo_chain o A B in mo_chain o ab C) =! (let! bc := mo_chain o B C in mo_chain o A bc) /\
    (let! i := mo_identity o in mo_chain o i A) = Ok A /\ (let! i := mo_identity o in mo_chain o A i) = Ok A.
  Proof.
    intros A B C HA HB HC. unfold mo_chain, mo_identity. repeat split.
    - apply (PropAlgebra.C26_assoc D HA HB HC); lia.
    - apply (PropAlgebra.C26_one_left D HA); lia.
    - apply (PropAlgebra.C26_one_right D HA); lia.
  Qed.
End C48.

(** The instance the crate documents: complex coefficients and points. *)
Theorem C48_complex : forall T (o : Ops T) (F : Field o) rem, real2 F -> forall A B x y,
  rect 2 2 A -> rect 2 2 B ->
  off_pole (c_ops o rem) B x -> mo_apply_self (c_ops o rem) B x = Ok y -> off_pole (c_ops o rem) A y ->
  (let! m := mo_chain (c_ops o rem) A B in mo_apply_self (c_ops o rem) m x) =! mo_apply_self (c_ops o rem) A y.
Proof. intros. apply (C48_compose (field_div (c_field_inst (F:=F) rem H))); auto. Qed.
(** Quaternion coefficients and points: composition holds there too. *)
Theorem C48_quaternion : forall T (o : Ops T) (F : Field o), real4 F -> forall A B x y,
  rect 2 2 A -> rect 2 2 B ->
  off_pole (q_ops o) B x -> mo_apply_self (q_ops o) B x = Ok y -> off_pole (q_ops o) A y ->
  (let! m := mo_chain (q_ops o) A B in mo_apply_self (q_ops o) m x) =! mo_apply_self (q_ops o) A y.
Proof. intros. apply (C48_compose (q_div_inst H)); auto. Qed.

Definition norem {A : Type} (a b : A) : res A := Panic.
Definition cz (a b : Z) : complex Qc := Cx (qcz a) (qcz b).
Definition qz4 (a b c d : Z) : quat Qc := Qt (qcz a) (qcz b) (qcz c) (qcz d).
(** The parts of rational complex numbers and quaternions, for computed examples. *)
Definition cval (z : complex Qc) : Q * Q := (this (re z), this (im z)).
Definition qval (q : quat Qc) : Q * Q * Q * Q := (this (qw q), this (qx q), this (qy q), this (qz q)).

Example C48_ex : let o := c_ops qc_ops norem in
  let A := [[cz 1 2; cz 0 1]; [cz 1 0; cz 3 0]] in let B := [[cz 0 1; cz 2 0]; [cz 1 1; cz (-1) 0]] in
  rect 2 2 A /\ rect 2 2 B /\
  rmap cval (let! m := mo_chain o A B in mo_apply_self o m (cz 2 1)) = Ok ((19 # 61, 35 # 61)%Q) /\
  rmap cval (let! y := mo_apply_self o B (cz 2 1) in mo_apply_self o A y) = Ok ((19 # 61, 35 # 61)%Q).
Proof. repeat split; vm_compute; repeat constructor. Qed.

(* ------------------------------------------------------------------------- *)
(** * C49: complex coefficients acting on quaternions                          *)

Section C49.
  Context {T : Type} {o : Ops T} (F : Field o) (rem : complex T -> complex T -> res (complex T)) (H4 : real4 F).
  Local Notation co := (c_ops o rem).

  Lemma off_pole_q_iff : forall a b c d x,
    off_pole_q o rem [[a; b]; [c; d]] x <-> off_pole (q_ops o) [[cq o a; cq o b]; [cq o c; cq o d]] x.
  Proof.
    intros. rewrite (off_pole_D (q_div_inst H4)). unfold off_pole_q.
    change (mget co [[a; b]; [c; d]] 1 0) with c. change (mget co [[a; b]; [c; d]] 1 1) with d.
    rewrite (cq_mul_q F). cbn [bind]. rewrite (cq_add_q F). split.
    - intros (w & E & Hw). apply Ok_inj in E. subst w. exact Hw.
    - intros Hw. eexists. split; [reflexivity|]. exact Hw.
  Qed.

  (** [y * (c x + d) = a x + b] with the crate's mixed products and sums. *)
  Theorem C49_value : forall a b c d x, off_pole_q o rem [[a; b]; [c; d]] x ->
    exists y, mo_apply_q o [[a; b]; [c; d]] x = Ok y /\
      (let! cx := c_mul_q o c x in let! w := q_add_c o cx d in q_mul o y w) =!
      (let! ax := c_mul_q o a x in q_add_c o ax b).
  Proof.
    intros a b c d x H. rewrite off_pole_q_iff in H.
    destruct (C48_value (q_div_inst H4) H) as (y & E & V). exists y. rewrite (mo_apply_q_cq F). split; auto.
    rewrite !(cq_mul_q F). cbn [bind]. rewrite !(cq_add_q F). cbn [bind].
    cbn [o_mul o_add q_ops] in V.
    rewrite !(r_mul_ok (q_ring_inst F) : forall x y, q_mul o x y = _) in *. cbn [bind] in *.
    rewrite !(r_add_ok (q_ring_inst F) : forall x y, q_add o x y = _) in V. cbn [bind] in V.
    rewrite !(r_mul_ok (q_ring_inst F) : forall x y, q_mul o x y = _) in V. exact V.
  Qed.

  Theorem C49_compose : forall A B x y, rect 2 2 A -> rect 2 2 B ->
    off_pole_q o rem B x -> mo_apply_q o B x = Ok y -> off_pole_q o rem A y ->
    (let! m := mo_chain co A B in mo_apply_q o m x) =! mo_apply_q o A y.
  Proof.
    intros A B x y RA RB HB Hy HA. destruct (rect22 RA) as (a & b & c & d & ->). destruct (rect22 RB) as (a' & b' & c' & d' & ->).
    rewrite off_pole_q_iff in HA, HB. rewrite (mo_apply_q_cq F) in Hy. rewrite (mo_apply_q_cq F).
    assert (R2 : forall p q r s : quat T, rect 2 2 [[p; q]; [r; s]]) by (intros; split; [reflexivity|repeat constructor]).
    pose proof (@C48_compose _ _ (q_div_inst H4) _ _ x y (R2 _ _ _ _) (R2 _ _ _ _) HB Hy HA) as P.
    assert (E : exists m, mo_chain co [[a; b]; [c; d]] [[a'; b']; [c'; d']] = Ok m /\ rect 2 2 m).
    { unfold mo_chain. rewrite (m_dot_22 (c_ring_inst F rem)). eexists. split; [reflexivity|]. split; [reflexivity|repeat constructor]. }
    destruct E as (m & E & Rm). rewrite (@mo_chain_cq _ _ F rem _ _ _ _ _ _ _ _ m E) in P. rewrite E. cbn [bind] in *.
    destruct (rect22 Rm) as (a1 & b1 & c1 & d1 & ->). rewrite (mo_apply_q_cq F). exact P.
  Qed.
  Theorem C49_identity : forall x, (let! m := mo_identity co in mo_apply_q o m x) = Ok x.
  Proof.
    intros. rewrite mo_identity_v. cbn [bind]. rewrite (mo_apply_q_cq F). apply (mo_apply_identity (q_div_inst H4)).
  Qed.
  (** On quaternions that are complex numbers the action is the one of C48. *)
  Theorem C49_extends_complex : forall (H2 : real2 F) m z w, rect 2 2 m -> off_pole co m z ->
    mo_apply_self co m z = Ok w -> mo_apply_q o m (cq o z) = Ok (cq o w).
  Proof.
    intros H2 m z w Rm Hz Hw. destruct (rect22 Rm) as (a & b & c & d & ->).
    pose proof Hz as Hz'. rewrite (off_pole_D (field_div (c_field_inst (F:=F) rem H2))) in Hz'.
    change (r_add (c_ring_inst F rem) (r_mul (c_ring_inst F rem) c z) d <> o_zero co) in Hz'.
    destruct (C48_value (field_div (c_field_inst (F:=F) rem H2)) Hz) as (w' & E & V). rewrite E in Hw. apply Ok_inj in Hw. subst w'.
    rewrite !(r_mul_ok (c_ring_inst F rem)) in V. cbn [bind] in V. rewrite !(r_add_ok (c_ring_inst F rem)) in V. cbn [bind] in V.
    rewrite !(r_mul_ok (c_ring_inst F rem)) in V. destruct V as (v & V1 & V2). apply Ok_inj in V1, V2. subst v.
    apply (f_equal (cq o)) in V2. rewrite (cq_mul F), !(cq_add F), !(cq_mul F) in V2.
    rewrite (mo_apply_q_cq F).
    assert (NZ : r_add (q_ring_inst F) (r_mul (q_ring_inst F) (cq o c) (cq o z)) (cq o d) <> o_zero (q_ops o)).
    { rewrite <- (cq_mul F rem), <- (cq_add F rem). intros Q. apply Hz'. unfold cq in Q.
      injection Q as Q1 Q2. rewrite (cx_eta (r_add _ _ _)). cbn. f_equal; assumption. }
    rewrite (@mo_apply_v _ _ (q_div_inst H4)) by exact NZ. f_equal. change (d_ring (q_div_inst H4)) with (q_ring_inst F).
    rewrite V2, <- (r_mul_assoc (q_ring_inst F)).
    rewrite (d_inv_r (q_div_inst H4) NZ : r_mul (q_ring_inst F) _ _ = _). apply (r_mul_1_r (q_ring_inst F)).
  Qed.
End C49.

Example C49_ex :
  let A := [[cz 1 2; cz 0 1]; [cz 1 0; cz 3 0]] in let B := [[cz 0 1; cz 2 0]; [cz 1 1; cz (-1) 0]] in
  let x := qz4 1 2 3 4 in
  rmap qval (let! m := mo_chain (c_ops qc_ops norem) A B in mo_apply_q qc_ops m x) =
  rmap qval (let! y := mo_apply_q qc_ops B x in mo_apply_q qc_ops A y) /\
  returns (mo_apply_q qc_ops B x).
Proof. split; [vm_compute; auto|eexists; reflexivity]. Qed.

(* ------------------------------------------------------------------------- *)
(** * C50: inverse                                                             *)

Section C50.
  Context {T : Type} {o : Ops T} (F : Field o).

  Theorem C50_inverse : forall m d x, rect 2 2 m -> mo_det o m = Ok d -> d <> o_zero o ->
    (mo_inv o m = m_inv o 2 m) /\
    (let! i := mo_inv o m in mo_chain o m i) =! mo_identity o /\
    (let! i := mo_inv o m in mo_chain o i m) =! mo_identity o /\
    (off_pole o m x -> (let! y := mo_apply_self o m x in let! i := mo_inv o m in mo_apply_self o i y) = Ok x) /\
    (forall i, mo_inv o m = Ok i -> off_pole o i x ->
       (let! y := mo_apply_self o i x in mo_apply_self o m y) = Ok x).
  Proof.
    intros m d x Rm Hd Hz. destruct (C33_inverse F Rm Hd Hz) as (i & E & Ri & P1 & P2).
    unfold mo_inv, mo_chain, mo_identity. rewrite E. cbn [bind]. repeat split; auto.
    - intros Hx. rewrite (off_pole_D (field_div F)) in Hx.
      apply (@mo_left_inverse _ _ (field_div F) m i x); auto.
    - intros i' E' Hx. injection E' as <-. rewrite (off_pole_D (field_div F)) in Hx.
      apply (@mo_left_inverse _ _ (field_div F) i m x); auto.
  Qed.
End C50.

Theorem C50_complex : forall T (o : Ops T) (F : Field o) rem, real2 F -> forall m d x, let co := c_ops o rem in
  rect 2 2 m -> mo_det co m = Ok d -> d <> o_zero co ->
  (let! i := mo_inv co m in mo_chain co m i) =! mo_identity co /\
  (let! i := mo_inv co m in mo_chain co i m) =! mo_identity co /\
  (off_pole co m x -> (let! y := mo_apply_self co m x in let! i := mo_inv co m in mo_apply_self co i y) = Ok x) /\
  (forall i, mo_inv co m = Ok i -> off_pole co i x ->
     (let! y := mo_apply_self co i x in mo_apply_self co m y) = Ok x).
Proof. intros T o F rem H m d x co Rm Hd Hz. apply (@C50_inverse _ _ (c_field_inst (F:=F) rem H) m d x Rm Hd Hz). Qed.

Theorem C50_quaternion_points : forall T (o : Ops T) (F : Field o) rem, real2 F -> real4 F -> forall m d x,
  let co := c_ops o rem in
  rect 2 2 m -> mo_det co m = Ok d -> d <> o_zero co ->
  (off_pole_q o rem m x -> (let! y := mo_apply_q o m x in let! i := mo_inv co m in mo_apply_q o i y) = Ok x) /\
  (forall i, mo_inv co m = Ok i -> off_pole_q o rem i x ->
     (let! y := mo_apply_q o i x in mo_apply_q o m y) = Ok x).
Proof.
  intros T o F rem H2 H4 m d x co Rm Hd Hz. subst co.
  destruct (C33_inverse (c_field_inst (F:=F) rem H2) Rm Hd Hz) as (i & E & Ri & P1 & P2).
  destruct (rect22 Rm) as (a & b & c & e & ->). destruct (rect22 Ri) as (a' & b' & c' & e' & ->).
  assert (R2 : forall p q r s : quat T, rect 2 2 [[p; q]; [r; s]]) by (intros; split; [reflexivity|repeat constructor]).
  assert (G : forall p q r s p' q' r' s', m_dot (c_ops o rem) 2 2 2 [[p; q]; [r; s]] [[p'; q']; [r'; s']] =! m_one (c_ops o rem) 2 ->
    m_dot (q_ops o) 2 2 2 [[cq o p; cq o q]; [cq o r; cq o s]] [[cq o p'; cq o q']; [cq o r'; cq o s']] =! m_one (q_ops o) 2).
  { intros. destruct H as (w & W1 & W2). exists (map (map (cq o)) w). split.
    - apply (@mo_chain_cq _ _ F rem). exact W1.
    - rewrite m_one_mk in *. injection W2 as <-. reflexivity. }
  split.
  - intros Hx. rewrite (off_pole_q_iff rem H4), (off_pole_D (q_div_inst H4)) in Hx.
    unfold mo_inv. rewrite E. cbn [bind]. rewrite (mo_apply_q_cq F).
    rewrite <- (@mo_left_inverse _ _ (q_div_inst H4) _ _ x (R2 _ _ _ _) (R2 _ _ _ _) (G _ _ _ _ _ _ _ _ P2) Hx).
    destruct (mo_apply_self (q_ops o) _ x); auto. cbn [bind]. apply (mo_apply_q_cq F).
  - intros i' E' Hx. unfold mo_inv in E'. rewrite E in E'. apply Ok_inj in E'. subst i'.
    rewrite (off_pole_q_iff rem H4), (off_pole_D (q_div_inst H4)) in Hx.
    rewrite (mo_apply_q_cq F).
    rewrite <- (@mo_left_inverse _ _ (q_div_inst H4) _ _ x (R2 _ _ _ _) (R2 _ _ _ _) (G _ _ _ _ _ _ _ _ P1) Hx).
    destruct (mo_apply_self (q_ops o) _ x); auto. cbn [bind]. apply (mo_apply_q_cq F).
Qed.

Example C50_ex :
  let m := [[cz 1 2; cz 0 1]; [cz 1 0; cz 3 0]] in let x := qz4 1 2 3 4 in
  rmap cval (mo_det (c_ops qc_ops norem) m) = Ok (3 # 1, 5 # 1)%Q /\
  rmap qval (let! y := mo_apply_q qc_ops m x in let! i := mo_inv (c_ops qc_ops norem) m in mo_apply_q qc_ops i y) =
  Ok (1 # 1, 2 # 1, 3 # 1, 4 # 1)%Q.
Proof. vm_compute. auto. Qed.

(* ------------------------------------------------------------------------- *)
(** * C51: normalize                                                           *)

Section C51.
  Context {T : Type} {o : Ops T} (F : Field o).
  Add Field F51 : (Field_theory F).

  Lemma mo_normalize_v : forall a b c d e, mo_det o [[a; b]; [c; d]] = Ok e -> e <> o_zero o ->
    mo_normalize o [[a; b]; [c; d]] =
    Ok [[r_mul F a (f_inv F e); r_mul F b (f_inv F e)]; [r_mul F c (f_inv F e); r_mul F d (f_inv F e)]].
  Proof.
    intros a b c d e He Hz. unfold mo_normalize. rewrite He. cbn [bind].
    change [[a; b]; [c; d]] with (mk 2 2 (fun i j => mget o [[a; b]; [c; d]] i j)).
    rewrite (m_sdiv_mk F) by auto. reflexivity.
  Qed.

  (** The transformation is unchanged: same values off the pole, and the same pole. *)
  Theorem C51_same_transformation : forall m d x, rect 2 2 m -> mo_det o m = Ok d -> d <> o_zero o ->
    exists n, mo_normalize o m = Ok n /\ rect 2 2 n /\ (off_pole o n x <-> off_pole o m x) /\
      (off_pole o m x -> mo_apply_self o n x =! mo_apply_self o m x).
  Proof.
    intros m e x Rm He Hz. destruct (rect22 Rm) as (a & b & c & d & ->). rewrite (mo_normalize_v _ _ _ _ He Hz).
    eexists. split; [reflexivity|]. split; [split; [reflexivity|repeat constructor]|].
    assert (NZ : f_inv F e <> o_zero o) by apply (@d_inv_nz _ _ (field_div F) e Hz).
    rewrite !(off_pole_D (field_div F)).
    change (r_add (field_div F) (r_mul (field_div F) (mget o [[a; b]; [c; d]] 1 0) x) (mget o [[a; b]; [c; d]] 1 1))
      with (r_add F (r_mul F c x) d).
    change (r_add (field_div F) (r_mul (field_div F) (mget o [[r_mul F a (f_inv F e); r_mul F b (f_inv F e)];
        [r_mul F c (f_inv F e); r_mul F d (f_inv F e)]] 1 0) x) (mget o [[r_mul F a (f_inv F e); r_mul F b (f_inv F e)];
        [r_mul F c (f_inv F e); r_mul F d (f_inv F e)]] 1 1))
      with (r_add F (r_mul F (r_mul F c (f_inv F e)) x) (r_mul F d (f_inv F e))).
    assert (E : r_add F (r_mul F (r_mul F c (f_inv F e)) x) (r_mul F d (f_inv F e)) =
                r_mul F (r_add F (r_mul F c x) d) (f_inv F e)) by ring.
    assert (I : r_add F (r_mul F (r_mul F c (f_inv F e)) x) (r_mul F d (f_inv F e)) <> o_zero o <->
                r_add F (r_mul F c x) d <> o_zero o).
    { rewrite E. split; intros H Q; apply H.
      - rewrite Q. ring.
      - exfalso. exact (@d_mul_nz _ _ (field_div F) _ _ H NZ Q). }
    split; [exact I|]. intros H.
    rewrite (@mo_apply_v _ _ (field_div F) a b c d x) by exact H.
    rewrite (@mo_apply_v _ _ (field_div F)) by (apply I; exact H).
    eexists. split; [|reflexivity]. f_equal.
    change (d_ring (field_div F)) with (c_ring (f_ring F)). change (d_inv (field_div F)) with (f_inv F).
    field. repeat split; auto.
  Qed.
  (** The determinant of the result is the inverse of the original determinant. *)
  Theorem C51_det : forall m d, rect 2 2 m -> mo_det o m = Ok d -> d <> o_zero o ->
    (let! n := mo_normalize o m in mo_det o n) =! o_div o (o_one o) d.
  Proof.
    intros m e Rm He Hz. destruct (rect22 Rm) as (a & b & c & d & ->). rewrite (mo_normalize_v _ _ _ _ He Hz). cbn [bind].
    unfold mo_det in *. rewrite (m_det_22 F) in *. injection He as <-. rewrite (f_div_ok F) by auto.
    eexists. split; [reflexivity|]. f_equal. field. auto.
  Qed.
End C51.

(** So the expectation that a normalized transformation has determinant one is false. *)
Theorem C51_unit_det_refuted : ~ (forall m d, rect 2 2 m -> mo_det qc_ops m = Ok d -> d <> qcz 0 ->
  (let! n := mo_normalize qc_ops m in mo_det qc_ops n) = Ok (qcz 1)).
Proof.
  intros H. specialize (H [[qcz 2; qcz 0]; [qcz 0; qcz 1]] (qcz 2)).
  assert (R : rect 2 2 [[qcz 2; qcz 0]; [qcz 0; qcz 1]]) by (split; [reflexivity|repeat constructor]).
  specialize (H R). 
  assert (D : mo_det qc_ops [[qcz 2; qcz 0]; [qcz 0; qcz 1]] = Ok (qcz 2)).
  { unfold mo_det. rewrite (m_det_22 qc_ring). f_equal; apply Qc_is_canon; vm_compute; auto. }
  specialize (H D).
  assert (N : qcz 2 <> qcz 0) by (intros Q; apply (f_equal this) in Q; discriminate Q).
  specialize (H N). apply (f_equal (rmap this)) in H. vm_compute in H. discriminate H.
Qed.

(** Acting on quaternions, dividing all coefficients by a non-real determinant does change the
    transformation: [i 0; 0 1] sends j to k, its normalization sends j to -k. *)
Theorem C51_quaternion_points_refuted :
  let m := [[cz 0 1; cz 0 0]; [cz 0 0; cz 1 0]] in
  rmap cval (mo_det (c_ops qc_ops norem) m) = Ok (0 # 1, 1 # 1)%Q /\
  rmap qval (mo_apply_q qc_ops m (qz4 0 0 1 0)) = Ok (0 # 1, 0 # 1, 0 # 1, 1 # 1)%Q /\
  rmap qval (let! n := mo_normalize (c_ops qc_ops norem) m in mo_apply_q qc_ops n (qz4 0 0 1 0)) =
    Ok (0 # 1, 0 # 1, 0 # 1, -1 # 1)%Q.
Proof. vm_compute. auto. Qed.

(* ------------------------------------------------------------------------- *)
(** * C52, algebraic part: the value of deriv                                  *)

Section MoebNum.
  Context {T : Type} {o : Ops T} (R : CRing o).
  Add Ring RingMN : (CRing_theory R).
Lemma moeb_num : forall a b c d p,
  r_sub R (r_mul R a (r_add R (r_mul R c p) d)) (r_mul R (r_add R (r_mul R a p) b) c) =
  r_sub R (r_mul R a d) (r_mul R b c).
Proof. intros. ring. Qed.
End MoebNum.

(** [deriv(p)] is [det / (c p + d)^2]; the limit of difference quotients is in [PropMoebiusR.v]. *)
Theorem C52_det_over_square : forall T (o : Ops T) (F : Field o) rem, real2 F -> forall m p w, let co := c_ops o rem in
  rect 2 2 m -> off_pole co m p ->
  (let! cp := c_mul o (mget co m 1 0) p in c_add o cp (mget co m 1 1)) = Ok w ->
  mo_deriv o m p =! (let! d := mo_det co m in let! w2 := c_mul o w w in c_div o d w2).
Proof.
  intros T o F rem H m p w co Rm Hp Hw. subst co. destruct (rect22 Rm) as (a & b & c & d & ->).
  set (CF := c_field_inst (F:=F) rem H). set (CR := f_ring CF : CRing (c_ops o rem)).
  rewrite (off_pole_D (field_div CF)) in Hp. change (r_add CR (r_mul CR c p) d <> o_zero (c_ops o rem)) in Hp.
  change (mget (c_ops o rem) [[a; b]; [c; d]] 1 0) with c in Hw. change (mget (c_ops o rem) [[a; b]; [c; d]] 1 1) with d in Hw.
  assert (M : forall x y, c_mul o x y = Ok (r_mul CR x y)) by exact (r_mul_ok CR).
  assert (A : forall x y, c_add o x y = Ok (r_add CR x y)) by exact (r_add_ok CR).
  assert (S : forall x y, c_sub o x y = Ok (r_sub CR x y)) by exact (r_sub_ok CR).
  assert (NZ : r_mul CR (r_add CR (r_mul CR c p) d) (r_add CR (r_mul CR c p) d) <> o_zero (c_ops o rem))
    by exact (@d_mul_nz _ _ (field_div CF) _ _ Hp Hp).
  assert (V : forall x, c_div o x (r_mul CR (r_add CR (r_mul CR c p) d) (r_add CR (r_mul CR c p) d)) =
    Ok (r_mul CR x (f_inv CF (r_mul CR (r_add CR (r_mul CR c p) d) (r_add CR (r_mul CR c p) d)))))
    by (intros; exact (f_div_ok CF _ NZ)).
  rewrite M in Hw. cbn [bind] in Hw. rewrite A in Hw. apply Ok_inj in Hw. subst w.
  unfold mo_deriv, mo_a, mo_b, mo_c, mo_d, m_index, mo_det, v_index, index, lift2. cbn [bind nth_error fst snd].
  rewrite (m_det_22 CR), !M. cbn [bind]. rewrite !A. cbn [bind]. rewrite !M. cbn [bind]. rewrite S. cbn [bind].
  rewrite !V. eexists. split; [|reflexivity]. f_equal. f_equal.
  apply (moeb_num CR).
Qed.

Example C52_value_ex :
  rmap cval (mo_deriv qc_ops [[cz 1 2; cz 0 1]; [cz 1 0; cz 3 0]] (cz 2 1)) = Ok (61 # 338, 45 # 338)%Q.
Proof. vm_compute. auto. Qed.

(** For computed examples. *)
Lemma returns_ok : forall A (r : res A), match r with Ok _ => true | _ => false end = true -> returns r.
Proof. intros A [a| | |] H; try discriminate H. exists a. reflexivity. Qed.

(* ------------------------------------------------------------------------- *)
(** * C54: quaternion coefficients                                             *)

(** The matrix [1 i; j 0] is invertible, with inverse [0 -j; -i -k] on both sides, but [inv] returns
    another matrix, which is not an inverse. *)
Theorem C54_inverse_refuted :
  let o := q_ops qc_ops in
  let one := qz4 1 0 0 0 in let zero := qz4 0 0 0 0 in
  let m := [[one; qz4 0 1 0 0]; [qz4 0 0 1 0; zero]] in
  let n := [[zero; qz4 0 0 (-1) 0]; [qz4 0 (-1) 0 0; qz4 0 0 0 (-1)]] in
  let show r := rmap (map (map qval)) r in
  show (mo_chain o m n) = show (mo_identity o) /\ show (mo_chain o n m) = show (mo_identity o) /\
  returns (mo_inv o m) /\
  show (let! i := mo_inv o m in mo_chain o m i) <> show (mo_identity o) /\
  show (let! i := mo_inv o m in mo_chain o i m) <> show (mo_identity o).
Proof.
  cbv zeta. split; [vm_compute; auto|]. split; [vm_compute; auto|]. split.
  { apply returns_ok. vm_compute. reflexivity. }
  split; vm_compute; intros H; discriminate H.
Qed.
(** Any true inverse does undo the transformation off the pole, so only [inv]'s formula is at fault. *)
Theorem C54_true_inverse : forall T (o : Ops T) (F : Field o), real4 F -> forall m n x,
  rect 2 2 m -> rect 2 2 n -> mo_chain (q_ops o) n m =! mo_identity (q_ops o) -> off_pole (q_ops o) m x ->
  (let! y := mo_apply_self (q_ops o) m x in mo_apply_self (q_ops o) n y) = Ok x.
Proof.
  intros T o F H m n x Rm Rn E Hx. rewrite (off_pole_D (q_div_inst H)) in Hx.
  apply (@mo_left_inverse _ _ (q_div_inst H) m n x); auto.
Qed.

Print Assumptions C48_value.
Print Assumptions C48_compose.
Print Assumptions C48_identity.
Print Assumptions C48_monoid.
Print Assumptions C48_complex.
Print Assumptions C48_quaternion.
Print Assumptions C49_value.
Print Assumptions C49_compose.
Print Assumptions C49_identity.
Print Assumptions C49_extends_complex.
Print Assumptions C50_inverse.
Print Assumptions C50_complex.
Print Assumptions C50_quaternion_points.
Print Assumptions C51_same_transformation.
Print Assumptions C51_det.
Print Assumptions C51_unit_det_refuted.
Print Assumptions C51_quaternion_points_refuted.
Print Assumptions C52_det_over_square.
Print Assumptions C54_inverse_refuted.
Print Assumptions C54_true_inverse.
