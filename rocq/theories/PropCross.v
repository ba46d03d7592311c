(** Property C86: cross-ratios, and a transformation is determined by three points.  For any field; the
    complex numbers over a field in which -1 is not a square are an instance. *)
From Coq Require Import ZArith QArith Qcanon Ring Field.
From Verif Require Import SpecFacts MFacts MoFacts Instances PropSquare PropComplex PropMoebius.
Set Implicit Arguments.
Local Open Scope nat_scope.
Local Open Scope list_scope.

(** [(w - x)(y - z)] with the operations of the type. *)
Definition diff_prod {T : Type} (o : Ops T) (w x y z : T) : res T :=
  let! p := o_sub o w x in let! q := o_sub o y z in o_mul o p q.

Section C86.
  Context {T : Type} {o : Ops T} (F : Field o).
  Add Field F86 : (Field_theory F).
  Local Notation "0" := (o_zero o).
  Local Notation "1" := (o_one o).
  Local Notation "x + y" := (r_add F x y).
  Local Notation "x - y" := (r_sub F x y).
  Local Notation "x * y" := (r_mul F x y).
  Local Notation "/ x" := (f_inv F x).

  Lemma mo_val : forall a b c d x, off_pole o [[a; b]; [c; d]] x ->
    c * x + d <> 0 /\ mo_apply_self o [[a; b]; [c; d]] x = Ok ((a * x + b) * / (c * x + d)).
  Proof.
    intros a b c d x H. rewrite (off_pole_D (field_div F)) in H. change (c * x + d <> 0) in H. split; auto.
    apply (mo_apply_v (field_div F)). exact H.
  Qed.
  Lemma diff_prod_v : forall w x y z, diff_prod o w x y z = Ok ((w - x) * (y - z)).
  Proof. intros. unfold diff_prod. rewrite !(r_sub_ok F). cbn [bind]. apply (r_mul_ok F). Qed.
  Lemma mul_cancel : forall p x, p <> 0 -> p * x = 0 -> x = 0.
  Proof.
    intros p x Hp E. transitivity (/ p * p * x). { rewrite (f_inv_l F) by auto. ring. }
    transitivity (/ p * (p * x)); [ring|]. rewrite E. ring.
  Qed.

  (** [(m(x) - m(y)) (c x + d) (c y + d) = det m (x - y)]. *)
  Theorem C86_difference : forall a b c d x y x' y', let m := [[a; b]; [c; d]] in off_pole o m x -> off_pole o m y ->
    mo_apply_self o m x = Ok x' -> mo_apply_self o m y = Ok y' ->
    (let! e := o_sub o x' y' in let! cx := o_mul o c x in let! u := o_add o cx d in let! cy := o_mul o c y in let! v := o_add o cy d in
     let! s := o_mul o e u in o_mul o s v) =!
    (let! D := mo_det o m in let! e := o_sub o x y in o_mul o D e).
  Proof.
    intros a b c d x y x' y' m Hx Hy Ex Ey. subst m. destruct (mo_val Hx) as (Nx & Vx). destruct (mo_val Hy) as (Ny & Vy).
    rewrite Vx in Ex. rewrite Vy in Ey. apply Ok_inj in Ex, Ey. subst x' y'.
    unfold mo_det. rewrite (m_det_22 F). cbn [bind]. repeat (rewrite ?(r_sub_ok F), ?(r_mul_ok F), ?(r_add_ok F); cbn [bind]).
    eexists. split; [|reflexivity]. f_equal. field. auto.
  Qed.

  (** The cross-ratio [(x - z)(y - w) : (y - z)(x - w)] of four points is the cross-ratio of their images. *)
  Theorem C86_cross_ratio : forall m x y z w x' y' z' w', rect 2 2 m ->
    off_pole o m x -> off_pole o m y -> off_pole o m z -> off_pole o m w ->
    mo_apply_self o m x = Ok x' -> mo_apply_self o m y = Ok y' -> mo_apply_self o m z = Ok z' -> mo_apply_self o m w = Ok w' ->
    (let! p := diff_prod o x' z' y' w' in let! q := diff_prod o y z x w in o_mul o p q) =!
    (let! p := diff_prod o y' z' x' w' in let! q := diff_prod o x z y w in o_mul o p q).
  Proof.
    intros m x y z w x' y' z' w' Rm Hx Hy Hz Hw Ex Ey Ez Ew. destruct (rect22 Rm) as (a & b & c & d & ->).
    destruct (mo_val Hx) as (Nx & Vx). destruct (mo_val Hy) as (Ny & Vy). destruct (mo_val Hz) as (Nz & Vz). destruct (mo_val Hw) as (Nw & Vw).
    rewrite Vx in Ex. rewrite Vy in Ey. rewrite Vz in Ez. rewrite Vw in Ew. apply Ok_inj in Ex, Ey, Ez, Ew. subst x' y' z' w'.
    rewrite !diff_prod_v. cbn [bind]. rewrite !(r_mul_ok F). eexists. split; [|reflexivity]. f_equal. field. auto.
  Qed.

  (** With non-zero determinant, distinct points have distinct images. *)
  Theorem C86_injective : forall m x y x' D, rect 2 2 m -> mo_det o m = Ok D -> D <> 0 -> off_pole o m x -> off_pole o m y ->
    mo_apply_self o m x = Ok x' -> mo_apply_self o m y = Ok x' -> x = y.
  Proof.
    intros m x y x' D Rm ED HD Hx Hy Ex Ey. destruct (rect22 Rm) as (a & b & c & d & ->).
    destruct (C86_difference Hx Hy Ex Ey) as (w & E1 & E2). rewrite ED in E2.
    repeat (rewrite ?(r_sub_ok F), ?(r_mul_ok F), ?(r_add_ok F) in *; cbn [bind] in * ). apply Ok_inj in E1, E2. rewrite <- E1 in E2. clear E1.
    assert (Z : D * (x - y) = 0). { rewrite E2. ring. }
    apply mul_cancel in Z; auto. transitivity (x - y + y); [ring|]. rewrite Z. ring.
  Qed.

  (** Two transformations that agree at three distinct points agree wherever both are defined. *)
  Theorem C86_three_points : forall A B x y z x' y' z', rect 2 2 A -> rect 2 2 B -> x <> y -> y <> z -> x <> z ->
    off_pole o A x -> off_pole o A y -> off_pole o A z -> off_pole o B x -> off_pole o B y -> off_pole o B z ->
    mo_apply_self o A x = Ok x' -> mo_apply_self o B x = Ok x' -> mo_apply_self o A y = Ok y' -> mo_apply_self o B y = Ok y' ->
    mo_apply_self o A z = Ok z' -> mo_apply_self o B z = Ok z' ->
    forall p, off_pole o A p -> off_pole o B p -> mo_apply_self o A p =! mo_apply_self o B p.
  Proof.
    intros A B x y z x' y' z' RA RB Nxy Nyz Nxz Ax Ay Az Bx By Bz EAx EBx EAy EBy EAz EBz p Ap Bp.
    destruct (rect22 RA) as (a & b & c & d & ->). destruct (rect22 RB) as (a' & b' & c' & d' & ->).
    assert (cross : forall t s, off_pole o [[a; b]; [c; d]] t -> off_pole o [[a'; b']; [c'; d']] t ->
      mo_apply_self o [[a; b]; [c; d]] t = Ok s -> mo_apply_self o [[a'; b']; [c'; d']] t = Ok s ->
      (a * c' - a' * c) * (t * t) + (a * d' + b * c' - a' * d - b' * c) * t + (b * d' - b' * d) = 0).
    { intros t s H1 H2 E1 E2. destruct (mo_val H1) as (N1 & V1). destruct (mo_val H2) as (N2 & V2).
      rewrite V1 in E1. rewrite V2 in E2. apply Ok_inj in E1, E2.
      assert (E : (a * t + b) * (c' * t + d') = (a' * t + b') * (c * t + d)).
      { transitivity ((a * t + b) * / (c * t + d) * ((c * t + d) * (c' * t + d'))); [field; auto|]. rewrite E1, <- E2. field; auto. }
      transitivity ((a * t + b) * (c' * t + d') - (a' * t + b') * (c * t + d)); [ring|]. rewrite E. ring. }
    set (al := a * c' - a' * c) in *. set (be := a * d' + b * c' - a' * d - b' * c) in *. set (ga := b * d' - b' * d) in *.
    assert (sub_nz : forall s t, s <> t -> s - t <> 0).
    { intros s t H E. apply H. transitivity (s - t + t); [ring|]. rewrite E. ring. }
    pose proof (cross x x' Ax Bx EAx EBx) as Cx. pose proof (cross y y' Ay By EAy EBy) as Cy. pose proof (cross z z' Az Bz EAz EBz) as Cz.
    clear cross EAx EBx EAy EBy EAz EBz.
    assert (P1 : al * (x + y) + be = 0).
    { apply (@mul_cancel _ _ (sub_nz _ _ Nxy)). transitivity (al * (x * x) + be * x + ga - (al * (y * y) + be * y + ga)); [ring|]. rewrite Cx, Cy. ring. }
    assert (P2 : al * (y + z) + be = 0).
    { apply (@mul_cancel _ _ (sub_nz _ _ Nyz)). transitivity (al * (y * y) + be * y + ga - (al * (z * z) + be * z + ga)); [ring|]. rewrite Cy, Cz. ring. }
    assert (Eal : al = 0).
    { apply (@mul_cancel _ _ (sub_nz _ _ Nxz)). transitivity (al * (x + y) + be - (al * (y + z) + be)); [ring|]. rewrite P1, P2. ring. }
    assert (Ebe : be = 0) by (etransitivity; [|exact P1]; rewrite Eal; ring).
    assert (Ega : ga = 0) by (etransitivity; [|exact Cx]; rewrite Eal, Ebe; ring).
    destruct (mo_val Ap) as (N1 & V1). destruct (mo_val Bp) as (N2 & V2). rewrite V1, V2. eexists. split; [reflexivity|]. f_equal.
    assert (E : (a * p + b) * (c' * p + d') = (a' * p + b') * (c * p + d)).
    { transitivity (al * (p * p) + be * p + ga + (a' * p + b') * (c * p + d)); [unfold al, be, ga; ring|]. rewrite Eal, Ebe, Ega. ring. }
    transitivity ((a * p + b) * (c' * p + d') * / ((c * p + d) * (c' * p + d'))); [|field; auto]. rewrite E. field; auto.
  Qed.
End C86.

(** Complex numbers over a formally real field. *)
Theorem C86_complex : forall T (o : Ops T) (F : Field o) rem, real2 F -> forall m x y z w x' y' z' w', let co := c_ops o rem in rect 2 2 m ->
  off_pole co m x -> off_pole co m y -> off_pole co m z -> off_pole co m w ->
  mo_apply_self co m x = Ok x' -> mo_apply_self co m y = Ok y' -> mo_apply_self co m z = Ok z' -> mo_apply_self co m w = Ok w' ->
  (let! p := diff_prod co x' z' y' w' in let! q := diff_prod co y z x w in o_mul co p q) =!
  (let! p := diff_prod co y' z' x' w' in let! q := diff_prod co x z y w in o_mul co p q).
Proof. intros T o F rem H2 m. intros. apply (C86_cross_ratio (c_field_inst (F:=F) rem H2) (m := m)); auto. Qed.

Example C86_ex : let o := qc_ops in let m := [[qcz 2; qcz 1]; [qcz 1; qcz 3]] in
  rmap (@this) (mo_apply_self o m (qcz 0)) = Ok (1 # 3)%Q /\ rmap (@this) (mo_apply_self o m (qcz 1)) = Ok (3 # 4)%Q /\
  rmap (@this) (mo_apply_self o m (qcz 2)) = Ok (1 # 1)%Q /\ rmap (@this) (mo_apply_self o m (qcz (-1))) = Ok (- (1 # 2))%Q /\
  off_pole o m (qcz 0) /\ off_pole o m (qcz (-1)).
Proof.
  repeat split; try (vm_compute; reflexivity).
  all: eexists; split; [reflexivity|]; intros E; apply (f_equal this) in E; vm_compute in E; discriminate.
Qed.

Print Assumptions C86_difference.
Print Assumptions C86_cross_ratio.
Print Assumptions C86_injective.
Print Assumptions C86_three_points.
Print Assumptions C86_complex.
