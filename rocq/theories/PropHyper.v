(** Property C85: a complex Moebius transformation acts on quaternions as an isometry of hyperbolic space.
    A quaternion [w + x i + y j + z k] is read as the pair of complex numbers [(w + x i, y + z i)]; the
    upper half space consists of those with [z = 0] and [y > 0]. *)
From Coq Require Import ZArith QArith Qcanon Ring Field.
From Verif Require Import SpecDet SpecFacts MFacts MatProofs MoFacts SqProofs Instances PropSquare PropComplex PropMoebius.
Set Implicit Arguments.
Local Open Scope nat_scope.
Local Open Scope list_scope.

(** The denominator [c q + d] of the transformation at the point [q]. *)
Definition denominator {T : Type} (o : Ops T) (m : list (list (complex T))) (q : quat T) : res (quat T) :=
  let! c := mo_c m in let! d := mo_d m in let! cq := c_mul_q o c q in q_add_c o cq d.

(** The squared norm of [p - q]. *)
Definition dist_sqr {T : Type} (o : Ops T) (p q : quat T) : res T := let! e := q_sub o p q in q_norm_sqr o e.

Section C85.
  Context {T : Type} {o : Ops T} (F : Field o) (rem : complex T -> complex T -> res (complex T)) (H4 : real4 F).
  Local Notation co := (c_ops o rem).
  Add Field F85 : (Field_theory F).
  Local Notation "0" := (o_zero o).
  Local Notation "1" := (o_one o).
  Local Notation "x + y" := (r_add F x y).
  Local Notation "x - y" := (r_sub F x y).
  Local Notation "x * y" := (r_mul F x y).
  Local Notation Q := (q_ring_inst F).
  Local Notation N := (q_nrm F).

  Definition num_v (a b : complex T) (q : quat T) : quat T :=
    Qt (re a * qw q - im a * qx q + re b) (re a * qx q + im a * qw q + im b) (re a * qy q - im a * qz q) (re a * qz q + im a * qy q).
  Lemma num_v_eq : forall a b q, r_add Q (r_mul Q (cq o a) q) (cq o b) = num_v a b q.
  Proof. intros. unfold num_v, cq. cbn. f_equal; ring. Qed.

  Definition qconj_v (q : quat T) : quat T := Qt (qw q) (r_opp F (qx q)) (r_opp F (qy q)) (r_opp F (qz q)).
  Definition qdot_v (p q : quat T) : T := qw p * qw q + qx p * qx q + qy p * qy q + qz p * qz q.
  Definition qmul_v (p q : quat T) : quat T := r_mul Q p q.

  Lemma key : forall a b c d p q,
    N (num_v a b p) * N (num_v c d q) + N (num_v a b q) * N (num_v c d p) -
      (1 + 1) * qdot_v (qmul_v (num_v a b p) (qconj_v (num_v c d p))) (qmul_v (num_v a b q) (qconj_v (num_v c d q))) =
    c_nrm F (r_sub (c_ring_inst F rem) (r_mul (c_ring_inst F rem) a d) (r_mul (c_ring_inst F rem) b c)) *
      N (r_sub Q p q).
  Proof.
    intros [ar ai] [br bi] [cr ci] [dr di] [pw px py pz] [qw qx qy qz].
    unfold num_v, q_nrm, c_nrm, qdot_v, qconj_v, qmul_v. cbn. ring.
  Qed.

  Lemma value : forall a b c d q, off_pole_q o rem [[a; b]; [c; d]] q ->
    N (num_v c d q) <> 0 /\ denominator o [[a; b]; [c; d]] q = Ok (num_v c d q) /\
    mo_apply_q o [[a; b]; [c; d]] q = Ok (qmul_v (num_v a b q) (q_finv F (num_v c d q))).
  Proof.
    intros a b c d q H. pose proof H as H'. rewrite (off_pole_q_iff rem H4) in H'. rewrite (off_pole_D (q_div_inst H4)) in H'.
    change (r_add Q (r_mul Q (cq o c) q) (cq o d) <> Qt 0 0 0 0) in H'. split; [|split].
    - rewrite <- num_v_eq. apply (q_nrm_neq H4). exact H'.
    - unfold denominator. change (mo_c [[a; b]; [c; d]]) with (Ok c). change (mo_d [[a; b]; [c; d]]) with (Ok d). cbn [bind].
      rewrite (cq_mul_q F). cbn [bind]. rewrite (cq_add_q F), num_v_eq. reflexivity.
    - rewrite (mo_apply_q_cq F). rewrite (mo_apply_v (q_div_inst H4)) by exact H'.
      change (Ok (r_mul Q (r_add Q (r_mul Q (cq o a) q) (cq o b)) (q_finv F (r_add Q (r_mul Q (cq o c) q) (cq o d)))) =
        Ok (qmul_v (num_v a b q) (q_finv F (num_v c d q)))).
      rewrite !num_v_eq. reflexivity.
  Qed.

  Lemma quot_distance : forall P u p' v, N u <> 0 -> N v <> 0 ->
    N (r_sub Q (qmul_v P (q_finv F u)) (qmul_v p' (q_finv F v))) * N u * N v =
    N P * N v + N p' * N u - (1 + 1) * qdot_v (qmul_v P (qconj_v u)) (qmul_v p' (qconj_v v)).
  Proof.
    intros P u p' v Hu Hv.
    assert (E : forall p w, qmul_v p (q_finv F w) =
      let r := qmul_v p (qconj_v w) in let i := f_inv F (N w) in Qt (qw r * i) (qx r * i) (qy r * i) (qz r * i)).
    { intros [] []. unfold qmul_v, q_finv, qconj_v. cbn. f_equal; ring. }
    assert (M : forall p w, N (qmul_v p (qconj_v w)) = N p * N w).
    { intros [] []. unfold qmul_v, qconj_v, q_nrm. cbn. ring. }
    rewrite !E. cbv zeta. pose proof (M P u) as M1. pose proof (M p' v) as M2.
    set (A := qmul_v P (qconj_v u)) in *. set (B := qmul_v p' (qconj_v v)) in *.
    set (i := f_inv F (N u)). set (j := f_inv F (N v)).
    assert (Ei : i * N u = 1) by (unfold i; apply (f_inv_l F); auto). assert (Ej : j * N v = 1) by (unfold j; apply (f_inv_l F); auto).
    assert (X : N (r_sub Q (Qt (qw A * i) (qx A * i) (qy A * i) (qz A * i)) (Qt (qw B * j) (qx B * j) (qy B * j) (qz B * j))) =
      N A * i * i + N B * j * j - (1 + 1) * qdot_v A B * i * j).
    { unfold q_nrm, qdot_v. cbn. ring. }
    rewrite X, M1, M2.
    transitivity (N P * N v * (i * N u) * (i * N u) + N p' * N u * (j * N v) * (j * N v) - (1 + 1) * qdot_v A B * (i * N u) * (j * N v)); [ring|].
    rewrite Ei, Ej. ring.
  Qed.

  (** For any two points off the pole, with [D] the determinant, [u = c p + d] and [v = c q + d]:
      [|m(p) - m(q)|^2 |u|^2 |v|^2 = |D|^2 |p - q|^2]. *)
  Theorem C85_distance : forall m p q p' q', rect 2 2 m -> off_pole_q o rem m p -> off_pole_q o rem m q ->
    mo_apply_q o m p = Ok p' -> mo_apply_q o m q = Ok q' ->
    exists u v D, denominator o m p = Ok u /\ denominator o m q = Ok v /\ mo_det co m = Ok D /\
      (let! n := dist_sqr o p' q' in let! nu := q_norm_sqr o u in let! nv := q_norm_sqr o v in
       let! s := o_mul o n nu in o_mul o s nv) =!
      (let! n := dist_sqr o p q in let! nd := c_norm_sqr o D in o_mul o nd n).
  Proof.
    intros m p q p' q' Rm Hp Hq Ep Eq. destruct (rect22 Rm) as (a & b & c & d & ->).
    destruct (value Hp) as (Np & Dp & Vp). destruct (value Hq) as (Nq & Dq & Vq).
    rewrite Vp in Ep. rewrite Vq in Eq. apply Ok_inj in Ep, Eq. subst p' q'.
    exists (num_v c d p), (num_v c d q). eexists. split; [exact Dp|]. split; [exact Dq|].
    split; [unfold mo_det; apply (m_det_22 (c_ring_inst F rem))|].
    pose proof (@quot_distance (num_v a b p) (num_v c d p) (num_v a b q) (num_v c d q) Np Nq) as X. rewrite key in X.
    unfold dist_sqr. rewrite !(r_sub_ok Q : forall x y, q_sub o x y = _). cbn [bind].
    rewrite !(q_norm_sqr_v F), (c_norm_sqr_v F). cbn [bind]. rewrite !(r_mul_ok F). cbn [bind]. rewrite (r_mul_ok F).
    eexists. split; [|reflexivity]. f_equal. exact X.
  Qed.

  (** The last two components, as a complex number, are multiplied by [D / |c q + d|^2]. *)
  Theorem C85_height : forall m q q', rect 2 2 m -> off_pole_q o rem m q -> mo_apply_q o m q = Ok q' ->
    exists u D, denominator o m q = Ok u /\ mo_det co m = Ok D /\
      (let! n := q_norm_sqr o u in c_mul_s o (Cx (qy q') (qz q')) n) =! c_mul o (Cx (qy q) (qz q)) D.
  Proof.
    intros m q q' Rm Hq Eq. destruct (rect22 Rm) as (a & b & c & d & ->).
    destruct (value Hq) as (Nq & Dq & Vq). rewrite Vq in Eq. apply Ok_inj in Eq. subst q'.
    exists (num_v c d q). eexists. split; [exact Dq|]. split; [unfold mo_det; apply (m_det_22 (c_ring_inst F rem))|].
    rewrite (q_norm_sqr_v F). cbn [bind]. rewrite (c_mul_s_v F), (c_mul_v F). eexists. split; [|reflexivity]. f_equal.
    assert (G : forall p w, N w <> 0 -> qy (qmul_v p (q_finv F w)) * N w = qy (qmul_v p (qconj_v w)) /\
                                         qz (qmul_v p (q_finv F w)) * N w = qz (qmul_v p (qconj_v w))).
    { intros p w Hw. assert (I : f_inv F (N w) * N w = 1) by (apply (f_inv_l F); auto). unfold qmul_v, q_finv, qconj_v. cbn [qw qx qy qz].
      set (i := f_inv F (N w)) in *. set (n := N w) in *. clearbody i n. destruct p, w. cbn. split.
      all: match goal with |- ?l = ?r => transitivity (r * (i * n)); [ring|rewrite I; ring] end. }
    destruct (G (num_v a b q) (num_v c d q) Nq) as (G1 & G2).
    change (qw (num_v c d q) * qw (num_v c d q) + qx (num_v c d q) * qx (num_v c d q) + qy (num_v c d q) * qy (num_v c d q) + qz (num_v c d q) * qz (num_v c d q))
      with (N (num_v c d q)). cbn [re im]. rewrite G1, G2. unfold qmul_v, qconj_v, num_v. destruct a, b, c, d, q. cbn. f_equal; ring.
  Qed.

  (** A transformation with non-zero determinant has no pole outside the complex plane. *)
  Theorem C85_no_pole : forall m q D, rect 2 2 m -> mo_det co m = Ok D -> D <> Cx 0 0 -> (qy q <> 0 \/ qz q <> 0) -> off_pole_q o rem m q.
  Proof.
    intros m q D Rm ED HD Hq. destruct (rect22 Rm) as (a & b & c & d & ->).
    unfold mo_det in ED. rewrite (m_det_22 (c_ring_inst F rem)) in ED. apply Ok_inj in ED. subst D.
    rewrite (off_pole_q_iff rem H4). rewrite (off_pole_D (q_div_inst H4)).
    change (r_add Q (r_mul Q (cq o c) q) (cq o d) <> Qt 0 0 0 0). rewrite num_v_eq. intros E. apply HD.
    unfold num_v in E. injection E as E1 E2 E3 E4.
    assert (C0 : (re c * re c + im c * im c) * (qy q * qy q + qz q * qz q) = 0).
    { transitivity ((re c * qy q - im c * qz q) * (re c * qy q - im c * qz q) + (re c * qz q + im c * qy q) * (re c * qz q + im c * qy q)); [ring|].
      rewrite E3, E4. ring. }
    assert (Y : qy q * qy q + qz q * qz q <> 0).
    { intros Y. destruct (H4 0 0 (qy q) (qz q)) as (_ & _ & Y1 & Y2); [etransitivity; [|exact Y]; ring|]. tauto. }
    assert (C1 : re c * re c + im c * im c = 0).
    { transitivity ((re c * re c + im c * im c) * (qy q * qy q + qz q * qz q) * f_inv F (qy q * qy q + qz q * qz q)).
      - transitivity ((re c * re c + im c * im c) * (f_inv F (qy q * qy q + qz q * qz q) * (qy q * qy q + qz q * qz q))); [|ring].
        rewrite (f_inv_l F) by auto. ring.
      - rewrite C0. ring. }
    destruct (H4 (re c) (im c) 0 0) as (c1 & c2 & _ & _); [etransitivity; [|exact C1]; ring|].
    rewrite c1, c2 in E1, E2. assert (d1 : re d = 0) by (etransitivity; [|exact E1]; ring). assert (d2 : im d = 0) by (etransitivity; [|exact E2]; ring).
    cbn. rewrite c1, c2, d1, d2. f_equal; ring.
  Qed.
End C85.

(* ------------------------------------------------------------------------- *)
(** * The hyperbolic metric                                                    *)
From Coq Require Import Reals Lra.
From Verif Require Import RealInst.
Local Open Scope R_scope.

(** The upper half space, and its hyperbolic distance. *)
Definition upper (q : quat R) : Prop := 0 < qy q /\ qz q = 0.
Definition arcosh (x : R) : R := ln (x + sqrt (x * x - 1)).
Definition hdist (p q : quat R) : R :=
  arcosh (1 + ((qw p - qw q) ^ 2 + (qx p - qx q) ^ 2 + (qy p - qy q) ^ 2) / (2 * qy p * qy q)).

Lemma r_real4 : real4 r_field.
Proof. intros a b c d H. cbn in H. repeat split; cbn; nra. Qed.

(** A Moebius transformation whose determinant is a positive real number maps the upper half space to
    itself and preserves hyperbolic distance. *)
Theorem C85_isometry : forall rem m D p q, rect 2 2 m -> mo_det (c_ops r_ops rem) m = Ok (Cx D 0) -> 0 < D -> upper p -> upper q ->
  exists p' q', mo_apply_q r_ops m p = Ok p' /\ mo_apply_q r_ops m q = Ok q' /\ upper p' /\ upper q' /\ hdist p' q' = hdist p q.
Proof.
  intros rem m D p q Rm ED HD Up Uq.
  assert (PP : forall x, upper x -> off_pole_q r_ops rem m x).
  { intros x (Ux & _). apply (@C85_no_pole _ _ r_field rem r_real4 m x (Cx D 0) Rm ED).
    - intros E. injection E as E. cbn in E. lra.
    - left. cbn. lra. }
  assert (V : forall x, upper x -> exists x' u, mo_apply_q r_ops m x = Ok x' /\ denominator r_ops m x = Ok u /\
     let n := q_nrm r_field u in 0 < n /\ qy x' * n = qy x * D /\ qz x' = 0).
  { intros x Ux. pose proof (PP x Ux) as Hx. destruct (rect22 Rm) as (a & b & c & d & ->).
    destruct (value r_real4 Hx) as (Nx & Dx & Vx).
    match type of Vx with _ = Ok ?t => set (x' := t) in *; clearbody x' end.
    destruct (C85_height r_real4 Rm Hx Vx) as (u & D' & Du & D1 & E). rewrite ED in D1. apply Ok_inj in D1. subst D'.
    rewrite Dx in Du. apply Ok_inj in Du. rewrite Du in *. clear Du.
    rewrite (q_norm_sqr_v r_field) in E. cbn [bind] in E. rewrite (c_mul_s_v r_field), (c_mul_v r_field) in E.
    destruct E as (w & E1 & E2). rewrite <- E2 in E1. apply Ok_inj in E1. injection E1 as E3 E4.
    exists x', u. split; [exact Vx|]. split; [exact Dx|]. clear Vx.
    cbv zeta. change (q_nrm r_field u) with (qw u * qw u + qx u * qx u + qy u * qy u + qz u * qz u) in *.
    change (o_zero r_ops) with 0 in Nx. cbn in E3, E4. destruct Ux as (U1 & U2). rewrite U2 in *.
    assert (NP : 0 < qw u * qw u + qx u * qx u + qy u * qy u + qz u * qz u) by nra.
    split; [exact NP|].   split; [lra|]. apply (Rmult_eq_reg_r (qw u * qw u + qx u * qx u + qy u * qy u + qz u * qz u)); lra. }
  destruct (V p Up) as (p' & u & Vp & Du & Nu & Yp & Zp). destruct (V q Uq) as (q' & v & Vq & Dv & Nv & Yq & Zq).
  destruct (C85_distance r_real4 Rm (PP p Up) (PP q Uq) Vp Vq) as (u1 & v1 & D1 & Eu & Ev & E1 & E).
  rewrite Du in Eu. rewrite Dv in Ev. rewrite ED in E1. apply Ok_inj in Eu, Ev, E1. subst u1 v1 D1.
  unfold dist_sqr in E. rewrite !(q_sub_v r_field) in E. cbn [bind] in E. rewrite !(q_norm_sqr_v r_field), (c_norm_sqr_v r_field) in E. cbn [bind] in E.
  change (q_nrm r_field u) with (qw u * qw u + qx u * qx u + qy u * qy u + qz u * qz u) in *.
  change (q_nrm r_field v) with (qw v * qw v + qx v * qx v + qy v * qy v + qz v * qz v) in *.
  set (nu := qw u * qw u + qx u * qx u + qy u * qy u + qz u * qz u) in *.
  set (nv := qw v * qw v + qx v * qx v + qy v * qy v + qz v * qz v) in *.
  destruct E as (e & E1 & E2). rewrite <- E2 in E1. cbn in E1. apply Ok_inj in E1.
  change (qw u * qw u + qx u * qx u + qy u * qy u + qz u * qz u) with nu in E1.
  change (qw v * qw v + qx v * qx v + qy v * qy v + qz v * qz v) with nv in E1.
  exists p', q'. split; [exact Vp|]. split; [exact Vq|]. clearbody nu nv. destruct Up as (Up1 & Up2), Uq as (Uq1 & Uq2).
  assert (Pos : forall y n t e, 0 < n -> 0 < t -> 0 < e -> y * n = t * e -> 0 < y) by (clear; intros; nra).
  assert (P1 : 0 < qy p') by (eapply Pos; [| | |exact Yp]; auto). assert (Q1 : 0 < qy q') by (eapply Pos; [| | |exact Yq]; auto).
  split; [split; auto|]. split; [split; auto|]. unfold hdist. f_equal. f_equal.
  rewrite Zp, Zq, Up2, Uq2 in E1.
  set (d' := (qw p' - qw q') ^ 2 + (qx p' - qx q') ^ 2 + (qy p' - qy q') ^ 2).
  set (d := (qw p - qw q) ^ 2 + (qx p - qx q) ^ 2 + (qy p - qy q) ^ 2).
  assert (E : d' * nu * nv = D * D * d) by (unfold d', d; nra). clearbody d' d.
  assert (Y : qy p' * qy q' * (nu * nv) = qy p * qy q * (D * D)) by (transitivity ((qy p' * nu) * (qy q' * nv)); [ring|rewrite Yp, Yq; ring]).
    apply (Rmult_eq_reg_r ((2 * qy p' * qy q') * (2 * qy p * qy q) * (nu * nv))); [|apply Rgt_not_eq; repeat apply Rmult_lt_0_compat; lra].
  transitivity (d' * (nu * nv) * (2 * qy p * qy q)); [field; split; lra|].
  transitivity (d * (2 * (qy p' * qy q' * (nu * nv)))); [|field; split; lra]. rewrite Y.
  transitivity (d' * nu * nv * (2 * qy p * qy q)); [ring|]. rewrite E. ring.
Qed.

(** The hypotheses are met: [z |-> (2 z + 3) / (z + 2)], determinant 1, at [2 j] and [1 + j]. *)
Example C85_isometry_ex : let m := [[Cx 2 0; Cx 3 0]; [Cx 1 0; Cx 2 0]] in
  rect 2 2 m /\ mo_det (c_ops r_ops (fun _ _ => Panic)) m = Ok (Cx 1 0) /\ upper (Qt 0 0 2 0) /\ upper (Qt 1 0 1 0).
Proof.
  intros m. split; [split; [reflexivity|repeat constructor]|]. split.
  - unfold mo_det, m. rewrite (m_det_22 (c_ring_inst r_ring (fun _ _ => Panic))). cbn. f_equal. f_equal; ring.
  - unfold upper. cbn. lra.
Qed.

Theorem C85_hdist_zero : forall p q, upper p -> upper q -> (hdist p q = 0 <-> p = q).
Proof.
  intros p q (Hp & Zp) (Hq & Zq). unfold hdist, arcosh.
  set (d := (qw p - qw q) ^ 2 + (qx p - qx q) ^ 2 + (qy p - qy q) ^ 2).
  assert (Y : 0 < 2 * qy p * qy q) by (repeat apply Rmult_lt_0_compat; lra).
  assert (D0 : 0 <= d) by (unfold d; pose proof (pow2_ge_0 (qw p - qw q)); pose proof (pow2_ge_0 (qx p - qx q)); pose proof (pow2_ge_0 (qy p - qy q)); lra). assert (X0 : 0 <= d / (2 * qy p * qy q)) by (apply Rmult_le_pos; [auto|apply Rlt_le, Rinv_0_lt_compat, Y]).
  split.
  - intros E. set (x := d / (2 * qy p * qy q)) in *. set (t := 1 + x + sqrt ((1 + x) * (1 + x) - 1)) in *.
    assert (T : t = 1).
    { destruct (Rle_lt_or_eq_dec 1 t) as [L|L]; [clear E; unfold t; pose proof (sqrt_pos ((1 + x) * (1 + x) - 1)); lra| |congruence].
      exfalso. pose proof (ln_increasing 1 t ltac:(lra) L) as G. rewrite ln_1 in G. lra. }
    assert (x = 0) by (clear E; unfold t in T; pose proof (sqrt_pos ((1 + x) * (1 + x) - 1)); lra).
    assert (DZ : d = 0). { unfold x in H. apply (Rmult_eq_reg_r (/ (2 * qy p * qy q))); [unfold Rdiv in H; lra|apply Rgt_not_eq, Rinv_0_lt_compat, Y]. }
    unfold d in DZ. destruct p as [pw px py pz], q as [qw0 qx0 qy0 qz0]. cbn [qw qx qy qz] in *.
    assert (S3 : forall u v w, u ^ 2 + v ^ 2 + w ^ 2 = 0 -> u = 0 /\ v = 0 /\ w = 0) by (clear; intros; repeat split; nra).
    apply S3 in DZ. destruct DZ as (Z1 & Z2 & Z3). f_equal; lra.
  - intros <-. replace d with 0 by (unfold d; ring). unfold Rdiv. rewrite Rmult_0_l, Rplus_0_r.
    replace (1 * 1 - 1) with 0 by ring. rewrite sqrt_0, Rplus_0_r. apply ln_1.
Qed.

Print Assumptions C85_distance.
Print Assumptions C85_height.
Print Assumptions C85_no_pole.
Print Assumptions C85_isometry.
Print Assumptions C85_hdist_zero.
