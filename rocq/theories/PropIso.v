(** C97: the directions [Unit] draws: turning the vectors the source draws turns the results, and the density of the
    vectors [Normal] draws is unchanged by a turn. *)
From Coq Require Import Reals List Lra Psatz Lia.
From Verif Require Import SpecTransform SpecRing SpecDistr ComplexModel MathModel TransformModel RealInst VFacts MFacts AlgFacts RealFacts CxFacts PropRot PropDistr.
From Verif Require SpecLaw.
Import ListNotations.
Set Implicit Arguments.
Local Open Scope R_scope.

(** The linear map [q] keeps the length of every vector with [N] components. *)
Definition keeps_length (N : nat) (q : list (list R)) : Prop :=
  rect N N q /\ forall x y, length x = N -> m_dot_v r_ops N N q x = Ok y -> v_length r_ops sqrt y = v_length r_ops sqrt x.
(** Whenever one source draws [x], the other draws [q x]: the same randomness, seen by a turned observer. *)
Definition turned {G G' : Type} (N : nat) (q : list (list R)) (tr : G -> G') (a : distr G R) (b : distr G' R) : Prop :=
  forall g g' x, drawn a N g g' x -> exists y, m_dot_v r_ops N N q x = Ok y /\ drawn b N (tr g) (tr g') y.

Section C97.
  Context {G G' : Type} (eps : R) (a : distr G R) (b : distr G' R) (N : nat) (q : list (list R)) (tr : G -> G').
  Context (HN : (0 < N)%nat) (Kq : keeps_length N q) (Tu : turned N q tr a b).
  Local Notation fl := (r_float eps).
  Lemma drawn_len : forall (d : distr G R) g g' x, drawn d N g g' x -> length x = N.
  Proof. intros d g g' x D. apply (proj1 (proj2 (C75_vector d N g)) g'). apply (proj1 (C75_vector d N g)). auto. Qed.
  Lemma image_len : forall x y, length x = N -> m_dot_v r_ops N N q x = Ok y -> length y = N /\ len y = len x.
  Proof.
    intros x y L E. destruct Kq as (Rq & Kl). pose proof (Kl x y L E) as X.
    assert (Ly : length y = N).
    { rewrite (@mk_of _ N N q 0 Rq), (@vk_of _ N x 0 L), (m_dot_v_mk r_ring) in E by auto. apply Ok_inj in E. subst y. apply vk_length. }
    split; auto. rewrite (len_v _ L HN), (len_v _ Ly HN) in X. apply Ok_inj in X. auto.
  Qed.
  Lemma first_turned : forall n g g' x, first_good (fun g g' x => drawn a N g g' x) (fun x => eps < len x) n g g' x ->
    exists y, m_dot_v r_ops N N q x = Ok y /\ first_good (fun g g' x => drawn b N g g' x) (fun x => eps < len x) n (tr g) (tr g') y.
  Proof.
    intros n g g' x F. induction F as [g g' x D Hg|n g g1 z g' x D Hb F IH].
    - destruct (Tu D) as (y & Ey & Dy). exists y. split; auto. apply fg_now; auto. destruct (image_len _ (drawn_len D) Ey) as (_ & ->). auto.
    - destruct (Tu D) as (w & Ew & Dw). destruct IH as (y & Ey & Fy). exists y. split; auto. eapply fg_later; eauto.
      destruct (image_len _ (drawn_len D) Ew) as (_ & ->). auto.
  Qed.
  (** [NonZero] and [Unit]: the turned source gives the turned vector, after as many draws. *)
  Theorem C97_nonzero : forall fuel g g' x, nonzero_v r_ops fl a fuel N g = Ok (g', x) ->
    exists y, m_dot_v r_ops N N q x = Ok y /\ nonzero_v r_ops fl b fuel N (tr g) = Ok (tr g', y).
  Proof.
    intros fuel g g' x X. apply C76_nonzero in X as (n & Hn & F); auto. destruct (first_turned F) as (y & Ey & Fy). exists y. split; auto.
    apply C76_nonzero; auto. exists n. auto.
  Qed.
  Theorem C97_unit : forall fuel g g' u, 0 <= eps -> unit_v r_ops fl a fuel N g = Ok (g', u) ->
    exists w, m_dot_v r_ops N N q u = Ok w /\ unit_v r_ops fl b fuel N (tr g) = Ok (tr g', w).
  Proof.
    intros fuel g g' u He. unfold unit_v. destruct (nonzero_v r_ops fl a fuel N g) as [[g1 x]| | |] eqn:X; cbn [bind]; try discriminate.
    destruct (C76_nonzero_length _ _ _ HN He X) as (L & _ & Lp & _). destruct (C97_nonzero _ _ X) as (y & Ey & Y). rewrite Y. cbn [bind].
    destruct (image_len _ L Ey) as (Ly & El). cbn [f_sqrt r_float].
    assert (Nm : forall z, length z = N -> len z = len x -> v_normalize r_ops sqrt z = Ok (vk N (fun i => nth i z 0 / len x))).
    { intros z Lz Ez. pose proof (@vk_of _ N z 0 Lz) as Ex. rewrite Ex at 1. rewrite <- Ez in *. unfold len in Lp |- *. rewrite Lz in Lp |- *. apply rv_normalize; auto.
      change (sqrt (bigsum r_ring N (fun i => nth i z 0 * nth i z 0)) <> 0). lra. }
    rewrite (Nm x L eq_refl), (Nm y Ly El). cbn [bind]. intros V. apply Ok_inj in V. injection V as <- <-.
    destruct Kq as (Rq & _). rewrite (@mk_of _ N N q 0 Rq) in Ey |- *. rewrite (@vk_of _ N x 0 L) in Ey at 1. rewrite (m_dot_v_mk r_ring) in Ey |- * by auto.
    apply Ok_inj in Ey. eexists. split; [reflexivity|]. do 2 f_equal. apply vk_ext. intros i Hi. rewrite <- Ey. rewrite nth_vk by auto.
    unfold Rdiv. rewrite Rmult_comm. rewrite <- (bigsum_mul_l r_ring). apply bigsum_ext. intros l Hl. cbn. ring.
  Qed.
End C97.

(** The density of a vector whose components are drawn independently from the standard normal law. *)
Definition density (x : list R) : R := fold_right Rmult 1 (map SpecLaw.normal_density x).
Lemma density_v : forall x, density x = / sqrt (2 * PI) ^ length x * exp (- bigsum r_ring (length x) (fun i => nth i x 0 * nth i x 0) / 2).
Proof.
  intros x. assert (Q : 0 < sqrt (2 * PI)) by (apply sqrt_lt_R0; pose proof PI_RGT_0; lra). induction x as [|z x IH].
  - cbn. replace (- 0 / 2) with 0 by field. rewrite exp_0. field.
  - unfold density in *. cbn [map fold_right length]. rewrite IH. unfold SpecLaw.normal_density. rewrite (bigsum_shift r_ring). cbn [nth].
    assert (E : exp (- r_add r_ring (z * z) (bigsum r_ring (length x) (fun i => nth i x 0 * nth i x 0)) / 2) =
      exp (- (z * z) / 2) * exp (- bigsum r_ring (length x) (fun i => nth i x 0 * nth i x 0) / 2)).
    { rewrite <- exp_plus. f_equal. cbn. field. }
    rewrite E. cbn [pow]. field. split; [apply pow_nonzero|]; lra.
Qed.
(** It depends on the length alone, so a map that keeps lengths does not change it. *)
Theorem C97_density : forall N q x y, (0 < N)%nat -> keeps_length N q -> length x = N -> m_dot_v r_ops N N q x = Ok y ->
  density y = density x.
Proof.
  intros N q x y HN Kq L Ey. assert (Tu : True) by auto.
  destruct (image_len HN Kq _ L Ey) as (Ly & El). rewrite !density_v, L, Ly. f_equal. f_equal. f_equal. f_equal. unfold len in El. rewrite L, Ly in El.
  apply sqrt_inj in El; auto; apply rsum_nonneg; intros; apply sqpos.
Qed.

(** Non-vacuity: a quarter turn of the plane, and a source whose state is the list of draws to come. *)
Section C97_ex.
  Definition pending : distr (list R) R := fun g => match g with x :: r => Ok (r, x) | [] => Panic end.
  Fixpoint quarter (g : list R) : list R := match g with x :: y :: r => - y :: x :: quarter r | _ => [] end.
  Definition quarter_matrix : list (list R) := [[0; -1]; [1; 0]].
  Lemma quarter_v : forall x y, m_dot_v r_ops 2 2 quarter_matrix [x; y] = Ok [- y; x].
  Proof. intros. unfold quarter_matrix. rewrite (m_dot_v_22 r_ring). f_equal. listeq; cbn; ring. Qed.
  Example C97_quarter : keeps_length 2 quarter_matrix /\ turned 2 quarter_matrix quarter pending pending.
  Proof.
    split; [split|].
    - repeat constructor.
    - intros x y L E. destruct x as [|u [|v [|? ?]]]; try discriminate. rewrite quarter_v in E. apply Ok_inj in E. subst y.
      rewrite !(@len_v 2) by (reflexivity || lia). f_equal. unfold len. cbn. f_equal. ring.
    - intros g g' x D. inversion D as [|? ? g1 x1 ? r1 E1 D1]; subst. inversion D1 as [|? ? g2 x2 ? r2 E2 D2]; subst. inversion D2; subst.
      destruct g as [|u [|v r]]; cbn in E1; try discriminate.
      + apply Ok_inj in E1. injection E1 as <- <-. discriminate.
      + apply Ok_inj in E1. injection E1 as <- <-. cbn in E2. apply Ok_inj in E2. injection E2 as <- <-. rewrite quarter_v. eexists. split; [reflexivity|].
        repeat econstructor.
  Qed.
  Lemma len_34 : len [3; 4] = 5.
  Proof. unfold len. cbn. replace (0 + 3 * 3 + 4 * 4) with (5 * 5) by ring. apply sqrt_square. lra. Qed.
  Example C97_unit_ex : unit_v r_ops (r_float 1) pending 1 2 [3; 4; 7] = Ok ([7], [3 / 5; 4 / 5]).
  Proof.
    unfold unit_v. replace (nonzero_v r_ops (r_float 1) pending 1 2 [3; 4; 7]) with (Ok ([7], [3; 4])).
    - cbn [bind]. assert (Nm : v_normalize r_ops sqrt [3; 4] = Ok [3 / 5; 4 / 5]).
      { unfold v_normalize. rewrite (@len_v 2) by (reflexivity || lia). rewrite len_34. cbn [bind].
        exact (@rv_sdiv 2 (fun i => nth i [3; 4] 0) 5 ltac:(lra)). }
      cbn [f_sqrt r_float]. rewrite Nm. reflexivity.
    - symmetry. apply C76_nonzero; [lia|]. exists 0%nat. split; [lia|]. apply fg_now; [repeat econstructor|]. rewrite len_34. lra.
  Qed.
  Example C97_turned_ex : exists w, m_dot_v r_ops 2 2 quarter_matrix [3 / 5; 4 / 5] = Ok w /\
    unit_v r_ops (r_float 1) pending 1 2 [-4; 3] = Ok ([], w).
  Proof.
    destruct C97_quarter as (A & B). destruct (@C97_unit _ _ 1 pending pending 2 quarter_matrix quarter ltac:(lia) A B 1 _ _ _ ltac:(lra) C97_unit_ex) as (w & W1 & W2).
    exists w. split; auto.
  Qed.
End C97_ex.

Print Assumptions C97_nonzero.
Print Assumptions C97_unit.
Print Assumptions C97_density.
