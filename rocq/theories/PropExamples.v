(** Concrete cases for the properties whose theorems stand in files without one: the hypotheses are met, and the
    functions computed by them are the expected ones. *)
From Coq Require Import String Reals Lra Lia QArith Qcanon.
From Verif Require Import PropVector PropMatrix PropComplex PropMoebius PropRot PropLookAt PropNum PropRel.
From Verif Require Import SpecRing SpecTransform Instances RealInst SpecMachine AlgFacts MoFacts NumModel.
Set Implicit Arguments.
Import ListNotations.
Local Open Scope list_scope.

Example C10_example :
  v_iter_sum z_ops 2 [[1; 2]; [3; 4]; [5; 6]]%Z = Ok [9; 12]%Z /\ v_iter_product z_ops 2 [[1; 2]; [3; 4]; [5; 6]]%Z = Ok [15; 48]%Z /\
  v_is_zero z_ops [0; 0]%Z = true /\ v_is_zero z_ops [0; 1]%Z = false /\
  m_iter_sum z_ops 1 2 [[[1; 2]]; [[3; 4]]]%Z = Ok [[4; 6]]%Z.
Proof. repeat split. Qed.
Example C11_example :
  v_vlt z_ops 3 [1; 2; 3]%Z [2; 2; 2]%Z = Ok [true; false; false] /\ v_vge z_ops 3 [1; 2; 3]%Z [2; 2; 2]%Z = Ok [false; true; true] /\
  v_any [false; true] = true /\ v_all [false; true] = false /\ v_eq z_ops [1; 2]%Z [1; 2]%Z = true /\ v_eq z_ops [1; 2]%Z [1; 3]%Z = false.
Proof. repeat split. Qed.
Example C17_example :
  v_w [1; 2; 3; 4]%Z = Ok 4%Z /\ v_z_set [1; 2; 3]%Z 9%Z = Ok [1; 2; 9]%Z /\ v_into_tuple3 [1; 2; 3]%Z = Ok (1, 2, 3)%Z.
Proof. repeat split. Qed.
Example C44_example :
  q_conj z_ops (Qt 1 2 3 4)%Z = Ok (Qt 1 (-2) (-3) (-4))%Z /\ q_norm_sqr z_ops (Qt 1 2 3 4)%Z = Ok 30%Z /\ q_norm_sqr z_ops (Qt 5 6 7 8)%Z = Ok 174%Z /\
  (let! p := q_mul z_ops (Qt 1 2 3 4)%Z (Qt 5 6 7 8)%Z in q_norm_sqr z_ops p) = Ok (30 * 174)%Z.
Proof. repeat split. Qed.
Example C47_example : o_rem (q_ops z_ops) (Qt 7 0 0 0)%Z (Qt 2 0 0 0)%Z = Panic /\ @q_from_str_radix Z string "1"%string 10 = Panic.
Proof. repeat split. Qed.

Ltac qceq := apply Qc_is_canon; vm_compute; auto.
(** 2z / (z + 3) has determinant 6; normalised, its determinant is 1/6 and it maps 1 to 1/2 as before. *)
Example C51_example : let m := [[qcz 2; qcz 0]; [qcz 1; qcz 3]] in
  rect 2 2 m /\ mo_det qc_ops m = Ok (qcz 6) /\ qcz 6 <> o_zero qc_ops /\ off_pole qc_ops m (qcz 1) /\
  exists n, mo_normalize qc_ops m = Ok n /\ mo_apply_self qc_ops n (qcz 1) =! mo_apply_self qc_ops m (qcz 1).
Proof.
  intros m. assert (R : rect 2 2 m) by (split; [reflexivity|repeat constructor]).
  assert (D : mo_det qc_ops m = Ok (qcz 6)). { unfold mo_det, m. rewrite (m_det_22 qc_ring). f_equal; qceq. }
  assert (Z6 : qcz 6 <> o_zero qc_ops) by qc_neq.
  assert (P : off_pole qc_ops m (qcz 1)). { eexists. split; [reflexivity|]. qc_neq. }
  split; [exact R|]. split; [exact D|]. split; [exact Z6|]. split; [exact P|].
  destruct (@C51_same_transformation _ _ qc_field m (qcz 6) (qcz 1) R D Z6) as (n & E & _ & _ & S). exists n. auto.
Qed.
Lemma qc_this : forall x y : Qc, this x = this y -> x = y.
Proof. intros x y H. apply Qc_is_canon. rewrite H. reflexivity. Qed.
Lemma qval_inj : forall x y, qval x = qval y -> x = y.
Proof.
  intros [a b c d] [a' b' c' d'] H. unfold qval in H. cbn [qw qx qy qz] in H. 
  assert (this a = this a' /\ this b = this b' /\ this c = this c' /\ this d = this d') as (Ha & Hb & Hc & Hd) by (repeat split; congruence).
  apply qc_this in Ha, Hb, Hc, Hd. congruence.
Qed.
Lemma map_inj : forall A B (f : A -> B), (forall x y, f x = f y -> x = y) -> forall l l', map f l = map f l' -> l = l'.
Proof.
  intros A B f H l. induction l as [|x l IH]; intros [|y l'] E; try discriminate; auto. cbn in E. injection E as E1 E2. f_equal; auto.
Qed.
(** x -> (x + i)(j x)^-1 with quaternion coefficients, undone by its true inverse. *)
Example C54_example : let o := q_ops qc_ops in let one := qz4 1 0 0 0 in let zero := qz4 0 0 0 0 in
  let m := [[one; qz4 0 1 0 0]; [qz4 0 0 1 0; zero]] in
  let n := [[zero; qz4 0 0 (-1) 0]; [qz4 0 (-1) 0 0; qz4 0 0 0 (-1)]] in
  (let! y := mo_apply_self o m (qz4 1 2 3 4) in mo_apply_self o n y) = Ok (qz4 1 2 3 4).
Proof.
  intros o one zero m n. apply (@C54_true_inverse _ _ qc_field qc_real4).
  - split; [reflexivity|repeat constructor].
  - split; [reflexivity|repeat constructor].
  - assert (S : rmap (map (map qval)) (mo_chain o n m) = rmap (map (map qval)) (mo_identity o)) by (vm_compute; auto).
    unfold o in *. destruct (mo_chain (q_ops qc_ops) n m) as [a| | |] eqn:E1; try (exfalso; revert E1; clear; intros E1; vm_compute in E1; discriminate E1).
    destruct (mo_identity (q_ops qc_ops)) as [b| | |] eqn:E2; try discriminate S.
    exists a. split; [reflexivity|]. f_equal. injection S as S. symmetry. exact (map_inj (map qval) (map_inj _ qval_inj) _ _ S).
  - eexists. split; [reflexivity|]. intros H. apply (f_equal qval) in H. vm_compute in H. discriminate H.
Qed.

Local Open Scope R_scope.
Lemma unit3_example : unit3 [2 / 3; -1 / 3; 2 / 3].
Proof. split; [reflexivity|]. rewrite (v_dot_3 r_ring). f_equal. change (2 / 3 * (2 / 3) + -1 / 3 * (-1 / 3) + 2 / 3 * (2 / 3) = 1). field. Qed.
(** A quarter turn of the plane; a turn by one radian about an axis, and its axis and angle again. *)
Example C61_example :
  (exists r, rot2_new (r_float 0) (PI / 2) = Ok r /\ t_apply (rot2_transform r_ops) r [3; 4] = Ok [-4; 3]) /\
  (exists r, rot3_new r_ops (r_float 0) [2 / 3; -1 / 3; 2 / 3] 1 = Ok r /\ rot3_axis r_ops (r_float 0) r = Ok [2 / 3; -1 / 3; 2 / 3] /\
     rot3_angle r_ops (r_float 0) r = Ok 1).
Proof.
  split.
  - destruct (C61_new2 0 (PI / 2)) as (r & E & _ & A). exists r. split; [exact E|]. rewrite A, cos_PI2, sin_PI2. f_equal. f_equal; [ring|f_equal; ring].
  - destruct (C61_new3 0 1 unit3_example) as (r & E & _). exists r. split; [exact E|].
    assert (P : 0 < 1 < 2 * PI) by (pose proof PI_RGT_0; pose proof PI2_3_2; unfold PI2 in *; lra).
    pose proof (C61_recover3 0 unit3_example P) as (H1 & H2). rewrite E in H1, H2. auto.
Qed.
Example C63_example : exists m, look_at_any r_ops (r_float 0) [2 / 3; -1 / 3; 2 / 3] = Ok m /\ t_apply (linear_transform r_ops 3) m [0; 0; -1] = Ok [2 / 3; -1 / 3; 2 / 3].
Proof. destruct (C63_look_at_any 0 unit3_example) as (m & E & _ & A). exists m. auto. Qed.
Example C64_example : exists r, rot3_look_at_any r_ops (r_float 0) 1 [2 / 3; -1 / 3; 2 / 3] = Ok r /\ t_apply (rot3_transform r_ops) r [0; 0; -1] = Ok [2 / 3; -1 / 3; 2 / 3].
Proof. destruct (C64_look_at_any 0 unit3_example) as (r & E & _ & A). exists r. auto. Qed.
(** Reduction to a byte and inclusion of the integers in the rationals are homomorphisms. *)
Lemma qcz_hom : hom qcz z_ops qc_ops.
Proof.
  constructor; intros; try reflexivity; cbn [o_add o_sub o_mul o_neg z_ops qc_ops rmap bind ok1 ok2]; unfold ok1, ok2; f_equal; apply Qc_is_canon;
    unfold qcz; cbn [Q2Qc this Qcplus Qcmult Qcminus Qcopp]; rewrite ?Qred_correct; unfold Qeq, inject_Z; cbn; lia.
Qed.
Example C72_example : v_dot qc_ops 2 [qcz 3; qcz 4] [qcz 5; qcz 6] = Ok (qcz 39) /\
  hom (wrap false 8) z_ops (wrapping_ops false 8) /\ v_dot (wrapping_ops false 8) 2 [200; 100]%Z [2; 1]%Z = Ok 244%Z.
Proof.
  split; [|split].
  - exact (@C72_v_dot _ _ _ _ _ qcz_hom 2 [3; 4]%Z [5; 6]%Z eq_refl eq_refl).
  - apply wrap_hom. cbn. lia.
  - reflexivity.
Qed.
(** A complex square root that panics for a negative real part: the wrapper panics then, and not otherwise. *)
Example C82_example : forall N : num_complex Z unit, (forall x y, n_sqrt N (x, y) = if (x <? 0)%Z then Panic else Ok (y, x)) ->
  c_sqrt N (Cx 3 4)%Z = Ok (Cx 4 3)%Z /\ c_sqrt N (Cx (-3) 4)%Z = Panic.
Proof.
  intros N H. destruct (@C82_unary _ _ N (Cx 3 4)%Z 0%Z (Cx 0 0)%Z 0%nat 0%Z) as (_ & _ & E & _).
  destruct (@C82_unary _ _ N (Cx (-3) 4)%Z 0%Z (Cx 0 0)%Z 0%nat 0%Z) as (_ & _ & E' & _). rewrite E, E'. unfold num_of. cbn [re im]. rewrite !H. split; reflexivity.
Qed.

