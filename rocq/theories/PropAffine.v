(** Properties C65 - C67: reordering, chains (affine and rigid transformations) and derivatives. *)
From Coq Require Import ZArith Ring Field ZifyBool.
From Verif Require Import SpecTransform SpecFacts MFacts AlgFacts CxFacts PropAlgebra PropSquare PropTransform Instances.
Set Implicit Arguments.
Local Open Scope nat_scope.
Local Open Scope list_scope.

(* ------------------------------------------------------------------------- *)
(** * C65: reordering                                                          *)

(** [rot2_apply] and [rot3_apply] are linear maps. *)
Section RotLinear.
  Context {T : Type} {o : Ops T} (R : CRing o).
  Add Ring RRL : (CRing_theory R).
  Lemma rot2_linear : forall r x y, dim 2 x -> dim 2 y ->
    (let! xy := v_add o 2 x y in t_apply (rot2_transform o) r xy) =!
    (let! u := t_apply (rot2_transform o) r x in let! v := t_apply (rot2_transform o) r y in v_add o 2 u v).
  Proof.
    intros r u v Hu Hv. comps. rewrite (v_add_2 R), !(rot2_apply_v R). cbn [bind]. rewrite (rot2_apply_v R), (v_add_2 R).
    same. listeq; ring.
  Qed.
  Lemma rot3_linear : forall r x y, dim 3 x -> dim 3 y ->
    (let! xy := v_add o 3 x y in t_apply (rot3_transform o) r xy) =!
    (let! u := t_apply (rot3_transform o) r x in let! v := t_apply (rot3_transform o) r y in v_add o 3 u v).
  Proof.
    intros r u v Hu Hv. comps. rewrite (v_add_3 R), !(rot3_apply_v R). cbn [bind]. rewrite (rot3_apply_v R), (v_add_3 R).
    same. listeq; ring.
  Qed.
  Lemma scale_linear : forall N inv k x y, dim N x -> dim N y ->
    (let! xy := v_add o N x y in t_apply (scale_transform o inv) k xy) =!
    (let! u := t_apply (scale_transform o inv) k x in let! v := t_apply (scale_transform o inv) k y in v_add o N u v).
  Proof.
    intros N inv k x y Hx Hy. destr_dim. asfun o. cbn [t_apply scale_transform]. ops R. same. apply vk_ext. intros. ring.
  Qed.
End RotLinear.

(** Reordering follows from additivity: [M (x + s) = M x + M s], and [s + M x = M (M^-1 s + x)]. *)
Section ReorderGeneric.
  Context {T A : Type} {o : Ops T} (R : CRing o) (N : nat) (ta : Transform (list T) A) (ok inv : A -> Prop).
  Add Ring RRG : (CRing_theory R).
  Context (H : Acts ta (dim N) ok inv).
  Context (Lin : forall a x y, ok a -> dim N x -> dim N y ->
    (let! xy := v_add o N x y in t_apply ta a xy) =!
    (let! u := t_apply ta a x in let! v := t_apply ta a y in v_add o N u v)).
  Local Notation S := (shift_transform o N).

  Lemma add_dim : forall x y, dim N x -> dim N y -> exists z, v_add o N x y = Ok z /\ dim N z.
  Proof. intros x y Hx Hy. destr_dim. asfun o. rewrite (v_add_vk R). eexists. split; [reflexivity|apply dim_vk]. Qed.
  Lemma add_comm_v : forall x y, dim N x -> dim N y -> v_add o N x y = v_add o N y x.
  Proof. intros x y Hx Hy. destr_dim. asfun o. rewrite !(v_add_vk R). f_equal. apply vk_ext. intros. ring. Qed.

  Lemma reorder_shift_in : forall m s, ok m -> dim N s -> exists s', t_apply ta m s = Ok s' /\ dim N s' /\
    forall x, dim N x -> (let! y := t_apply S s x in t_apply ta m y) =! (let! y := t_apply ta m x in t_apply S s' y).
  Proof.
    intros m s Hm Hs. destruct (act_apply H _ _ Hm Hs) as (s' & E & D). exists s'. split; auto. split; auto.
    intros x Hx. cbn [t_apply shift_transform]. destruct (Lin Hm Hx Hs) as (z & Z1 & Z2). rewrite Z1. exists z. split; auto.
    destruct (act_apply H _ _ Hm Hx) as (y & Ey & Dy). rewrite Ey, E in *. cbn [bind] in *. auto.
  Qed.
  Lemma reorder_shift_out : forall m i s, ok m -> inv m -> dim N s -> t_inv ta m = Ok i ->
    exists s', t_apply ta i s = Ok s' /\ dim N s' /\
    forall x, dim N x -> (let! y := t_apply ta m x in t_apply S s y) =! (let! y := t_apply S s' x in t_apply ta m y).
  Proof.
    intros m i s Hm Im Hs Ei. destruct (act_inv H _ Hm Im) as (i' & E' & Oi & _ & D). rewrite Ei in E'. apply Ok_inj in E'. subst i'.
    destruct (act_apply H _ _ Oi Hs) as (s' & Es & Ds). exists s'. split; auto. split; auto.
    assert (Ms : t_apply ta m s' = Ok s). { destruct (D s Hs) as (_ & Q). rewrite Es in Q. exact Q. }
    intros x Hx. cbn [t_apply shift_transform]. destruct (Lin Hm Hx Ds) as (z & Z1 & Z2). rewrite Z1. exists z. split; auto.
    rewrite Ms in Z2. destruct (act_apply H _ _ Hm Hx) as (y & Ey & Dy). rewrite Ey in *. cbn [bind] in *. auto.
  Qed.
End ReorderGeneric.

Definition both {A : Type} (p q : A -> Prop) (a : A) : Prop := p a /\ q a.
Lemma acts_restrict : forall P A (t : Transform P A) pt ok inv, Acts t pt ok inv -> Acts t pt (both ok inv) inv.
Proof.
  intros P A t pt ok inv H. constructor.
  - intros a x (Ha & _) Hx. apply (act_apply H); auto.
  - destruct (act_identity H) as (e & E1 & E2 & E3 & E4). exists e. repeat split; auto.
  - intros a b (Ha & Ia) (Hb & Ib). destruct (act_chain H _ _ Ha Hb) as (c & E1 & E2 & E3 & E4). exists c. repeat split; auto.
  - intros a (Ha & Ia) _. destruct (act_inv H _ Ha Ia) as (i & E1 & E2 & E3 & E4). exists i. repeat split; auto; apply E4; auto.
Qed.

Section C65.
  Context {T : Type} {o : Ops T} (F : Field o) (inv : T -> res T) (Hinv : inverts o inv).
  Local Notation L N := (linear_transform o N).
  Local Notation S N := (shift_transform o N).

  (** M(x + s) = M x + M s *)
  Theorem C65_linear_shift : forall N, Reorders (S N) (L N) (dim N) (dim N) any (rect N N) (nonsingular o N) (linear_shift_reorder o N).
  Proof.
    intros N m s Hm Hs.
    destruct (@reorder_shift_in _ _ o N (L N) _ _ (C57_action F N)) with (m := m) (s := s) as (s' & E & D & Q); auto.
    { intros a x y Ha Hx Hy. apply (C57_linear F (o_zero o) Ha Hx Hy). }
    exists s', m. unfold linear_shift_reorder. cbn [t_apply linear_transform] in E. rewrite E. cbn [bind]. repeat split; auto; apply Hm.
  Qed.
  Theorem C65_scale_shift : forall N, Reorders (S N) (scale_transform o inv) (dim N) (dim N) any any (nonzero o) (scale_shift_reorder o).
  Proof.
    intros N m s Hm Hs.
    destruct (@reorder_shift_in _ _ o N (scale_transform o inv) _ _ (C56_action F Hinv N)) with (m := m) (s := s) as (s' & E & D & Q); auto.
    { intros a x y _ Hx Hy. apply (scale_linear F); auto. }
    exists s', m. unfold scale_shift_reorder. cbn [t_apply scale_transform] in E. rewrite E. cbn [bind]. repeat split; auto.
  Qed.
  Theorem C65_rotation2_shift : Reorders (S 2) (rot2_transform o) (dim 2) (dim 2) any any (unit_c o) (rot2_shift_reorder o).
  Proof.
    intros m s Hm Hs.
    destruct (@reorder_shift_in _ _ o 2 (rot2_transform o) _ _ (C58_action F)) with (m := m) (s := s) as (s' & E & D & Q); auto.
    { intros a x y _ Hx Hy. apply (rot2_linear F); auto. }
    exists s', m. unfold rot2_shift_reorder. cbn [t_apply rot2_transform] in E. rewrite E. cbn [bind]. repeat split; auto.
  Qed.
  Theorem C65_rotation3_shift : Reorders (S 3) (rot3_transform o) (dim 3) (dim 3) any any (unit_q o) (rot3_shift_reorder o).
  Proof.
    intros m s Hm Hs.
    destruct (@reorder_shift_in _ _ o 3 (rot3_transform o) _ _ (C59_action F)) with (m := m) (s := s) as (s' & E & D & Q); auto.
    { intros a x y _ Hx Hy. apply (rot3_linear F); auto. }
    exists s', m. unfold rot3_shift_reorder. cbn [t_apply rot3_transform] in E. rewrite E. cbn [bind]. repeat split; auto.
  Qed.

  (** s + M x = M (M^-1 s + x): the other part must be invertible. *)
  Theorem C65_shift_linear : forall N,
    Reorders (L N) (S N) (dim N) (both (rect N N) (nonsingular o N)) (nonsingular o N) (dim N) any (shift_linear_reorder o N).
  Proof.
    intros N s m Hs (Hm & Im). destruct (act_inv (C57_action F N) _ Hm Im) as (i & Ei & _).
    destruct (@reorder_shift_out _ _ o N (L N) _ _ (C57_action F N)) with (m := m) (s := s) (i := i) as (s' & E & D & Q); auto.
    { intros a x y Ha Hx Hy. apply (C57_linear F (o_zero o) Ha Hx Hy). }
    exists m, s'. unfold shift_linear_reorder. cbn [t_apply t_inv linear_transform] in E, Ei. rewrite Ei. cbn [bind]. rewrite E. cbn [bind].
    repeat split; auto; try apply Hm.
  Qed.
  Theorem C65_shift_scale : forall N,
    Reorders (scale_transform o inv) (S N) (dim N) (both any (nonzero o)) (nonzero o) (dim N) any (shift_scale_reorder o inv).
  Proof.
    intros N s m Hs (Hm & Im). destruct (act_inv (C56_action F Hinv N) _ Hm Im) as (i & Ei & _).
    destruct (@reorder_shift_out _ _ o N (scale_transform o inv) _ _ (C56_action F Hinv N)) with (m := m) (s := s) (i := i) as (s' & E & D & Q); auto.
    { intros a x y Ha Hx Hy. apply (scale_linear F); auto. }
    exists m, s'. unfold shift_scale_reorder. cbn [t_apply t_inv scale_transform] in E, Ei. rewrite Ei. cbn [bind]. rewrite E. cbn [bind].
    repeat split; auto; try apply Hm.
  Qed.
  Theorem C65_shift_rotation2 :
    Reorders (rot2_transform o) (S 2) (dim 2) (both any (unit_c o)) (unit_c o) (dim 2) any (shift_rot2_reorder o).
  Proof.
    intros s m Hs (Hm & Im). destruct (act_inv (C58_action F) _ Hm Im) as (i & Ei & _).
    destruct (@reorder_shift_out _ _ o 2 (rot2_transform o) _ _ (C58_action F)) with (m := m) (s := s) (i := i) as (s' & E & D & Q); auto.
    { intros a x y Ha Hx Hy. apply (rot2_linear F); auto. }
    exists m, s'. unfold shift_rot2_reorder. cbn [t_apply t_inv rot2_transform] in E, Ei. rewrite Ei. cbn [bind]. rewrite E. cbn [bind].
    repeat split; auto; try apply Hm.
  Qed.
  Theorem C65_shift_rotation3 :
    Reorders (rot3_transform o) (S 3) (dim 3) (both any (unit_q o)) (unit_q o) (dim 3) any (shift_rot3_reorder o).
  Proof.
    intros s m Hs (Hm & Im). destruct (act_inv (C59_action F) _ Hm Im) as (i & Ei & _).
    destruct (@reorder_shift_out _ _ o 3 (rot3_transform o) _ _ (C59_action F)) with (m := m) (s := s) (i := i) as (s' & E & D & Q); auto.
    { intros a x y Ha Hx Hy. apply (rot3_linear F); auto. }
    exists m, s'. unfold shift_rot3_reorder. cbn [t_apply t_inv rot3_transform] in E, Ei. rewrite Ei. cbn [bind]. rewrite E. cbn [bind].
    repeat split; auto; try apply Hm.
  Qed.
End C65.

(* ------------------------------------------------------------------------- *)
(** * C66: chains                                                              *)

Definition pair_of {A B : Type} (p : A -> Prop) (q : B -> Prop) (c : A * B) : Prop := p (fst c) /\ q (snd c).

(** For any two kinds of transformations that are group actions, with a lawful [reorder] from the inner to
    the outer kind, [Chain] is a group action. *)
Theorem C66_chain : forall P A B (ta : Transform P A) (tb : Transform P B) pt okA invA okB invB rba,
  Acts ta pt okA invA -> Acts tb pt okB invB -> Reorders ta tb pt okA invA okB invB rba ->
  Acts (chain_transform ta tb rba) pt (pair_of okA okB) (pair_of invA invB).
Proof.
  intros P A B ta tb pt okA invA okB invB rba HA HB HR. constructor.
  - intros (a & b) x (Ha & Hb) Hx. cbn [fst snd t_apply chain_transform] in *.
    destruct (act_apply HB _ _ Hb Hx) as (y & Ey & Py). rewrite Ey. cbn [bind]. apply (act_apply HA); auto.
  - destruct (act_identity HA) as (e & E1 & E2 & E3 & E4). destruct (act_identity HB) as (f & F1 & F2 & F3 & F4).
    exists (e, f). cbn [t_identity t_apply chain_transform fst snd]. rewrite E1, F1. cbn [bind]. repeat split; auto.
    intros x Hx. rewrite F4 by auto. cbn [bind]. auto.
  - intros (a1 & b1) (a2 & b2) (Ha1 & Hb1) (Ha2 & Hb2). cbn [fst snd] in *.
    destruct (HR b1 a2 Hb1 Ha2) as (a' & b' & Er & Oa & Ob & Ia & Ib & D).
    destruct (act_chain HA _ _ Ha1 Oa) as (ca & Eca & Oca & Ica & Dca).
    destruct (act_chain HB _ _ Ob Hb2) as (cb & Ecb & Ocb & Icb & Dcb).
    exists (ca, cb). cbn [t_chain t_apply chain_transform fst snd]. unfold chain_chain. cbn [fst snd]. rewrite Er. cbn [bind]. rewrite Eca. cbn [bind]. rewrite Ecb.
    cbn [bind]. split; [reflexivity|]. split; [split; auto|]. split.
    + intros (I1 & I2) (I3 & I4). cbn [fst snd] in *. split; cbn [fst snd]; auto.
    + intros x Hx. cbn [fst snd].
      destruct (Dcb x Hx) as (y & Y1 & Y2). rewrite Y1. cbn [bind].
      destruct (act_apply HB _ _ Hb2 Hx) as (u & Eu & Pu). rewrite Eu in *. cbn [bind] in *.
      destruct (act_apply HB _ _ Ob Pu) as (y' & Ey & Py). rewrite Y2 in Ey. apply Ok_inj in Ey. subst y'.
      destruct (Dca y Py) as (z & Z1 & Z2). exists z. split; auto.
      destruct (D u Pu) as (v & V1 & V2). rewrite Y2 in V2. cbn [bind] in V2. rewrite V2 in Z2. cbn [bind] in Z2.
      destruct (act_apply HA _ _ Ha2 Pu) as (w & Ew & Pw). rewrite Ew in *. cbn [bind] in *. rewrite V1. cbn [bind]. auto.
  - intros (a & b) (Ha & Hb) (Ia & Ib). cbn [fst snd] in *.
    destruct (act_inv HA _ Ha Ia) as (u & Eu & Ou & Iu & Du). destruct (act_inv HB _ Hb Ib) as (i & Ei & Oi & Ii & Di).
    destruct (HR i u Oi Ou) as (a' & b' & Er & Oa & Ob & Ia' & Ib' & D).
    exists (a', b'). cbn [t_inv t_apply chain_transform]. unfold chain_inv. cbn [fst snd]. rewrite Ei. cbn [bind]. rewrite Eu. cbn [bind]. rewrite Er.
    split; [reflexivity|]. split; [split; auto|]. split; [split; auto|].
    intros x Hx. cbn [fst snd]. split.
    + destruct (act_apply HB _ _ Hb Hx) as (y & Ey & Py). rewrite Ey. cbn [bind].
      destruct (act_apply HA _ _ Ha Py) as (z & Ez & Pz). rewrite Ez. cbn [bind].
      destruct (D z Pz) as (w & W1 & W2). rewrite W2.
      destruct (Du y Py) as (Q & _). rewrite Ez in Q. cbn [bind] in Q. rewrite Q in W1. cbn [bind] in W1.
      destruct (Di x Hx) as (Q' & _). rewrite Ey in Q'. cbn [bind] in Q'. congruence.
    + destruct (D x Hx) as (w & W1 & W2). rewrite W2. cbn [bind].
      destruct (act_apply HA _ _ Ou Hx) as (y & Ey & Py). rewrite Ey in W1. cbn [bind] in W1.
      destruct (Di y Py) as (_ & Q). rewrite W1 in Q. cbn [bind] in Q. rewrite Q. cbn [bind].
      destruct (Du x Hx) as (_ & Q'). rewrite Ey in Q'. exact Q'.
Qed.

Section C66.
  Context {T : Type} {o : Ops T} (F : Field o) (inv : T -> res T) (Hinv : inverts o inv).
  Theorem C66_affine : forall N,
    Acts (affine_transform o N) (dim N) (pair_of (dim N) (rect N N)) (pair_of any (nonsingular o N)).
  Proof. intros. apply C66_chain; [apply (C55_action F)|apply (C57_action F)|apply (C65_linear_shift F)]. Qed.
  Theorem C66_rigid2 : Acts (rigid2_transform o) (dim 2) (pair_of (dim 2) any) (pair_of any (unit_c o)).
  Proof. apply C66_chain; [apply (C55_action F)|apply (C58_action F)|apply (C65_rotation2_shift F)]. Qed.
  Theorem C66_rigid3 : Acts (rigid3_transform o) (dim 3) (pair_of (dim 3) any) (pair_of any (unit_q o)).
  Proof. apply C66_chain; [apply (C55_action F)|apply (C59_action F)|apply (C65_rotation3_shift F)]. Qed.
  Theorem C66_similarity : forall N,
    Acts (shift_scale_transform o N inv) (dim N) (pair_of (dim N) any) (pair_of any (nonzero o)).
  Proof. intros. apply C66_chain; [apply (C55_action F)|apply (C56_action F Hinv)|apply (C65_scale_shift F Hinv)]. Qed.
  (** The opposite orders. *)
  Theorem C66_linear_shift : forall N,
    Acts (linear_shift_transform o N) (dim N) (pair_of (both (rect N N) (nonsingular o N)) (dim N)) (pair_of (nonsingular o N) any).
  Proof. intros. apply C66_chain; [apply acts_restrict, (C57_action F)|apply (C55_action F)|apply (C65_shift_linear F)]. Qed.
  Theorem C66_scale_shift : forall N,
    Acts (scale_shift_transform o N inv) (dim N) (pair_of (both any (nonzero o)) (dim N)) (pair_of (nonzero o) any).
  Proof. intros. apply C66_chain; [apply acts_restrict, (C56_action F Hinv)|apply (C55_action F)|apply (C65_shift_scale F Hinv)]. Qed.
  Theorem C66_rotation2_shift :
    Acts (rot2_shift_transform o) (dim 2) (pair_of (both any (unit_c o)) (dim 2)) (pair_of (unit_c o) any).
  Proof. intros. apply C66_chain; [apply acts_restrict, (C58_action F)|apply (C55_action F)|apply (C65_shift_rotation2 F)]. Qed.
  Theorem C66_rotation3_shift :
    Acts (rot3_shift_transform o) (dim 3) (pair_of (both any (unit_q o)) (dim 3)) (pair_of (unit_q o) any).
  Proof. intros. apply C66_chain; [apply acts_restrict, (C59_action F)|apply (C55_action F)|apply (C65_shift_rotation3 F)]. Qed.
End C66.

(** A shift after a faithful linear kind is faithful. *)
Section ChainFaithful.
  Context {T A : Type} {o : Ops T} (R : CRing o) (N : nat) (ta : Transform (list T) A) (ok inv : A -> Prop).
  Add Ring RCF : (CRing_theory R).
  Context (H : Acts ta (dim N) ok inv) (Fa : faithful ta (dim N) ok).
  Context (Lin : forall a x y, ok a -> dim N x -> dim N y ->
    (let! xy := v_add o N x y in t_apply ta a xy) =!
    (let! u := t_apply ta a x in let! v := t_apply ta a y in v_add o N u v)).
  Lemma add_cancel : forall x y z, dim N x -> dim N y -> dim N z -> v_add o N x y = v_add o N x z -> y = z.
  Proof.
    intros x y z Hx Hy Hz E. destr_dim. asfun o. rewrite !(v_add_vk R) in E. apply Ok_inj in E. apply vk_ext. intros i Hi.
    apply (f_equal (fun v => vget o v i)) in E. rewrite !vget_vk in E by auto. apply (r_add_cancel_l R) in E. auto.
  Qed.
  Lemma linear_zero : forall a, ok a -> t_apply ta a (vk N (fun _ => o_zero o)) = Ok (vk N (fun _ => o_zero o)).
  Proof.
    intros a Ha. set (z := vk N (fun _ => o_zero o)). assert (Dz : dim N z) by apply dim_vk.
    destruct (act_apply H _ _ Ha Dz) as (y & Ey & Dy).
    assert (Az : forall v, dim N v -> v_add o N v z = Ok v).
    { intros v Hv. destr_dim. unfold z. asfun o. rewrite (v_add_vk R). f_equal. apply vk_ext. intros. ring. }
    destruct (Lin Ha Dz Dz) as (w & W1 & W2). rewrite (Az z Dz) in W1. cbn [bind] in W1. rewrite Ey in *. cbn [bind] in W2.
    apply Ok_inj in W1. subst w. f_equal. apply (@add_cancel y y z); auto. rewrite W2, Az; auto.
  Qed.
  Lemma chain_faithful : forall r, faithful (chain_transform (shift_transform o N) ta r) (dim N) (pair_of (dim N) ok).
  Proof.
    intros r (s1 & a1) (s2 & a2) (D1 & O1) (D2 & O2) E. cbn [fst snd t_apply chain_transform shift_transform] in *.
    pose proof (E _ (dim_vk N (fun _ => o_zero o))) as E0. rewrite !linear_zero in E0 by auto. cbn [bind] in E0.
    apply add_cancel in E0; auto using dim_vk. subst s2. f_equal. apply Fa; auto. intros x Hx. specialize (E x Hx).
    destruct (act_apply H _ _ O1 Hx) as (y1 & E1 & P1). destruct (act_apply H _ _ O2 Hx) as (y2 & E2 & P2).
    rewrite E1, E2 in *. cbn [bind] in E. f_equal. apply (@add_cancel s1 y1 y2); auto.
    rewrite (@add_comm_v _ o R N s1 y1), (@add_comm_v _ o R N s1 y2); auto.
  Qed.
End ChainFaithful.

Section C66g.
  Context {T : Type} {o : Ops T} (F : Field o) (inv : T -> res T) (Hinv : inverts o inv).
  Add Field R66 : (Field_theory F).
  Theorem C66_affine_group : forall N, Group (affine_transform o N) (pair_of (dim N) (rect N N)) (pair_of any (nonsingular o N)).
  Proof.
    intros N. eapply faithful_group; [apply (C66_affine F)|]. unfold affine_transform.
    eapply (chain_faithful F); [apply (C57_action F)|apply (linear_faithful F)|].
    intros. apply (C57_linear F (o_zero o)); auto.
  Qed.
  Theorem C66_rigid2_group : Group (rigid2_transform o) (pair_of (dim 2) any) (pair_of any (unit_c o)).
  Proof.
    eapply faithful_group; [apply (C66_rigid2 F)|]. unfold rigid2_transform.
    eapply (chain_faithful F); [apply (C58_action F)| |intros; apply (rot2_linear F); auto].
    intros a b _ _ H. specialize (H [o_one o; o_zero o] eq_refl). comps. rewrite !(rot2_apply_v F) in H. injection H as H1 H2.
    f_equal.
    - transitivity (r_sub F (r_mul F (o_one o) c0) (r_mul F (o_zero o) s0)); [ring|]. rewrite H1. ring.
    - transitivity (r_add F (r_mul F (o_one o) s0) (r_mul F (o_zero o) c0)); [ring|]. rewrite H2. ring.
  Qed.
  Theorem C66_similarity_group : forall N, 0 < N ->
    Group (shift_scale_transform o N inv) (pair_of (dim N) any) (pair_of any (nonzero o)).
  Proof.
    intros N HN. eapply faithful_group; [apply (C66_similarity F Hinv)|]. unfold shift_scale_transform.
    eapply (chain_faithful F); [apply (C56_action F Hinv)| |intros; apply (scale_linear F); auto].
    intros a b _ _ H. specialize (H (vk N (fun _ => o_one o)) (dim_vk _ _)). cbn [t_apply scale_transform] in H.
    rewrite !(v_smul_vk F) in H. apply Ok_inj in H. apply (f_equal (fun v => vget o v 0)) in H. rewrite !vget_vk in H by auto.
    rewrite !(r_mul_1_l F) in H. auto.
  Qed.
  (** Rotations in space are not determined by their action ([q] and [-q]); the laws hold nevertheless. *)
  Theorem C66_rigid3_group : Group (rigid3_transform o) (pair_of (dim 3) any) (pair_of any (unit_q o)).
  Proof.
    constructor.
    - intros (s1 & q1) (s2 & q2) (s3 & q3) (D1 & _) (D2 & _) (D3 & _). cbn [fst snd] in *.
      unfold rigid3_transform. cbn [t_chain chain_transform]. unfold chain_chain, rot3_shift_reorder, chain_new. comps.
      cbn [fst snd t_chain rot3_transform shift_transform].
      repeat (first [rewrite (rot3_apply_v F : forall w i j k x y z, rot3_apply o _ _ = _)|rewrite (v_add_3 F)|rewrite (q_mul_v F)]; cbn [bind fst snd qw qx qy qz]).
      eexists. split; [reflexivity|]. unfold chain_new. f_equal. f_equal; [listeq; ring|f_equal; ring].
    - intros (s & q) (D & _). cbn [fst snd] in *. unfold rigid3_transform. cbn [t_chain t_identity chain_transform].
      unfold chain_chain, rot3_shift_reorder. comps. cbn [fst snd t_chain t_identity rot3_transform shift_transform].
      change (v_zero o 3) with (Ok [o_zero o; o_zero o; o_zero o]).
      change (q_one o) with (Ok (Qt (o_one o) (o_zero o) (o_zero o) (o_zero o))). unfold chain_new. cbn [bind fst snd].
      split; repeat (first [rewrite (rot3_apply_v F : forall w i j k x y z, rot3_apply o _ _ = _)|rewrite (v_add_3 F)|rewrite (q_mul_v F)]; cbn [bind fst snd qw qx qy qz]);
        f_equal; (f_equal; [listeq; ring|f_equal; ring]).
    - intros (s & q) (D & _) (_ & U). cbn [fst snd] in *. rewrite (unit_q_v F) in U. unfold rigid3_transform. cbn [t_chain t_identity t_inv chain_transform].
      unfold chain_chain, chain_inv, rot3_shift_reorder. comps. cbn [fst snd t_chain t_inv t_identity rot3_transform shift_transform].
      change (v_zero o 3) with (Ok [o_zero o; o_zero o; o_zero o]).
      change (q_one o) with (Ok (Qt (o_one o) (o_zero o) (o_zero o) (o_zero o))). unfold chain_new. cbn [bind fst snd].
      rewrite (q_conj_v F). cbn [bind qw qx qy qz]. rewrite (v_neg_3 F). cbn [bind].
      set (n := r_add F (r_add F (r_add F (r_mul F w w) (r_mul F i i)) (r_mul F j j)) (r_mul F k k)) in U.
      split; repeat (first [rewrite (rot3_apply_v F : forall w i j k x y z, rot3_apply o _ _ = _)|rewrite (v_add_3 F)|rewrite (q_mul_v F)]; cbn [bind fst snd qw qx qy qz]).
      + eexists. split; [reflexivity|]. f_equal. f_equal; [listeq; ring|f_equal; rewrite <- ?U; unfold n; ring].
      + eexists. split; [reflexivity|]. f_equal. f_equal; [listeq|f_equal; rewrite <- ?U; unfold n; ring].
        * transitivity (r_sub F x (r_mul F x (r_mul F n n))); [rewrite U; ring|unfold n; ring].
        * transitivity (r_sub F x0 (r_mul F x0 (r_mul F n n))); [rewrite U; ring|unfold n; ring].
        * transitivity (r_sub F x1 (r_mul F x1 (r_mul F n n))); [rewrite U; ring|unfold n; ring].
  Qed.
  (** The formulas of affine maps. *)
  Theorem C66_affine_formulas : forall N s m s' m', dim N s -> rect N N m -> dim N s' -> rect N N m' ->
    (forall x, dim N x -> t_apply (affine_transform o N) (s, m) x =! (let! y := m_dot_v o N N m x in v_add o N y s)) /\
    t_chain (affine_transform o N) (s, m) (s', m') =!
      (let! ms := m_dot_v o N N m s' in let! t := v_add o N s ms in let! p := m_dot o N N N m m' in Ok (t, p)).
  Proof.
    intros N s m s' m' Ds Rm Ds' Rm'.
    assert (R : forall A (r s : res A), r = s -> returns s -> r =! s) by (intros A r s0 -> (z & E); exists z; auto).
    destruct (linear_apply_ok F Rm Ds') as (y & Ey & Py). cbn [t_apply linear_transform] in Ey.
    split.
    - intros x Hx. apply R; [reflexivity|]. destruct (linear_apply_ok F Rm Hx) as (z & Ez & Pz). cbn [t_apply linear_transform] in Ez.
      rewrite Ez. cbn [bind]. destruct (@add_dim _ o F N z s Pz Ds) as (u & Eu & _). exists u. auto.
    - apply R.
      + unfold affine_transform, chain_transform, chain_chain, linear_shift_reorder. cbn [t_chain fst snd shift_transform linear_transform].
        rewrite Ey. reflexivity.
      + rewrite Ey. cbn [bind]. destruct (@add_dim _ o F N s y Ds Py) as (u & Eu & _). rewrite Eu. cbn [bind].
        destruct (linear_chain_ok F Rm Rm') as (c & Ec & _). cbn [t_chain linear_transform] in Ec. rewrite Ec. eexists. reflexivity.
  Qed.
End C66g.

(* ------------------------------------------------------------------------- *)
(** * C67: derivatives                                                         *)

Section C67.
  Context {T : Type} {o : Ops T} (R : CRing o).
  Add Ring R67 : (CRing_theory R).

  Theorem C67_shift : forall N, exact_derivative o N (shift_transform o N) (dim N).
  Proof.
    intros N a x d Ha Hx Hd. exists d. split; [reflexivity|]. split; auto. unfold dim in Ha.
    cbn [t_apply shift_transform]. asfun o. ops R. same. apply vk_ext. intros. ring.
  Qed.
  Theorem C67_scale : forall N inv, exact_derivative o N (scale_transform o inv) any.
  Proof.
    intros N inv a x d _ Hx Hd. cbn [t_deriv t_apply scale_transform]. asfun o. ops R. eexists. split; [reflexivity|].
    split; [apply vk_length|]. ops R. same. apply vk_ext. intros. ring.
  Qed.
  Theorem C67_linear : forall N, exact_derivative o N (linear_transform o N) (rect N N).
  Proof.
    intros N a x d Ha Hx Hd. destruct (linear_apply_ok R Ha Hd) as (e & Ee & De). exists e.
    cbn [t_deriv linear_transform]. split; [exact Ee|]. split; [exact De|].
    destruct (C57_linear R (o_zero o) Ha Hx Hd) as ((z & Z1 & Z2) & _). exists z. split; [exact Z1|].
    rewrite Ee in Z2. destruct (linear_apply_ok R Ha Hx) as (y & Ey & _). rewrite Ey in *. exact Z2.
  Qed.
  Theorem C67_rotation2 : exact_derivative o 2 (rot2_transform o) any.
  Proof.
    intros a x d _ Hx Hd. destruct (rot2_linear R a Hx Hd) as (z & Z1 & Z2).
    destruct (act_apply (C58_action R) a x I Hx) as (y & Ey & _). destruct (act_apply (C58_action R) a d I Hd) as (e & Ee & De).
    exists e. split; [exact Ee|]. split; [exact De|]. exists z. split; [exact Z1|]. rewrite Ey, Ee in *. exact Z2.
  Qed.
  Theorem C67_rotation3 : exact_derivative o 3 (rot3_transform o) any.
  Proof.
    intros a x d _ Hx Hd. destruct (rot3_linear R a Hx Hd) as (z & Z1 & Z2).
    destruct (act_apply (C59_action R) a x I Hx) as (y & Ey & _). destruct (act_apply (C59_action R) a d I Hd) as (e & Ee & De).
    exists e. split; [exact Ee|]. split; [exact De|]. exists z. split; [exact Z1|]. rewrite Ey, Ee in *. exact Z2.
  Qed.

  (** [Chain]: if [deriv] is exact for both parts it is exact for the chain. *)
  Theorem C67_chain : forall A B (ta : Transform (list T) A) (tb : Transform (list T) B) okA invA okB invB rba N,
    Acts ta (dim N) okA invA -> Acts tb (dim N) okB invB ->
    exact_derivative o N ta okA -> exact_derivative o N tb okB ->
    exact_derivative o N (chain_transform ta tb rba) (pair_of okA okB).
  Proof.
    intros A B ta tb okA invA okB invB rba N HA HB DA DB (a & b) x d (Ha & Hb) Hx Hd. cbn [fst snd] in *.
    cbn [t_deriv t_apply chain_transform fst snd].
    destruct (act_apply HB b x Hb Hx) as (y & Ey & Py). destruct (DB b x d Hb Hx Hd) as (e & Ee & De & z & Z1 & Z2).
    destruct (DA a y e Ha Py De) as (e' & Ee' & De' & z' & Z1' & Z2').
    exists e'. rewrite Ey, Ee in *. cbn [bind] in *. split; auto. split; auto. exists z'.
    split; auto. rewrite Z2 in Z1'. cbn [bind] in Z1'.
    destruct (@add_dim _ o R N x d Hx Hd) as (xd & Exd & _). rewrite Exd in *. cbn [bind] in *. rewrite Z1. cbn [bind]. auto.
  Qed.
  (** The chain rule for the composition of two transformations of the same kind. *)
  Theorem C67_chain_rule : forall A (ta : Transform (list T) A) ok inv N,
    Acts ta (dim N) ok inv -> exact_derivative o N ta ok ->
    forall a b c x d, ok a -> ok b -> dim N x -> dim N d -> t_chain ta a b = Ok c ->
    t_deriv ta c x d =! (let! y := t_apply ta b x in let! e := t_deriv ta b x d in t_deriv ta a y e).
  Proof.
    intros A ta ok inv N HA DA a b c x d Ha Hb Hx Hd Ec.
    destruct (act_chain HA a b Ha Hb) as (c' & Ec' & Oc & _ & Dc). rewrite Ec in Ec'. apply Ok_inj in Ec'. subst c'.
    destruct (act_apply HA b x Hb Hx) as (y & Ey & Py). destruct (DA b x d Hb Hx Hd) as (e & Ee & De & z & Z1 & Z2).
    destruct (DA a y e Ha Py De) as (e' & Ee' & De' & z' & Z1' & Z2').
    destruct (DA c x d Oc Hx Hd) as (f & Ef & Df & u & U1 & U2).
    rewrite Ey, Ee. cbn [bind]. exists f. split; auto. rewrite Ee'. f_equal.
    destruct (act_apply HA a y Ha Py) as (w & Ew & Pw).
    destruct (Dc x Hx) as (w' & W1 & W2). rewrite Ey in W2. cbn [bind] in W2. rewrite Ew in W2. apply Ok_inj in W2. subst w'.
    rewrite W1 in U2. rewrite Ew in Z2'. cbn [bind] in U2, Z2'.
    apply (@add_cancel _ o R N w e' f); auto. rewrite U2, Z2'. f_equal.
    destruct (@add_dim _ o R N x d Hx Hd) as (xd & Exd & Pxd). rewrite Exd in *. cbn [bind] in *.
    destruct (Dc xd Pxd) as (s & S1 & S2). rewrite Z1 in S2. cbn [bind] in S2. rewrite S1 in U1. apply Ok_inj in U1. subst s.
    rewrite Ey in Z2. cbn [bind] in Z2. rewrite Z2 in Z1'. cbn [bind] in Z1'. congruence.
  Qed.
End C67.

Theorem C67_affine : forall T (o : Ops T) (F : Field o) N,
  exact_derivative o N (affine_transform o N) (pair_of (dim N) (rect N N)).
Proof.
  intros. eapply (C67_chain F); [apply (C55_action F)|apply (C57_action F)|apply (C67_shift F)|apply (C67_linear F)].
Qed.
Theorem C67_rigid : forall T (o : Ops T) (F : Field o),
  exact_derivative o 2 (rigid2_transform o) (pair_of (dim 2) any) /\
  exact_derivative o 3 (rigid3_transform o) (pair_of (dim 3) any).
Proof.
  intros. split; eapply (C67_chain F);
    [apply (C55_action F)|apply (C58_action F)|apply (C67_shift F)|apply (C67_rotation2 F)
    |apply (C55_action F)|apply (C59_action F)|apply (C67_shift F)|apply (C67_rotation3 F)].
Qed.

(* ------------------------------------------------------------------------- *)
(** * Examples                                                                 *)

Example C57_ex : rect 2 2 [[2; 1]; [1; 1]]%Z /\ m_det z_ops 2 [[2; 1]; [1; 1]]%Z = Ok 1%Z /\
  t_apply (linear_transform z_ops 2) [[2; 1]; [1; 1]]%Z [3; 4]%Z = Ok [10; 7]%Z.
Proof. repeat split; repeat constructor. Qed.
(** Reciprocals of rationals: [Inv::inv] of a type with exact division. *)
Example C56_ex : inverts qc_ops (fun k => o_div qc_ops (o_one qc_ops) k).
Proof.
  intros k H. exists (Qcanon.Qcmult (o_one qc_ops) (Qcanon.Qcinv k)). split.
  - exact (f_div_ok qc_field (o_one qc_ops) H).
  - change (Ok (Qcanon.Qcmult (Qcanon.Qcmult (o_one qc_ops) (Qcanon.Qcinv k)) k) = Ok (o_one qc_ops)).
    rewrite Qcanon.Qcmult_1_l, Qcanon.Qcmult_inv_l; auto.
Qed.
Example C65_ex : linear_shift_reorder z_ops 2 [[2; 1]; [1; 1]]%Z [5; -1]%Z = Ok ([9; 4], [[2; 1]; [1; 1]])%Z.
Proof. reflexivity. Qed.
(** A non-trivial invertible affine map, a composition, and its inverse. *)
Example C66_ex :
  pair_of (dim 2) (rect 2 2) ([5; -1], [[2; 1]; [1; 1]])%Z /\
  t_chain (affine_transform z_ops 2) ([5; -1], [[2; 1]; [1; 1]])%Z ([1; 0], [[0; 1]; [-1; 0]])%Z
    = Ok ([7; 0], [[-1; 2]; [-1; 1]])%Z /\
  t_inv (affine_transform z_ops 2) ([5; -1], [[2; 1]; [1; 1]])%Z = Ok ([-6; 7], [[1; -1]; [-1; 2]])%Z /\
  t_apply (affine_transform z_ops 2) ([5; -1], [[2; 1]; [1; 1]])%Z [1; 1]%Z = Ok [8; 1]%Z.
Proof. repeat split; repeat constructor. Qed.
Example C66_rational_ex : nonsingular qc_ops 2 [[qcz 2; qcz 1]; [qcz 1; qcz 3]].
Proof. exists (qcz 5). split; [vm_compute; f_equal; apply Qcanon.Qc_is_canon; reflexivity|discriminate]. Qed.
Example C67_ex : t_deriv (affine_transform z_ops 2) ([5; -1], [[2; 1]; [1; 1]])%Z [1; 1]%Z [0; 3]%Z = Ok [3; 3]%Z.
Proof. reflexivity. Qed.

Print Assumptions C65_linear_shift.
Print Assumptions C65_scale_shift.
Print Assumptions C65_rotation2_shift.
Print Assumptions C65_rotation3_shift.
Print Assumptions C65_shift_linear.
Print Assumptions C65_shift_scale.
Print Assumptions C65_shift_rotation2.
Print Assumptions C65_shift_rotation3.
Print Assumptions C66_chain.
Print Assumptions C66_affine.
Print Assumptions C66_rigid2.
Print Assumptions C66_rigid3.
Print Assumptions C66_similarity.
Print Assumptions C66_linear_shift.
Print Assumptions C66_scale_shift.
Print Assumptions C66_rotation2_shift.
Print Assumptions C66_rotation3_shift.
Print Assumptions C66_affine_group.
Print Assumptions C66_rigid2_group.
Print Assumptions C66_similarity_group.
Print Assumptions C66_rigid3_group.
Print Assumptions C66_affine_formulas.
Print Assumptions C67_shift.
Print Assumptions C67_scale.
Print Assumptions C67_linear.
Print Assumptions C67_rotation2.
Print Assumptions C67_rotation3.
Print Assumptions C67_chain.
Print Assumptions C67_chain_rule.
Print Assumptions C67_affine.
Print Assumptions C67_rigid.
