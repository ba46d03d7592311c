(** Properties C55 - C59: shifts, scalings, linear maps and rotations are group actions. *)
From Coq Require Import ZArith Ring Field ZifyBool.
From Verif Require Import SpecTransform SpecFacts MFacts AlgFacts CxFacts PropAlgebra PropSquare Instances.
Set Implicit Arguments.
Local Open Scope nat_scope.
Local Open Scope list_scope.

Lemma dim_vk : forall T N (f : nat -> T), dim N (vk N f).
Proof. intros. apply vk_length. Qed.
Ltac destr_dim := repeat match goal with
  | H : dim _ _ |- _ => unfold dim in H
  end.

(* ------------------------------------------------------------------------- *)
(** * C55: Shift                                                               *)

Section C55.
  Context {T : Type} {o : Ops T} (R : CRing o).
  Add Ring R55 : (CRing_theory R).

  Theorem C55_action : forall N, Acts (shift_transform o N) (dim N) (dim N) any.
  Proof.
    intros N. constructor.
    - intros a x Ha Hx. destr_dim. asfun o. cbn [t_apply shift_transform]. ops R. eexists. split; [reflexivity|apply dim_vk].
    - cbn [t_identity t_apply shift_transform]. rewrite v_zero_vk. eexists. split; [reflexivity|]. split; [apply dim_vk|]. split; [exact I|].
      intros x Hx. destr_dim. asfun o. ops R. f_equal. apply vk_ext. intros. ring.
    - intros a b Ha Hb. destr_dim. asfun o. cbn [t_chain t_apply shift_transform]. ops R.
      eexists. split; [reflexivity|]. split; [apply dim_vk|]. split; [intros; exact I|].
      intros x Hx. destr_dim. asfun o. ops R. same. apply vk_ext. intros. ring.
    - intros a Ha _. destr_dim. asfun o. cbn [t_inv t_apply shift_transform]. ops R.
      eexists. split; [reflexivity|]. split; [apply dim_vk|]. split; [exact I|].
      intros x Hx. destr_dim. asfun o. split; ops R; f_equal; apply vk_ext; intros; ring.
  Qed.
  Theorem C55_group : forall N, Group (shift_transform o N) (dim N) any.
  Proof.
    intros N. constructor; unfold dim, any; cbn [t_chain t_identity t_inv shift_transform]; intros; asfun o; rewrite ?v_zero_vk.
    - ops R. same. apply vk_ext. intros. ring.
    - split; ops R; f_equal; apply vk_ext; intros; ring.
    - split; ops R; same; apply vk_ext; intros; ring.
  Qed.
End C55.

(* ------------------------------------------------------------------------- *)
(** * C56: Scale                                                               *)

(** What is assumed of [num_traits::Inv::inv] of the scalar. *)
Definition inverts {T : Type} (o : Ops T) (inv : T -> res T) : Prop :=
  forall k, k <> o_zero o -> exists i, inv k = Ok i /\ o_mul o i k = Ok (o_one o).
Definition nonzero {T : Type} (o : Ops T) (k : T) : Prop := k <> o_zero o.

Section C56.
  Context {T : Type} {o : Ops T} (F : Field o) (inv : T -> res T) (Hinv : inverts o inv).
  Add Field R56 : (Field_theory F).

  Lemma inverts_v : forall k, k <> o_zero o -> inv k = Ok (f_inv F k).
  Proof.
    intros k H. destruct (Hinv H) as (i & E & P). rewrite E. f_equal. rewrite (r_mul_ok F) in P. apply Ok_inj in P.
    transitivity (r_mul F (r_mul F i k) (f_inv F k)). { field. auto. } rewrite P. ring.
  Qed.
  Lemma f_inv_nz : forall k, k <> o_zero o -> f_inv F k <> o_zero o.
  Proof.
    intros k H E. apply (f_one_neq_zero F). rewrite <- (f_inv_l F H), E. ring.
  Qed.
  Lemma f_mul_nz : forall x y, x <> o_zero o -> y <> o_zero o -> r_mul F x y <> o_zero o.
  Proof.
    intros x y Hx Hy E. apply Hx. transitivity (r_mul F (r_mul F x y) (f_inv F y)). { field. auto. } rewrite E. ring.
  Qed.

  Theorem C56_action : forall N, Acts (scale_transform o inv) (dim N) any (nonzero o).
  Proof.
    intros N. constructor.
    - intros a x Ha Hx. destr_dim. asfun o. cbn [t_apply scale_transform]. ops F. eexists. split; [reflexivity|apply dim_vk].
    - cbn [t_identity t_apply scale_transform]. eexists. split; [reflexivity|]. split; [exact I|].
      split; [apply (f_one_neq_zero F)|].
      intros x Hx. destr_dim. asfun o. ops F. f_equal. apply vk_ext. intros. ring.
    - intros a b _ _. cbn [t_chain t_apply scale_transform]. rewrite (r_mul_ok F).
      eexists. split; [reflexivity|]. split; [exact I|]. split; [apply f_mul_nz|].
      intros x Hx. destr_dim. asfun o. ops F. same. apply vk_ext. intros. ring.
    - intros a _ Ha. cbn [t_inv t_apply scale_transform]. rewrite inverts_v by exact Ha.
      eexists. split; [reflexivity|]. split; [exact I|]. split; [apply f_inv_nz; exact Ha|].
      intros x Hx. destr_dim. asfun o. split; ops F; f_equal; apply vk_ext; intros; field; exact Ha.
  Qed.
  Theorem C56_group : Group (scale_transform o inv) any (nonzero o).
  Proof.
    constructor; unfold any; cbn [t_chain t_identity t_inv scale_transform]; intros.
    - rewrite !(r_mul_ok F). cbn [bind]. rewrite !(r_mul_ok F). same. ring.
    - cbn [bind]. rewrite !(r_mul_ok F). split; f_equal; ring.
    - rewrite inverts_v by auto. cbn [bind]. rewrite !(r_mul_ok F). split; same; field; auto.
  Qed.
End C56.

(* ------------------------------------------------------------------------- *)
(** * C57: Linear                                                              *)

(** The linear part: [M (x + y) = M x + M y], [M (s x) = s (M x)]. *)
Section C57.
  Context {T : Type} {o : Ops T} (R : CRing o).
  Add Ring R57 : (CRing_theory R).
  Local Notation L N := (linear_transform o N).

  Lemma dim0 : forall (v : list T), dim 0 v -> v = [].
  Proof. intros [|? ?] H; [auto|discriminate]. Qed.
  Lemma linear_apply_ok : forall N a x, rect N N a -> dim N x -> exists y, t_apply (L N) a x = Ok y /\ dim N y.
  Proof.
    intros N a x Ha Hx. cbn [t_apply linear_transform]. destruct N as [|n].
    - apply rect_0 in Ha. apply dim0 in Hx. subst. exists []. split; reflexivity.
    - destr_dim. asfun o. rewrite (m_dot_v_mk R) by lia. eexists. split; [reflexivity|apply dim_vk].
  Qed.
  Lemma linear_chain_ok : forall N a b, rect N N a -> rect N N b ->
    exists c, t_chain (L N) a b = Ok c /\ rect N N c /\
      forall x, dim N x -> t_apply (L N) c x =! (let! y := t_apply (L N) b x in t_apply (L N) a y).
  Proof.
    intros N a b Ha Hb. cbn [t_apply t_chain linear_transform]. destruct N as [|n].
    - apply rect_0 in Ha, Hb. subst. exists []. split; [reflexivity|]. split; [split; [reflexivity|constructor]|].
      intros x Hx. apply dim0 in Hx. subst. exists []. split; reflexivity.
    - asfun o. rewrite (m_dot_mk R) by lia. eexists. split; [reflexivity|]. split; [apply rect_mk|].
      intros x Hx. destr_dim. asfun o. rewrite !(m_dot_v_mk R) by lia. cbn [bind]. rewrite !(m_dot_v_mk R) by lia.
      same. apply vk_ext. intros i Hi. symmetry.
      rewrite (@bigsum_ext _ _ R (S n) _ (fun k => bigsum R (S n) (fun j => r_mul R (f0 i j) (r_mul R (f j k) (f1 k))))).
      + rewrite bigsum_swap. apply bigsum_ext. intros. rewrite <- bigsum_mul_l. auto.
      + intros. rewrite <- bigsum_mul_r. apply bigsum_ext. intros. ring.
  Qed.
  Lemma linear_identity_ok : forall N, exists e, t_identity (L N) = Ok e /\ rect N N e /\ m_det o N e = Ok (o_one o) /\
    forall x, dim N x -> t_apply (L N) e x = Ok x.
  Proof.
    intros N. cbn [t_identity t_apply linear_transform]. pose proof (C31_one R N) as D. rewrite m_one_mk in *. cbn [bind] in D.
    eexists. split; [reflexivity|]. split; [apply rect_mk|]. split; [exact D|].
    intros x Hx. destruct N as [|n]. { apply dim0 in Hx. subst. reflexivity. }
    destr_dim. asfun o. rewrite (m_dot_v_mk R) by lia. f_equal. apply vk_ext. intros i Hi.
    rewrite (@bigsum_ext _ _ R (S n) _ (fun k => if k =? i then f k else o_zero o)).
    - apply (@bigsum_delta _ _ R (S n) i f Hi).
    - intros k Hk. destruct (k =? i) eqn:E; [replace (i =? k) with true by lia|replace (i =? k) with false by lia]; ring.
  Qed.

  (** Over any commutative ring, without inverses. *)
  Theorem C57_action_ring : forall N,
    (forall a x, rect N N a -> dim N x -> exists y, t_apply (L N) a x = Ok y /\ dim N y) /\
    (exists e, t_identity (L N) = Ok e /\ rect N N e /\ forall x, dim N x -> t_apply (L N) e x = Ok x) /\
    (forall a b, rect N N a -> rect N N b -> exists c, t_chain (L N) a b = Ok c /\ rect N N c /\
       forall x, dim N x -> t_apply (L N) c x =! (let! y := t_apply (L N) b x in t_apply (L N) a y)).
  Proof.
    intros N. split; [apply linear_apply_ok|]. split; [|apply linear_chain_ok].
    destruct (linear_identity_ok N) as (e & E1 & E2 & _ & E3). eauto.
  Qed.
  Theorem C57_linear : forall N a x y s, rect N N a -> dim N x -> dim N y ->
    (let! xy := v_add o N x y in t_apply (L N) a xy) =!
      (let! u := t_apply (L N) a x in let! v := t_apply (L N) a y in v_add o N u v) /\
    (let! sx := v_smul o x s in t_apply (L N) a sx) =! (let! u := t_apply (L N) a x in v_smul o u s).
  Proof.
    intros N a x y s Ha Hx Hy. cbn [t_apply linear_transform]. destruct N as [|n].
    { apply rect_0 in Ha. apply dim0 in Hx, Hy. subst. split; exists []; split; reflexivity. }
    destr_dim. asfun o. rewrite (v_add_vk R), (v_smul_vk R), !(m_dot_v_mk R) by lia. cbn [bind].
    rewrite (v_add_vk R), (v_smul_vk R), !(m_dot_v_mk R) by lia.
    split; same; apply vk_ext; intros i Hi.
    - rewrite <- bigsum_add. apply bigsum_ext. intros. ring.
    - rewrite <- bigsum_mul_r. apply bigsum_ext. intros. ring.
  Qed.
  (** Entry by entry: the image of the [j]-th unit vector is the [j]-th column. *)
  Theorem C57_columns : forall N a j, rect N N a -> j < N ->
    t_apply (L N) a (vk N (fun i => if i =? j then o_one o else o_zero o)) = Ok (vk N (fun i => mget o a i j)).
  Proof.
    intros N a j Ha Hj. asfun o. cbn [t_apply linear_transform]. rewrite (m_dot_v_mk R) by lia. f_equal. apply vk_ext.
    intros i Hi. rewrite mget_mk by auto.
    rewrite (@bigsum_ext _ _ R N _ (fun k => if k =? j then f i k else o_zero o)).
    - apply (@bigsum_delta _ _ R N j (f i) Hj).
    - intros k Hk. destruct (k =? j); ring.
  Qed.
End C57.

Section C57f.
  Context {T : Type} {o : Ops T} (F : Field o).
  Local Notation L N := (linear_transform o N).
  Theorem C57_action : forall N, Acts (L N) (dim N) (rect N N) (nonsingular o N).
  Proof.
    intros N. constructor.
    - apply (linear_apply_ok F).
    - destruct (linear_identity_ok F N) as (e & E1 & E2 & D & E3). exists e. repeat split; auto; try apply E2.
      exists (o_one o). split; auto. apply (f_one_neq_zero F).
    - intros a b Ha Hb. destruct (linear_chain_ok F Ha Hb) as (c & E1 & E2 & E3). exists c. repeat split; auto; try apply E2.
      intros (da & Da & Na) (db & Db & Nb). pose proof (C31_product F Ha Hb) as P.
      cbn [t_chain linear_transform] in E1. rewrite E1, Da, Db in P. cbn [bind] in P. rewrite (r_mul_ok F) in P.
      destruct P as (p & P1 & P2). exists p. split; [exact P1|]. apply Ok_inj in P2. subst p. apply f_mul_nz; auto.
    - intros a Ha (d & D & Nd). destruct (C33_inverse F Ha D Nd) as (i & Ei & Ri & (w & W1 & W2) & (u & U1 & U2)).
      exists i. cbn [t_inv linear_transform]. split; [exact Ei|]. split; [exact Ri|]. split.
      + pose proof (C33_det F Ha D Nd) as P. rewrite Ei in P. cbn [bind] in P.
        rewrite (f_div_ok F) in P by exact Nd. destruct P as (p & P1 & P2). exists p. split; [exact P1|].
        apply Ok_inj in P2. subst p. apply f_mul_nz; [apply (f_one_neq_zero F)|apply f_inv_nz; auto].
      + destruct (linear_identity_ok F N) as (e & E1 & E2 & _ & E3). cbn [t_identity linear_transform] in E1.
        rewrite E1 in W2, U2. apply Ok_inj in W2, U2. subst w u.
        intros x Hx. split.
        * destruct (linear_chain_ok F Ri Ha) as (c & C1 & _ & C2). cbn [t_chain linear_transform] in C1. rewrite U1 in C1. apply Ok_inj in C1. subst c.
          destruct (C2 x Hx) as (y & Y1 & Y2). rewrite Y2. rewrite E3 in Y1 by auto. auto.
        * destruct (linear_chain_ok F Ha Ri) as (c & C1 & _ & C2). cbn [t_chain linear_transform] in C1. rewrite W1 in C1. apply Ok_inj in C1. subst c.
          destruct (C2 x Hx) as (y & Y1 & Y2). rewrite Y2. rewrite E3 in Y1 by auto. auto.
  Qed.
End C57f.

(** A kind whose transformations are determined by what they do to points forms a group. *)
Definition faithful {P A : Type} (t : Transform P A) (pt : P -> Prop) (ok : A -> Prop) : Prop :=
  forall a b, ok a -> ok b -> (forall x, pt x -> t_apply t a x = t_apply t b x) -> a = b.

Lemma faithful_group : forall P A (t : Transform P A) pt ok inv,
  Acts t pt ok inv -> faithful t pt ok -> Group t ok inv.
Proof.
  intros P A t pt ok inv H Fa.
  assert (C : forall a b c x, ok a -> ok b -> pt x -> t_chain t a b = Ok c ->
    t_apply t c x = (let! y := t_apply t b x in t_apply t a y)).
  { intros a b c x Ha Hb Hx E. destruct (act_chain H _ _ Ha Hb) as (c' & E' & _ & _ & D). rewrite E in E'. apply Ok_inj in E'. subst c'.
    destruct (D x Hx) as (z & Z1 & Z2). congruence. }
  destruct (act_identity H) as (e & Ee & Oe & Ie & De).
  constructor.
  - intros a b c Ha Hb Hc.
    destruct (act_chain H _ _ Ha Hb) as (ab & Eab & Oab & _ & _). destruct (act_chain H _ _ Hb Hc) as (bc & Ebc & Obc & _ & _).
    rewrite Eab, Ebc. cbn [bind].
    destruct (act_chain H _ _ Oab Hc) as (l & El & Ol & _ & _). destruct (act_chain H _ _ Ha Obc) as (r & Er & Or & _ & _).
    rewrite El, Er. exists l. split; auto. f_equal. apply Fa; auto. intros x Hx.
    rewrite (C a bc r x), (C ab c l x) by auto. rewrite (C b c bc x) by auto.
    destruct (act_apply H _ _ Hc Hx) as (y & Ey & Py). rewrite Ey. cbn [bind].
    rewrite (C a b ab y) by auto. destruct (act_apply H _ _ Hb Py) as (z & Ez & Pz). rewrite Ez. reflexivity.
  - intros a Ha. rewrite Ee. cbn [bind]. destruct (act_chain H _ _ Oe Ha) as (l & El & Ol & _ & _). destruct (act_chain H _ _ Ha Oe) as (r & Er & Or & _ & _).
    rewrite El, Er. split; f_equal; apply Fa; auto; intros x Hx.
    + rewrite (C e a l x) by auto. destruct (act_apply H _ _ Ha Hx) as (y & Ey & Py). rewrite Ey. cbn [bind]. auto.
    + rewrite (C a e r x) by auto. rewrite De by auto. reflexivity.
  - intros a Ha Ia. destruct (act_inv H _ Ha Ia) as (i & Ei & Oi & Ii & Di). rewrite Ei, Ee. cbn [bind].
    destruct (act_chain H _ _ Oi Ha) as (l & El & Ol & _ & _). destruct (act_chain H _ _ Ha Oi) as (r & Er & Or & _ & _).
    rewrite El, Er. split; [exists l|exists r]; (split; [reflexivity|]); f_equal; apply Fa; auto; intros x Hx; rewrite De by auto; symmetry.
    + rewrite (C i a l x) by auto. apply Di. auto.
    + rewrite (C a i r x) by auto. apply Di. auto.
Qed.

Section Faithful.
  Context {T : Type} {o : Ops T} (R : CRing o).
  Lemma linear_faithful : forall N, faithful (linear_transform o N) (dim N) (rect N N).
  Proof.
    intros N a b Ha Hb H. destruct (mk_ex o Ha) as (f & ->). destruct (mk_ex o Hb) as (g & ->).
    apply mk_ext. intros i j Hi Hj.
    specialize (H (vk N (fun i => if i =? j then o_one o else o_zero o)) (dim_vk _ _)).
    rewrite !(C57_columns R) in H by auto. apply Ok_inj in H.
    apply (f_equal (fun v => vget o v i)) in H. rewrite !vget_vk in H by auto. rewrite !mget_mk in H by auto. auto.
  Qed.
  Lemma shift_faithful : forall N, faithful (shift_transform o N) (dim N) (dim N).
  Proof.
    intros N a b Ha Hb H. unfold dim in *. asfun o. specialize (H (vk N (fun _ => o_zero o)) (vk_length _ _)).
    cbn [t_apply shift_transform] in H. rewrite !(v_add_vk R) in H. apply Ok_inj in H. apply vk_ext. intros i Hi.
    apply (f_equal (fun v => vget o v i)) in H. rewrite !vget_vk in H by auto. rewrite !(r_add_0_l R) in H. auto.
  Qed.
End Faithful.

Theorem C57_group : forall T (o : Ops T) (F : Field o) N, Group (linear_transform o N) (rect N N) (nonsingular o N).
Proof. intros. eapply faithful_group; [apply (C57_action F)|apply (linear_faithful F)]. Qed.

(* ------------------------------------------------------------------------- *)
(** * C58: Rotation2                                                           *)

Ltac comps := unfold dim in *; repeat match goal with
  | H : length ?v = S _ |- _ => let x := fresh "x" in destruct v as [|x v]; [discriminate H|]; cbn [length] in H; apply eq_add_S in H
  | H : length ?v = 0 |- _ => apply length_zero_iff_nil in H; subst v
  | H : 0 = 0 |- _ => clear H
  end; repeat match goal with
  | z : complex _ |- _ => let a := fresh "c" in let b := fresh "s" in destruct z as [a b]
  | z : quat _ |- _ => let a := fresh "w" in let b := fresh "i" in let c := fresh "j" in let d := fresh "k" in destruct z as [a b c d]
  end; cbn [re im qw qx qy qz] in *.

Section C58.
  Context {T : Type} {o : Ops T} (R : CRing o).
  Add Ring R58 : (CRing_theory R).
  Local Notation t := (rot2_transform o).
  Local Notation "x + y" := (r_add R x y).
  Local Notation "x * y" := (r_mul R x y).
  Local Notation "x - y" := (r_sub R x y).
  Local Notation "- x" := (r_opp R x).

  Lemma rot2_apply_v : forall c s x y, t_apply t (Cx c s) [x; y] = Ok [x * c - y * s; x * s + y * c].
  Proof.
    intros. cbn [t_apply rot2_transform]. unfold rot2_apply. change (c_from_vector [x; y]) with (Ok (Cx x y)). cbn [bind].
    rewrite (c_mul_v R). cbn [bind re im]. reflexivity.
  Qed.
  Lemma unit_c_v : forall z, unit_c o z <-> re z * re z + im z * im z = o_one o.
  Proof. intros. unfold unit_c. rewrite (c_norm_sqr_v R). split; intros H; [apply Ok_inj in H; auto|congruence]. Qed.

  (** The rotation matrix [(c, -s; s, c)]. *)
  Theorem C58_value : forall c s x y, t_apply t (Cx c s) [x; y] = Ok [x * c - y * s; x * s + y * c].
  Proof. exact rot2_apply_v. Qed.

  Theorem C58_action : Acts t (dim 2) any (unit_c o).
  Proof.
    constructor.
    - intros a x _ Hx. comps. rewrite rot2_apply_v. eexists. split; reflexivity.
    - exists (Cx (o_one o) (o_zero o)). split; [reflexivity|]. split; [exact I|]. split.
      + rewrite unit_c_v. cbn [re im]. ring.
      + intros x Hx. comps. rewrite rot2_apply_v. f_equal. listeq; ring.
    - intros a b _ _. cbn [t_chain rot2_transform]. rewrite (c_mul_v R). eexists. split; [reflexivity|]. split; [exact I|]. split.
      + rewrite !unit_c_v. comps. intros H1 H2.
        transitivity ((c * c + s * s) * (c0 * c0 + s0 * s0)). { ring. } rewrite H1, H2. ring.
      + intros x Hx. comps. rewrite !rot2_apply_v. cbn [bind]. rewrite !rot2_apply_v. same. listeq; ring.
    - intros a _ Ha. rewrite unit_c_v in Ha. cbn [t_inv rot2_transform]. rewrite (c_conj_v R). eexists. split; [reflexivity|]. split; [exact I|].
      split.
      + rewrite unit_c_v. cbn [re im]. rewrite <- Ha. ring.
      + intros v Hx. comps. rewrite !rot2_apply_v. cbn [bind]. rewrite !rot2_apply_v. split; f_equal; listeq.
        * transitivity (x * (c * c + s * s)); [ring|rewrite Ha; ring].
        * transitivity (x0 * (c * c + s * s)); [ring|rewrite Ha; ring].
        * transitivity (x * (c * c + s * s)); [ring|rewrite Ha; ring].
        * transitivity (x0 * (c * c + s * s)); [ring|rewrite Ha; ring].
  Qed.

  Theorem C58_group : Group t any (unit_c o).
  Proof.
    eapply faithful_group; [apply C58_action|]. intros a b _ _ H.
    specialize (H [o_one o; o_zero o] eq_refl). comps. rewrite !rot2_apply_v in H. injection H as H1 H2.
    f_equal.
    - transitivity (o_one o * c0 - o_zero o * s0); [ring|]. rewrite H1. ring.
    - transitivity (o_one o * s0 + o_zero o * c0); [ring|]. rewrite H2. ring.
  Qed.
  (** Lengths, angles and orientation are preserved. *)
  Theorem C58_isometry : forall r u v, unit_c o r -> dim 2 u -> dim 2 v ->
    (let! u' := t_apply t r u in let! v' := t_apply t r v in v_dot o 2 u' v') =! v_dot o 2 u v /\
    (let! u' := t_apply t r u in let! v' := t_apply t r v in v_cross2 o u' v') =! v_cross2 o u v.
  Proof.
    intros r u v H Hu Hv. rewrite unit_c_v in H. comps. rewrite !rot2_apply_v. cbn [bind].
    rewrite !(v_dot_2 R).
    assert (X : forall a b c d, v_cross2 o [a; b] [c; d] = Ok (a * d - b * c))
      by (intros a b d e; exact (proj1 (@C16_2d _ _ R [a; b] [d; e] eq_refl eq_refl))).
    rewrite !X.
    split; same.
    - transitivity ((x1 * x + x2 * x0) * (c * c + s * s)); [|ring]. rewrite H. ring.
    - transitivity ((x1 * x0 - x2 * x) * (c * c + s * s)); [|ring]. rewrite H. ring.
  Qed.
  Lemma rot2_to_linear_v : forall c s, rot2_to_linear o (Cx c s) = Ok [[c; - s]; [s; c]].
  Proof. intros. unfold rot2_to_linear. cbn -[o_neg]. rewrite (r_neg_ok R). reflexivity. Qed.
  (** [to_linear]: the same map, for every complex number, and a homomorphism. *)
  Theorem C58_to_linear : forall r x, dim 2 x ->
    (let! m := rot2_to_linear o r in t_apply (linear_transform o 2) m x) =! t_apply t r x.
  Proof.
    intros r x Hx. comps. rewrite rot2_apply_v, rot2_to_linear_v. cbn [bind t_apply linear_transform]. rewrite (m_dot_v_22 R). same. listeq; ring.
  Qed.
  Theorem C58_to_linear_chain : forall r q,
    (let! rq := t_chain t r q in rot2_to_linear o rq) =!
    (let! a := rot2_to_linear o r in let! b := rot2_to_linear o q in t_chain (linear_transform o 2) a b).
  Proof.
    intros r q. comps. cbn [t_chain rot2_transform linear_transform]. rewrite (c_mul_v R). cbn [bind].
    rewrite !rot2_to_linear_v. cbn [bind re im]. rewrite (m_dot_22 R). same. listeq; ring.
  Qed.
  (** The crate's matrix of a complex number is the matrix of the rotation. *)
  Theorem C58_to_linear_matrix : forall r, rot2_to_linear o r =! c_into_matrix o r.
  Proof.
    intros r. comps. rewrite (c_into_matrix_v R), rot2_to_linear_v. same.
  Qed.
End C58.

(** For a complex number that is not of length one, [inv] is not the inverse. *)
Theorem C58_inv_refuted : exists r x, dim 2 x /\
  (let! y := t_apply (rot2_transform z_ops) r x in
   let! i := t_inv (rot2_transform z_ops) r in t_apply (rot2_transform z_ops) i y) <> Ok x.
Proof. exists (Cx 2 0)%Z, [1; 0]%Z. split; [reflexivity|]. vm_compute. discriminate. Qed.
Example C58_ex : unit_c z_ops (Cx 0 1)%Z /\
  t_apply (rot2_transform z_ops) (Cx 0 1)%Z [2; 5]%Z = Ok [-5; 2]%Z /\
  rot2_to_linear z_ops (Cx 0 1)%Z = Ok [[0; -1]; [1; 0]]%Z.
Proof. vm_compute. auto. Qed.

(* ------------------------------------------------------------------------- *)
(** * C59: Rotation3                                                           *)

Section C59.
  Context {T : Type} {o : Ops T} (R : CRing o).
  Add Ring R59 : (CRing_theory R).
  Local Notation t := (rot3_transform o).
  Local Notation "x + y" := (r_add R x y).
  Local Notation "x * y" := (r_mul R x y).
  Local Notation "x - y" := (r_sub R x y).
  Local Notation "- x" := (r_opp R x).

  (** [q p q*] written out. *)
  Lemma rot3_apply_v : forall w i j k x y z, t_apply t (Qt w i j k) [x; y; z] = Ok
    [ (w * w + i * i - j * j - k * k) * x + ((i * j - w * k) + (i * j - w * k)) * y + ((i * k + w * j) + (i * k + w * j)) * z;
      ((i * j + w * k) + (i * j + w * k)) * x + (w * w - i * i + j * j - k * k) * y + ((j * k - w * i) + (j * k - w * i)) * z;
      ((i * k - w * j) + (i * k - w * j)) * x + ((j * k + w * i) + (j * k + w * i)) * y + (w * w - i * i - j * j + k * k) * z ].
  Proof.
    intros. cbn [t_apply rot3_transform]. unfold rot3_apply.
    change (q_from_scalar_and_vector3 (o_zero o) [x; y; z]) with (Ok (Qt (o_zero o) x y z)). cbn [bind].
    rewrite (q_mul_v R), (q_conj_v R). cbn [bind lift2]. rewrite (q_mul_v R). cbn [bind qw qx qy qz].
    cbn.
    f_equal. unfold v_from_array. listeq; ring.
  Qed.
  Lemma unit_q_v : forall z, unit_q o z <-> qw z * qw z + qx z * qx z + qy z * qy z + qz z * qz z = o_one o.
  Proof. intros. unfold unit_q. rewrite (q_norm_sqr_v R). split; intros H; [apply Ok_inj in H; auto|congruence]. Qed.

  Theorem C59_action : Acts t (dim 3) any (unit_q o).
  Proof.
    constructor.
    - intros a x _ Hx. comps. rewrite rot3_apply_v. eexists. split; reflexivity.
    - exists (Qt (o_one o) (o_zero o) (o_zero o) (o_zero o)). split; [reflexivity|]. split; [exact I|]. split.
      + rewrite unit_q_v. cbn [qw qx qy qz]. ring.
      + intros x Hx. comps. rewrite rot3_apply_v. f_equal. listeq; ring.
    - intros a b _ _. cbn [t_chain rot3_transform]. rewrite (q_mul_v R). eexists. split; [reflexivity|]. split; [exact I|]. split.
      + rewrite !unit_q_v. comps. intros H1 H2.
        transitivity ((w * w + i * i + j * j + k * k) * (w0 * w0 + i0 * i0 + j0 * j0 + k0 * k0)). { ring. } rewrite H1, H2. ring.
      + intros x Hx. comps. rewrite !rot3_apply_v. cbn [bind]. rewrite !rot3_apply_v. same. listeq; ring.
    - intros a _ Ha. rewrite unit_q_v in Ha. cbn [t_inv rot3_transform]. rewrite (q_conj_v R). eexists. split; [reflexivity|]. split; [exact I|].
      split.
      + rewrite unit_q_v. cbn [qw qx qy qz]. rewrite <- Ha. ring.
      + intros v Hx. comps. rewrite !rot3_apply_v. cbn [bind]. rewrite !rot3_apply_v.
        set (n := w * w + i * i + j * j + k * k) in Ha.
        split; f_equal; listeq.
        * transitivity (x * (n * n)); [unfold n; ring|rewrite Ha; ring].
        * transitivity (x0 * (n * n)); [unfold n; ring|rewrite Ha; ring].
        * transitivity (x1 * (n * n)); [unfold n; ring|rewrite Ha; ring].
        * transitivity (x * (n * n)); [unfold n; ring|rewrite Ha; ring].
        * transitivity (x0 * (n * n)); [unfold n; ring|rewrite Ha; ring].
        * transitivity (x1 * (n * n)); [unfold n; ring|rewrite Ha; ring].
  Qed.
  Theorem C59_group : Group t any (unit_q o).
  Proof.
    constructor; unfold any; cbn [t_chain t_identity t_inv rot3_transform]; intros.
    - rewrite !(q_mul_v R). cbn [bind]. rewrite !(q_mul_v R). same. cbn [qw qx qy qz]. f_equal; ring.
    - change (q_one o) with (Ok (Qt (o_one o) (o_zero o) (o_zero o) (o_zero o))). cbn [bind]. rewrite !(q_mul_v R). comps.
      split; f_equal; f_equal; ring.
    - rewrite unit_q_v in H0. rewrite (q_conj_v R). cbn [bind]. rewrite !(q_mul_v R). comps. cbn [qw qx qy qz].
      split; (eexists; split; [reflexivity|]); change (q_one o) with (Ok (Qt (o_one o) (o_zero o) (o_zero o) (o_zero o)));
        f_equal; f_equal; try ring; rewrite <- H0; ring.
  Qed.
  (** Lengths, angles and orientation. *)
  Theorem C59_isometry : forall r u v, unit_q o r -> dim 3 u -> dim 3 v ->
    (let! u' := t_apply t r u in let! v' := t_apply t r v in v_dot o 3 u' v') =! v_dot o 3 u v /\
    (let! u' := t_apply t r u in let! v' := t_apply t r v in v_cross3 o u' v') =!
      (let! c := v_cross3 o u v in t_apply t r c).
  Proof.
    intros r u v H Hu Hv. rewrite unit_q_v in H. comps. rewrite (v_cross3_v R). rewrite !rot3_apply_v. cbn [bind].
    rewrite !(v_dot_3 R), (v_cross3_v R), rot3_apply_v.
    set (n := w * w + i * i + j * j + k * k) in H.
    split; (eexists; split; [reflexivity|]); f_equal.
    - transitivity ((x2 * x + x3 * x0 + x4 * x1) * (n * n)); [rewrite H; ring|unfold n; ring].
    - listeq; match goal with |- ?a = ?b => transitivity (a * n); [rewrite H; ring|unfold n; ring] end.
  Qed.
  (** [q] and [-q] are the same rotation. *)
  Theorem C59_double_cover : forall r x, dim 3 x ->
    (let! n := q_neg o r in t_apply t n x) =! t_apply t r x.
  Proof.
    intros r x Hx. comps. rewrite (q_neg_v R). cbn [bind qw qx qy qz]. rewrite !rot3_apply_v. same. listeq; ring.
  Qed.
  (** For every quaternion the result is the vector part of [q (0, x) q*], whose scalar part is zero. *)
  Theorem C59_sandwich : forall r x, dim 3 x -> exists y, t_apply t r x = Ok y /\
    (let! p := q_from_scalar_and_vector3 (o_zero o) x in let! c := q_conj o r in
     let! rp := q_mul o r p in q_mul o rp c) =! q_from_scalar_and_vector3 (o_zero o) y.
  Proof.
    intros r x Hx. comps. rewrite rot3_apply_v. eexists. split; [reflexivity|].
    change (q_from_scalar_and_vector3 (o_zero o) [x0; x1; x2]) with (Ok (Qt (o_zero o) x0 x1 x2)). cbn [bind].
    rewrite (q_conj_v R). cbn [bind]. rewrite (q_mul_v R). cbn [bind]. rewrite (q_mul_v R). cbn [qw qx qy qz].
    eexists. split; [reflexivity|]. unfold q_from_scalar_and_vector3, v_into_tuple3, q_new, q_from_vector, v_from_array. cbn.
    f_equal. f_equal; ring.
  Qed.
End C59.
Theorem C59_inv_refuted : exists r x, dim 3 x /\
  (let! y := t_apply (rot3_transform z_ops) r x in
   let! i := t_inv (rot3_transform z_ops) r in t_apply (rot3_transform z_ops) i y) <> Ok x.
Proof. exists (Qt 1 1 0 0)%Z, [1; 0; 0]%Z. split; [reflexivity|]. vm_compute. discriminate. Qed.
Example C59_ex : unit_q z_ops (Qt 0 0 1 0)%Z /\
  t_apply (rot3_transform z_ops) (Qt 0 0 1 0)%Z [2; 5; 7]%Z = Ok [-2; 5; -7]%Z.
Proof. vm_compute. auto. Qed.

Print Assumptions C55_action.
Print Assumptions C55_group.
Print Assumptions C56_action.
Print Assumptions C56_group.
Print Assumptions C57_action_ring.
Print Assumptions C57_linear.
Print Assumptions C57_columns.
Print Assumptions C57_action.
Print Assumptions C57_group.
Print Assumptions C58_value.
Print Assumptions C58_action.
Print Assumptions C58_group.
Print Assumptions C58_isometry.
Print Assumptions C58_to_linear.
Print Assumptions C58_to_linear_chain.
Print Assumptions C58_to_linear_matrix.
Print Assumptions C58_inv_refuted.
Print Assumptions C59_action.
Print Assumptions C59_group.
Print Assumptions C59_isometry.
Print Assumptions C59_double_cover.
Print Assumptions C59_sandwich.
Print Assumptions C59_inv_refuted.
