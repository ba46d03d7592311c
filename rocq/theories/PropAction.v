(** Properties C55-C59, continued: what the transformations of each kind do to a point and to a
    direction, component by component (the group laws alone would also hold of, say, [pos - shift]). *)
From Coq Require Import ZArith Ring.
From Verif Require Import SpecTransform SpecFacts AlgFacts CxFacts MFacts PropAlgebra PropTransform Instances.
Set Implicit Arguments.
Local Open Scope nat_scope.
Local Open Scope list_scope.

(** [y] has [N] components and its component [i] is the result of [f i]. *)
Definition componentwise {T : Type} (o : Ops T) (N : nat) (r : res (list T)) (f : nat -> res T) : Prop :=
  exists y, r = Ok y /\ length y = N /\ forall i, i < N -> f i = Ok (vget o y i).

Section Values.
  Context {T : Type} {o : Ops T} (R : CRing o).
  Add Ring RAct : (CRing_theory R).

  (** [Shift]: [apply] adds the shift to the point, [chain] adds two shifts, [inv] negates, the identity is zero
      and [deriv] returns the direction unchanged. *)
  Theorem C55_formulas : forall N s t x d, dim N s -> dim N t -> dim N x ->
    let S := shift_transform o N in
    componentwise o N (t_apply S s x) (fun i => o_add o (vget o x i) (vget o s i)) /\
    componentwise o N (t_chain S s t) (fun i => o_add o (vget o s i) (vget o t i)) /\
    componentwise o N (t_inv S s) (fun i => o_neg o (vget o s i)) /\
    componentwise o N (t_identity S) (fun i => Ok (o_zero o)) /\
    t_deriv S s x d = Ok d.
  Proof.
    intros N s t x d Hs Ht Hx S. subst S. unfold dim in *. asfun o. cbn [t_apply t_chain t_inv t_identity t_deriv shift_transform].
    repeat split.
    1-3: ops R; eexists; split; [reflexivity|]; split; [apply vk_length|]; intros i Hi; rewrite !vget_vk by auto;
      rewrite ?(r_add_ok R), ?(r_neg_ok R); reflexivity.
    rewrite v_zero_vk. eexists. split; [reflexivity|]. split; [apply vk_length|]. intros i Hi. rewrite vget_vk by auto. reflexivity.
  Qed.

  (** [Scale]: [apply] and [deriv] multiply every component by the magnitude, [chain] multiplies magnitudes. *)
  Theorem C56_formulas : forall N (inv : T -> res T) k l x d, dim N x -> dim N d ->
    let S := scale_transform o inv in
    componentwise o N (t_apply S k x) (fun i => o_mul o (vget o x i) k) /\
    componentwise o N (t_deriv S k x d) (fun i => o_mul o (vget o d i) k) /\
    t_chain S k l = o_mul o k l /\ t_inv S k = inv k /\ t_identity S = Ok (o_one o).
  Proof.
    intros N inv k l x d Hx Hd S. subst S. unfold dim in *. asfun o. cbn [t_apply t_chain t_inv t_identity t_deriv scale_transform].
    repeat split; ops R; eexists; (split; [reflexivity|]); (split; [apply vk_length|]); intros i Hi; rewrite !vget_vk by auto;
      rewrite ?(r_mul_ok R); reflexivity.
  Qed.

  (** [Linear]: component [i] of the image is the sum over [j] of [m_ij * x_j]; [deriv(x, d)] is [apply(d)]. *)
  Theorem C57_formulas : forall N m x d, 0 < N -> rect N N m -> dim N x -> dim N d ->
    let L := linear_transform o N in
    componentwise o N (t_apply L m x) (fun i => Ok (bigsum R N (fun j => r_mul R (mget o m i j) (vget o x j)))) /\
    t_deriv L m x d = t_apply L m d.
  Proof.
    intros N m x d HN Hm Hx Hd L. subst L. unfold dim in *. asfun o. cbn [t_apply t_deriv linear_transform]. split; [|reflexivity].
    rewrite (m_dot_v_mk R) by lia. eexists. split; [reflexivity|]. split; [apply vk_length|]. intros i Hi. rewrite vget_vk by auto.
    f_equal. apply (@bigsum_ext _ _ R N). intros k Hk. rewrite mget_mk, vget_vk by auto. reflexivity.
  Qed.

  (** [Rotation2] and [Rotation3]: [deriv(x, d)] is [apply(d)] too. *)
  Theorem C58_deriv : forall r x d, t_deriv (rot2_transform o) r x d = t_apply (rot2_transform o) r d.
  Proof. reflexivity. Qed.
  Theorem C59_deriv : forall r x d, t_deriv (rot3_transform o) r x d = t_apply (rot3_transform o) r d.
  Proof. reflexivity. Qed.
End Values.

Example C55_formulas_ex : let S := shift_transform z_ops 3 in
  t_apply S [1; -2; 3]%Z [10; 20; 30]%Z = Ok [11; 18; 33]%Z /\ t_inv S [1; -2; 3]%Z = Ok [-1; 2; -3]%Z /\
  t_apply (scale_transform z_ops (fun _ => Panic)) 4%Z [1; -2; 3]%Z = Ok [4; -8; 12]%Z /\
  t_apply (linear_transform z_ops 2) [[1; 2]; [3; 4]]%Z [5; 6]%Z = Ok [17; 39]%Z.
Proof. repeat split; reflexivity. Qed.

Print Assumptions C55_formulas.
Print Assumptions C56_formulas.
Print Assumptions C57_formulas.
Print Assumptions C58_deriv.
Print Assumptions C59_deriv.
