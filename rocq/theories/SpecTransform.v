(** Specification vocabulary for transformations.  [Acts t pt ok inv]: on the points satisfying [pt], the
    transformations satisfying [ok] are maps (of points to points), [identity()] is the identity map,
    [a.chain(b)] maps [x] to [a.apply(b.apply(x))], and for those satisfying [inv] the result of [inv()] is
    the inverse map; all these are again transformations of the kind. *)
From Verif Require Export SpecRing TransformModel.
Set Implicit Arguments.

Record Acts {P A : Type} (t : Transform P A) (pt : P -> Prop) (ok inv : A -> Prop) : Prop := mkActs {
  act_apply : forall a x, ok a -> pt x -> exists y, t_apply t a x = Ok y /\ pt y;
  act_identity : exists e, t_identity t = Ok e /\ ok e /\ inv e /\ forall x, pt x -> t_apply t e x = Ok x;
  act_chain : forall a b, ok a -> ok b ->
    exists c, t_chain t a b = Ok c /\ ok c /\ (inv a -> inv b -> inv c) /\
      forall x, pt x -> t_apply t c x =! (let! y := t_apply t b x in t_apply t a y);
  act_inv : forall a, ok a -> inv a ->
    exists i, t_inv t a = Ok i /\ ok i /\ inv i /\
      forall x, pt x -> (let! y := t_apply t a x in t_apply t i y) = Ok x /\
                        (let! y := t_apply t i x in t_apply t a y) = Ok x
}.

(** [Group t ok inv]: the group laws hold for the transformations themselves, not only for their action. *)
Record Group {P A : Type} (t : Transform P A) (ok inv : A -> Prop) : Prop := mkGroup {
  grp_assoc : forall a b c, ok a -> ok b -> ok c ->
    (let! ab := t_chain t a b in t_chain t ab c) =! (let! bc := t_chain t b c in t_chain t a bc);
  grp_identity : forall a, ok a ->
    (let! e := t_identity t in t_chain t e a) = Ok a /\ (let! e := t_identity t in t_chain t a e) = Ok a;
  grp_inv : forall a, ok a -> inv a ->
    (let! i := t_inv t a in t_chain t i a) =! t_identity t /\
    (let! i := t_inv t a in t_chain t a i) =! t_identity t
}.

(** [Reorders]: [b.reorder(a)] returns [(a', b')] with [b(a(x)) = a'(b'(x))] for every point. *)
Definition Reorders {P A B : Type} (ta : Transform P A) (tb : Transform P B) (pt : P -> Prop)
  (okA invA : A -> Prop) (okB invB : B -> Prop) (r : Reorder B A) : Prop :=
  forall b a, okB b -> okA a ->
    exists a' b', r b a = Ok (a', b') /\ okA a' /\ okB b' /\ (invA a -> invA a') /\ (invB b -> invB b') /\
      forall x, pt x ->
        (let! y := t_apply ta a x in t_apply tb b y) =! (let! y := t_apply tb b' x in t_apply ta a' y).

(** [deriv(x, d)] is exactly [apply(x + d) - apply(x)]: the map is affine with that linear part. *)
Definition exact_derivative {T A : Type} (o : Ops T) (N : nat) (t : Transform (list T) A) (ok : A -> Prop) : Prop :=
  forall a x d, ok a -> length x = N -> length d = N ->
    exists e, t_deriv t a x d = Ok e /\ length e = N /\
      (let! xd := v_add o N x d in t_apply t a xd) =! (let! y := t_apply t a x in v_add o N y e).

(** The determinant exists and is not zero. *)
Definition nonsingular {T : Type} (o : Ops T) (N : nat) (m : list (list T)) : Prop :=
  exists d, m_det o N m = Ok d /\ d <> o_zero o.
(** Unit complex numbers and quaternions. *)
Definition unit_c {T : Type} (o : Ops T) (z : complex T) : Prop := c_norm_sqr o z = Ok (o_one o).
Definition unit_q {T : Type} (o : Ops T) (q : quat T) : Prop := q_norm_sqr o q = Ok (o_one o).
(** Vectors with [N] components; everything of the type. *)
Definition dim {T : Type} (N : nat) (v : list T) : Prop := length v = N.
Definition any {A : Type} (a : A) : Prop := True.
