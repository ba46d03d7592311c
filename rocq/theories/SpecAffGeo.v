(** Specification vocabulary for C120: weighted combinations of points, lines and general position. *)
From Verif Require Export SpecTransform SpecRing.
Set Implicit Arguments.
Local Open Scope nat_scope.
Local Open Scope list_scope.

Section SpecAffGeo.
  Context {T : Type} {o : Ops T} (R : CRing o).
  (** The weights [ws] sum to one. *)
  Definition affine_weights (ws : list T) : Prop := bigsum R (length ws) (vget o ws) = o_one o.
  (** [x] is the sum of the points [ps] of [N]-space, each times its weight. *)
  Definition combination (N : nat) (ws : list T) (ps : list (list T)) (x : list T) : Prop :=
    dim N x /\ forall i, i < N -> vget o x i = bigsum R (length ps) (fun k => r_mul R (vget o ws k) (vget o (nth k ps []) i)).
  (** [f] maps [N]-space to itself and keeps all combinations with weights that sum to one (midpoints, centroids,
      ratios along a line, barycentric coordinates). *)
  Definition keeps_combinations (N : nat) (f : list T -> list T) : Prop :=
    (forall x, dim N x -> dim N (f x)) /\
    forall ws ps x, length ws = length ps -> Forall (dim N) ps -> affine_weights ws -> combination N ws ps x -> combination N ws (map f ps) (f x).
  (** [x] is the point [(1 - t) a + t b] of the line through [a] and [b]. *)
  Definition on_line (N : nat) (a b : list T) (t : T) (x : list T) : Prop :=
    dim N x /\ forall i, i < N -> vget o x i = r_add R (r_mul R (r_sub R (o_one o) t) (vget o a i)) (r_mul R t (vget o b i)).
  Definition keeps_ratios (N : nat) (f : list T -> list T) : Prop :=
    (forall x, dim N x -> dim N (f x)) /\
    forall a b t x, dim N a -> dim N b -> on_line N a b t x -> on_line N (f a) (f b) t (f x).
  (** The map [f] multiplies all differences of points by [k]. *)
  Definition multiplies_differences (N : nat) (k : T) (f : list T -> list T) : Prop :=
    (forall x, dim N x -> dim N (f x)) /\
    forall x y i, dim N x -> dim N y -> i < N -> r_sub R (vget o (f y) i) (vget o (f x) i) = r_mul R k (r_sub R (vget o y i) (vget o x i)).
  (** The matrix whose rows are the differences of the points [ps] and [p]. *)
  Definition edges (N : nat) (p : list T) (ps : list (list T)) : list (list T) :=
    map (fun q => map (fun j => r_sub R (vget o q j) (vget o p j)) (seq 0 N)) ps.
End SpecAffGeo.

(** The transformation [a] of the kind [t] acts on [N]-space as the map [f]. *)
Definition acts_as {T A : Type} (N : nat) (t : Transform (list T) A) (a : A) (f : list T -> list T) : Prop :=
  forall x, dim N x -> t_apply t a x = Ok (f x).
