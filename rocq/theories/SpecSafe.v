(** Vocabulary of C107: what it means for a call to be free of undefined behaviour and for its result to have the
    declared dimensions with all its numbers in a given set. *)
From Verif Require Import TransformModel.
Set Implicit Arguments.

(** The call does not have undefined behaviour; if it returns, what it returns satisfies [P].  (It may panic.) *)
Definition sound {A : Type} (P : A -> Prop) (r : res A) : Prop :=
  match r with Ok a => P a | UB => False | Panic => True | Fuel => True end.

(** Any value at all. *)
Definition any {A : Type} (a : A) : Prop := True.
(** [N] elements, all in [P]. *)
Definition vec_of (N : nat) {A : Type} (P : A -> Prop) (v : list A) : Prop := length v = N /\ Forall P v.
(** [M] rows of [N] elements, all in [P]. *)
Definition mat_of (M N : nat) {A : Type} (P : A -> Prop) (m : list (list A)) : Prop := vec_of M (vec_of N P) m.
(** Both components in [P]; all four components in [P]. *)
Definition cx_of {A : Type} (P : A -> Prop) (z : complex A) : Prop := P (re z) /\ P (im z).
Definition qt_of {A : Type} (P : A -> Prop) (q : quat A) : Prop := P (qw q) /\ P (qx q) /\ P (qy q) /\ P (qz q).
Definition pair_of {A B : Type} (P : A -> Prop) (Q : B -> Prop) (p : A * B) : Prop := P (fst p) /\ Q (snd p).
Definition opt_of {A : Type} (P : A -> Prop) (o : option A) : Prop := match o with Some a => P a | None => True end.
(** A call that works in place: it has no undefined behaviour, and the contents it leaves behind, also when it panics,
    are in [P]. *)
Definition in_place {A : Type} (P : A -> Prop) (r : A * res unit) : Prop := P (fst r) /\ sound any (snd r).

(** Scalar operations without undefined behaviour, that stay in [P]. *)
Record closed {T : Type} (P : T -> Prop) (o : Ops T) : Prop := mkClosed {
  cl_zero : P (o_zero o);
  cl_one : P (o_one o);
  cl_add : forall x y, P x -> P y -> sound P (o_add o x y);
  cl_sub : forall x y, P x -> P y -> sound P (o_sub o x y);
  cl_mul : forall x y, P x -> P y -> sound P (o_mul o x y);
  cl_div : forall x y, P x -> P y -> sound P (o_div o x y);
  cl_rem : forall x y, P x -> P y -> sound P (o_rem o x y);
  cl_neg : forall x, P x -> sound P (o_neg o x)
}.
(** The same for the float functions. *)
Record closed_float {T : Type} (P : T -> Prop) (F : FloatOps T) : Prop := mkClosedFloat {
  cl_sqrt : forall x, P x -> P (f_sqrt F x);
  cl_sin : forall x, P x -> P (f_sin F x);
  cl_cos : forall x, P x -> P (f_cos F x);
  cl_atan2 : forall y x, P y -> P x -> P (f_atan2 F y x);
  cl_abs : forall x, P x -> P (f_abs F x);
  cl_pi : P (f_pi F);
  cl_two : P (f_two F);
  cl_half : P (f_half F);
  cl_epsilon : P (f_epsilon F)
}.
(** An iterator whose states are in [I], whose items are in [P]. *)
Definition closed_next {S A : Type} (I : S -> Prop) (P : A -> Prop) (n : next_fn S A) : Prop :=
  forall s, I s -> sound (pair_of I (opt_of P)) (n s).
(** A random source whose states are in [I], whose samples are in [P]. *)
Definition closed_draw {G A : Type} (I : G -> Prop) (P : A -> Prop) (d : G -> res (G * A)) : Prop :=
  forall g, I g -> sound (pair_of I P) (d g).
(** A kind of transformations: positions in [Q], transformations in [W]. *)
Record closed_transform {Pt A : Type} (Q : Pt -> Prop) (W : A -> Prop) (t : Transform Pt A) : Prop := mkClosedTransform {
  ct_identity : sound W (t_identity t);
  ct_inv : forall a, W a -> sound W (t_inv t a);
  ct_apply : forall a p, W a -> Q p -> sound Q (t_apply t a p);
  ct_deriv : forall a p d, W a -> Q p -> Q d -> sound Q (t_deriv t a p d);
  ct_chain : forall a b, W a -> W b -> sound W (t_chain t a b)
}.
Record closed_directional {Pt A : Type} (Q : Pt -> Prop) (W : A -> Prop) (d : Directional Pt A) : Prop := mkClosedDirectional {
  cd_dir : forall a p v, W a -> Q p -> Q v -> sound Q (t_apply_dir d a p v);
  cd_normal : forall a p v, W a -> Q p -> Q v -> sound Q (t_apply_normal d a p v)
}.
Definition closed_reorder {A B : Type} (W : A -> Prop) (X : B -> Prop) (r : Reorder A B) : Prop :=
  forall a b, W a -> X b -> sound (pair_of X W) (r a b).
