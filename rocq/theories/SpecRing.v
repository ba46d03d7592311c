(** Specification vocabulary: scalar types with exact arithmetic.  [Ring o] says that the scalar
    operations of [o] never fail and satisfy the ring laws (multiplication need not be commutative);
    [CRing] adds commutativity, [Field] division by non-zero scalars. *)
From Coq Require Import Ring_theory Field_theory.
From Verif Require Export Spec.
Set Implicit Arguments.

Record Ring {T : Type} (o : Ops T) : Type := mkRing {
  r_add : T -> T -> T;
  r_mul : T -> T -> T;
  r_sub : T -> T -> T;
  r_opp : T -> T;
  r_add_ok : forall x y, o_add o x y = Ok (r_add x y);
  r_mul_ok : forall x y, o_mul o x y = Ok (r_mul x y);
  r_sub_ok : forall x y, o_sub o x y = Ok (r_sub x y);
  r_neg_ok : forall x, o_neg o x = Ok (r_opp x);
  r_add_0_l : forall x, r_add (o_zero o) x = x;
  r_add_comm : forall x y, r_add x y = r_add y x;
  r_add_assoc : forall x y z, r_add x (r_add y z) = r_add (r_add x y) z;
  r_mul_1_l : forall x, r_mul (o_one o) x = x;
  r_mul_1_r : forall x, r_mul x (o_one o) = x;
  r_mul_assoc : forall x y z, r_mul x (r_mul y z) = r_mul (r_mul x y) z;
  r_distr_l : forall x y z, r_mul (r_add x y) z = r_add (r_mul x z) (r_mul y z);
  r_distr_r : forall x y z, r_mul z (r_add x y) = r_add (r_mul z x) (r_mul z y);
  r_sub_def : forall x y, r_sub x y = r_add x (r_opp y);
  r_opp_def : forall x, r_add x (r_opp x) = o_zero o
}.

Record CRing {T : Type} (o : Ops T) : Type := mkCRing {
  c_ring :> Ring o;
  c_mul_comm : forall x y, r_mul c_ring x y = r_mul c_ring y x
}.

Record Field {T : Type} (o : Ops T) : Type := mkField {
  f_ring :> CRing o;
  f_inv : T -> T;
  f_one_neq_zero : o_one o <> o_zero o;
  f_inv_l : forall x, x <> o_zero o -> r_mul f_ring (f_inv x) x = o_one o;
  (** Division by zero is not constrained: it may fail or return anything. *)
  f_div_ok : forall x y, y <> o_zero o -> o_div o x y = Ok (r_mul f_ring x (f_inv y))
}.

(** The standard library's ring and field structures, for the [ring] and [field] tactics. *)
Lemma CRing_theory : forall T (o : Ops T) (R : CRing o),
  ring_theory (o_zero o) (o_one o) (r_add R) (r_mul R) (r_sub R) (r_opp R) eq.
Proof.
  intros. constructor; intros.
  - apply (r_add_0_l R).
  - apply (r_add_comm R).
  - apply (r_add_assoc R).
  - apply (r_mul_1_l R).
  - apply (c_mul_comm R).
  - apply (r_mul_assoc R).
  - apply (r_distr_l R).
  - apply (r_sub_def R).
  - apply (r_opp_def R).
Qed.

Lemma Field_theory : forall T (o : Ops T) (F : Field o),
  field_theory (o_zero o) (o_one o) (r_add F) (r_mul F) (r_sub F) (r_opp F)
    (fun x y => r_mul F x (f_inv F y)) (f_inv F) eq.
Proof.
  intros. constructor.
  - exact (CRing_theory F).
  - exact (f_one_neq_zero F).
  - reflexivity.
  - intros. apply f_inv_l. auto.
Qed.

(** From the standard library's structures back: every type with total operations satisfying
    [ring_theory] is an instance. *)
Definition CRing_of_theory {T : Type} (o : Ops T) (add mul sub : T -> T -> T) (opp : T -> T)
  (Ha : forall x y, o_add o x y = Ok (add x y)) (Hm : forall x y, o_mul o x y = Ok (mul x y))
  (Hs : forall x y, o_sub o x y = Ok (sub x y)) (Hn : forall x, o_neg o x = Ok (opp x))
  (th : ring_theory (o_zero o) (o_one o) add mul sub opp eq) : CRing o.
Proof.
  assert (mc : forall x y, mul x y = mul y x) by apply (Rmul_comm th).
  refine (@mkCRing T o (@mkRing T o add mul sub opp Ha Hm Hs Hn
            (Radd_0_l th) (Radd_comm th) (Radd_assoc th) (Rmul_1_l th)
            _ (Rmul_assoc th) (Rdistr_l th) _ (Rsub_def th) (Ropp_def th)) mc).
  - intros. rewrite mc. apply (Rmul_1_l th).
  - intros. rewrite !(mc z). apply (Rdistr_l th).
Defined.

(** The sum of [f 0], ..., [f (n-1)]. *)
Fixpoint bigsum {T : Type} {o : Ops T} (R : Ring o) (n : nat) (f : nat -> T) : T :=
  match n with
  | O => o_zero o
  | S k => r_add R (bigsum R k f) (f k)
  end.

(** Component [i] of a vector and element [(i, j)] of a matrix, zero outside. *)
Definition vget {T : Type} (o : Ops T) (v : list T) (i : nat) : T := nth i v (o_zero o).
Definition mget {T : Type} (o : Ops T) (m : list (list T)) (i j : nat) : T :=
  nth j (nth i m []) (o_zero o).

(** [r =! s]: both computations return normally, and return the same value. *)
Definition both_return {A : Type} (r s : res A) : Prop := exists a, r = Ok a /\ s = Ok a.
Notation "r =! s" := (both_return r s) (at level 70, no associativity).

(** Embeddings of scalars and complex numbers into complex numbers and quaternions are stated
    explicitly in the theorems.  A field is formally real (up to [n] squares) if a sum of [n] squares
    vanishes only when every term does: the rationals, the reals. *)
Definition real2 {T : Type} {o : Ops T} (F : Field o) : Prop := forall a b,
  r_add F (r_mul F a a) (r_mul F b b) = o_zero o -> a = o_zero o /\ b = o_zero o.
Definition real4 {T : Type} {o : Ops T} (F : Field o) : Prop := forall a b c d,
  r_add F (r_add F (r_add F (r_mul F a a) (r_mul F b b)) (r_mul F c c)) (r_mul F d d) = o_zero o ->
  a = o_zero o /\ b = o_zero o /\ c = o_zero o /\ d = o_zero o.

(** Division rings: multiplication need not be commutative; dividing is multiplying by the inverse on the
    right.  Fields are division rings, and so are quaternions over a formally real field. *)
Record DivRing {T : Type} (o : Ops T) : Type := mkDivRing {
  d_ring :> Ring o;
  d_inv : T -> T;
  d_one_neq_zero : o_one o <> o_zero o;
  d_inv_l : forall x, x <> o_zero o -> r_mul d_ring (d_inv x) x = o_one o;
  d_inv_r : forall x, x <> o_zero o -> r_mul d_ring x (d_inv x) = o_one o;
  d_div_ok : forall x y, y <> o_zero o -> o_div o x y = Ok (r_mul d_ring x (d_inv y))
}.
Definition field_div {T : Type} {o : Ops T} (F : Field o) : DivRing o :=
  @mkDivRing T o F (f_inv F) (f_one_neq_zero F) (f_inv_l F)
    (fun x H => eq_trans (c_mul_comm F x (f_inv F x)) (f_inv_l F H)) (f_div_ok F).
