(** Specification vocabulary for tangent directions and surface normals over the real numbers. *)
From Coq Require Import Reals.
From Verif Require Export SpecTransform RealInst.
Set Implicit Arguments.
Local Open Scope R_scope.

(** What is needed of a type of points and directions: which values are meant, the crate's dot product, and
    its product by a scalar. *)
Record Space (P : Type) : Type := mkSpace {
  sp_pt : P -> Prop;
  sp_dot : P -> P -> res R;
  sp_mul : P -> R -> res P
}.
Definition vspace (N : nat) : Space (list R) :=
  {| sp_pt := dim N; sp_dot := v_dot r_ops N; sp_mul := v_smul r_ops |}.
Definition cspace : Space (complex R) := {| sp_pt := any; sp_dot := c_dot r_ops; sp_mul := c_mul_s r_ops |}.
Definition qspace : Space (quat R) := {| sp_pt := any; sp_dot := q_dot r_ops; sp_mul := q_mul_s r_ops |}.

(** Not zero; of length one. *)
Definition positive {P} (sp : Space P) (v : P) : Prop := exists q, sp_dot sp v v = Ok q /\ 0 < q.
Definition unit_len {P} (sp : Space P) (v : P) : Prop := sp_dot sp v v = Ok 1.

(** [apply_dir(x, v)] points the same way as the derivative [deriv(x, v)], and unit directions stay unit. *)
Definition keeps_dirs {P A} (sp : Space P) (t : Transform P A) (d : Directional P A) (ok : A -> P -> Prop) : Prop :=
  forall a x v, ok a x -> sp_pt sp x -> sp_pt sp v -> positive sp v ->
    exists v' e k, t_apply_dir d a x v = Ok v' /\ sp_pt sp v' /\ positive sp v' /\
      t_deriv t a x v = Ok e /\ 0 < k /\ sp_mul sp v' k = Ok e /\ (unit_len sp v -> unit_len sp v').
(** [apply_normal(x, n)] makes with the image [deriv(x, v)] of every tangent direction [v] the same angle, up to
    a positive factor, that [n] makes with [v]: normals of a surface stay normal to it, on the same side. *)
Definition keeps_normals {P A} (sp : Space P) (t : Transform P A) (d : Directional P A) (ok : A -> P -> Prop) : Prop :=
  forall a x n, ok a x -> sp_pt sp x -> sp_pt sp n -> positive sp n ->
    exists n' k, t_apply_normal d a x n = Ok n' /\ sp_pt sp n' /\ positive sp n' /\ 0 < k /\
      (unit_len sp n -> unit_len sp n') /\
      forall v, sp_pt sp v -> exists e p, t_deriv t a x v = Ok e /\ sp_pt sp e /\
        sp_dot sp n v = Ok p /\ sp_dot sp n' e = Ok (k * p).
(** The results are unit vectors whatever the length of the argument. *)
Definition unit_results {P A} (sp : Space P) (d : Directional P A) (ok : A -> P -> Prop) : Prop :=
  forall a x v, ok a x -> sp_pt sp x -> sp_pt sp v -> positive sp v ->
    (forall v', t_apply_dir d a x v = Ok v' -> unit_len sp v') /\
    (forall n', t_apply_normal d a x v = Ok n' -> unit_len sp n').
(** [deriv] is defined and does not depend on the length of the direction other than by a factor; [apply] is defined. *)
Definition homogeneous {P A} (sp : Space P) (t : Transform P A) (ok : A -> P -> Prop) : Prop :=
  forall a x v k, ok a x -> sp_pt sp x -> sp_pt sp v -> 0 < k ->
    (let! kv := sp_mul sp v k in t_deriv t a x kv) =! (let! e := t_deriv t a x v in sp_mul sp e k).
Definition defined {P A} (sp : Space P) (t : Transform P A) (ok : A -> P -> Prop) : Prop :=
  forall a x, ok a x -> sp_pt sp x -> exists y, t_apply t a x = Ok y /\ sp_pt sp y.
(** The conditions for a chain: the inner part is fine at [x], the outer one at the image of [x]. *)
Definition ok_chain {P A B} (tb : Transform P B) (okA : A -> P -> Prop) (okB : B -> P -> Prop) (c : A * B) (x : P) : Prop :=
  okB (snd c) x /\ forall y, t_apply tb (snd c) x = Ok y -> okA (fst c) y.
