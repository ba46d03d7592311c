(** C81: accessors, mutable accessors and conversions of Moebius transformations and chains. *)
From Coq Require Import List.
From Verif Require Import ViewModel SpecFacts VFacts MFacts.
Import ListNotations.
Set Implicit Arguments.

(** A Moebius transformation built from (a, b, c, d) in any of the three ways gives the same object; every accessor
    returns its coefficient, and writing through a mutable accessor changes that coefficient and no other. *)
Theorem C81_moebius : forall T (a b c d x : T), exists m,
  mo_new a b c d = Ok m /\ mo_from_tuple (a, b, c, d) = Ok m /\ mo_from_array [[a; b]; [c; d]] = Ok m /\
  mo_into_tuple m = Ok (a, b, c, d) /\ mo_into_array m = Ok [[a; b]; [c; d]] /\ mo_as_array_of_arrays m = [[a; b]; [c; d]] /\
  (mo_a m = Ok a /\ mo_b m = Ok b /\ mo_c m = Ok c /\ mo_d m = Ok d) /\
  (mo_a_ref m = Ok a /\ mo_b_ref m = Ok b /\ mo_c_ref m = Ok c /\ mo_d_ref m = Ok d) /\
  mo_a_set m x =  mo_new x b c d /\ mo_b_set m x = mo_new a x c d /\ mo_c_set m x = mo_new a b x d /\ mo_d_set m x = mo_new a b c x.
Proof. intros. exists [[a; b]; [c; d]]. repeat split. Qed.
(** The converse: every 2x2 matrix is a transformation, recovered from its coefficients. *)
Theorem C81_moebius_of_matrix : forall T (m : list (list T)), rect 2 2 m ->
  (let! (a, b, c, d) := mo_into_tuple m in mo_new a b c d) = Ok m /\ (let! a := mo_into_array m in mo_from_array a) = Ok m /\
  exists a b c d, mo_new a b c d = Ok m.
Proof.
  intros T m R. destruct m as [|r0 [|r1 [|? ?]]]; try (destruct R; discriminate).
  destruct R as (_ & F). inversion F as [|? ? L0 F']; subst. inversion F' as [|? ? L1 _]; subst.
  destruct r0 as [|a [|b [|? ?]]]; try discriminate. destruct r1 as [|c [|d [|? ?]]]; try discriminate.
  split; [reflexivity|]. split; [reflexivity|]. exists a, b, c, d. reflexivity.
Qed.
(** Writes through different accessors commute; a second write through the same one wins; reading back gives what was
    written. *)
Theorem C81_moebius_writes : forall T (m : list (list T)) x y, rect 2 2 m ->
  (let! m1 := mo_a_set m x in mo_a m1) = Ok x /\ (let! m1 := mo_b_set m x in mo_b m1) = Ok x /\
  (let! m1 := mo_c_set m x in mo_c m1) = Ok x /\ (let! m1 := mo_d_set m x in mo_d m1) = Ok x /\
  (let! m1 := mo_a_set m x in mo_d_set m1 y) = (let! m1 := mo_d_set m y in mo_a_set m1 x) /\
  (let! m1 := mo_b_set m x in mo_c_set m1 y) = (let! m1 := mo_c_set m y in mo_b_set m1 x) /\
  (let! m1 := mo_a_set m x in mo_b_set m1 y) = (let! m1 := mo_b_set m y in mo_a_set m1 x) /\
  (let! m1 := mo_c_set m x in mo_d_set m1 y) = (let! m1 := mo_d_set m y in mo_c_set m1 x) /\
  (let! m1 := mo_c_set m x in mo_c_set m1 y) = mo_c_set m y /\
  (forall a, mo_a m = Ok a -> mo_a_set m a = Ok m) /\ (forall b, mo_b m = Ok b -> mo_b_set m b = Ok m) /\
  (forall c, mo_c m = Ok c -> mo_c_set m c = Ok m) /\ (forall d, mo_d m = Ok d -> mo_d_set m d = Ok m).
Proof.
  intros T m x y R. destruct (C81_moebius_of_matrix R) as (_ & _ & a & b & c & d & E). apply Ok_inj in E. subst m.
  do 9 (split; [reflexivity|]). repeat split; intros z Hz; apply Ok_inj in Hz; subst; reflexivity.
Qed.

(** Chain: the components come back, in order, from every constructor; writing one leaves the other; a write is seen by
    [apply] as replacing that transformation. *)
Theorem C81_chain : forall A B (a a' : A) (b b' : B),
  chain_from_tuple (a, b) = chain_new a b /\ chain_into_tuple (chain_new a b) = (a, b) /\ chain_split (chain_new a b) = (a, b) /\
  chain_outer (chain_new a b) = a /\ chain_inner (chain_new a b) = b /\
  chain_outer_set (chain_new a b) a' = chain_new a' b /\ chain_inner_set (chain_new a b) b' = chain_new a b'.
Proof. intros. repeat split. Qed.
Theorem C81_chain_eta : forall A B (c : A * B), chain_new (chain_outer c) (chain_inner c) = c /\ chain_from_tuple (chain_into_tuple c) = c.
Proof. intros A B [a b]. repeat split. Qed.
Theorem C81_chain_apply : forall P A B (ta : Transform P A) (tb : Transform P B) ro (a a' : A) (b b' : B) (x : P),
  let ap c := t_apply (chain_transform ta tb ro) c x in
  ap (chain_new a b) = (let! y := t_apply tb b x in t_apply ta a y) /\
  ap (chain_outer_set (chain_new a b) a') = (let! y := t_apply tb b x in t_apply ta a' y) /\
  ap (chain_inner_set (chain_new a b) b') = (let! y := t_apply tb b' x in t_apply ta a y).
Proof. intros. repeat split. Qed.
(** The wrappers [Shift], [Scale], [Linear], [Rotation2], [Rotation3] return what they were built from. *)
Theorem C81_wrappers : forall T (v : list T) (m : list (list T)) (s : T) (z : complex T) (q : quat T),
  shift_into_vector (shift_from_vector v) = v /\ scale_into_mag (scale_from_mag s) = s /\
  linear_into_matrix (linear_from_matrix m) = m /\ rot2_into_complex (rot2_from_complex z) = z /\
  rot3_into_quaternion (rot3_from_quaternion q) = q.
Proof. intros. repeat split. Qed.
(** [Affine::linear] and [Affine::shift] are the two parts an affine transformation was built from, and it maps [x] to
    [linear(x)] shifted by [shift]. *)
Theorem C81_affine : forall T (o : Ops T) N (s x : list T) (m : list (list T)),
  affine_shift (chain_new s m) = s /\ affine_linear (chain_new s m) = m /\
  (forall c : list T * list (list T), chain_new (affine_shift c) (affine_linear c) = c) /\
  forall c, t_apply (affine_transform o N) c x =
    (let! y := t_apply (linear_transform o N) (affine_linear c) x in t_apply (shift_transform o N) (affine_shift c) y).
Proof. intros. repeat split. intros []. reflexivity. Qed.
Example C81_example : (let! m := mo_new 1 2 3 4 in let! m1 := mo_c_set m 9 in mo_into_tuple m1) = Ok (1, 2, 9, 4).
Proof. reflexivity. Qed.

Print Assumptions C81_moebius.
Print Assumptions C81_moebius_of_matrix.
Print Assumptions C81_moebius_writes.
Print Assumptions C81_chain.
Print Assumptions C81_chain_eta.
Print Assumptions C81_chain_apply.
Print Assumptions C81_wrappers.
Print Assumptions C81_affine.
