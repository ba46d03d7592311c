"""Generates rocq/theories/PropSafe.v: C107, one theorem per function of the crate."""
import re
HEAD = r'''(** C107: a safe call never has undefined behaviour, whatever its arguments, unless a callback or a scalar operation
    itself does; what it returns has the declared dimensions; and every set of scalars closed under the scalar operations
    is preserved.  One theorem per function.  Generated by tools/gen_safe.py. *)
From Coq Require Import ZArith SpecFloat Lia String.
From Flocq Require IEEE754.BinarySingleNaN.
From Verif Require Import Spec SpecSafe SpecMachine SafeFacts MathModel ViewModel UnitModel NumModel DeriveModel Instances FloatInst FlocqFacts.
Set Implicit Arguments.
Local Open Scope nat_scope.
Local Open Scope list_scope.

Create HintDb safe discriminated.
#[global] Hint Constants Opaque : safe.
#[global] Hint Resolve sound_ok cl_add cl_sub cl_mul cl_div cl_rem cl_neg ct_identity ct_inv ct_apply ct_deriv ct_chain cd_dir cd_normal safe_unwrap : safe.
#[global] Hint Resolve safe_v_init safe_v_init_const safe_v_index safe_v_index_set safe_v_try_from_iter safe_v_indices safe_v_map_st safe_v_map
  safe_v_zip safe_v_unzip safe_v_fold safe_v_for_each_st safe_v_fold_first safe_v_scan_st safe_v_zip_map safe_v_assign safe_v_assign_scalar
  safe_m_init safe_m_init_const safe_m_index safe_m_index_set safe_m_row safe_m_row_set safe_m_col safe_m_map_st safe_m_map safe_m_zip
  safe_m_unzip safe_m_fold safe_m_for_each_st safe_m_fold_first safe_m_scan_st safe_m_try_from_iter_of_vectors safe_m_try_from_iter
  safe_m_try_from_slice_of_vectors safe_m_try_from_slice safe_m_indices safe_m_transpose safe_m_zip_map safe_m_assign safe_m_assign_scalar
  safe_m_iter : safe.

Lemma vec_nil : forall A (P : A -> Prop), vec_of 0 P [].
Proof. split; constructor. Qed.
Lemma vec_cons : forall A (P : A -> Prop) N x v, P x -> vec_of N P v -> vec_of (S N) P (x :: v).
Proof. intros A P N x v Hx (L & F). split; cbn; auto. Qed.
Lemma mat_nil : forall A (P : A -> Prop) N, mat_of 0 N P [].
Proof. split; constructor. Qed.
Lemma mat_cons : forall A (P : A -> Prop) M N r m, vec_of N P r -> mat_of M N P m -> mat_of (S M) N P (r :: m).
Proof. intros. apply vec_cons; auto. Qed.
Lemma c_vec : forall A (P : A -> Prop) z, cx_of P z -> vec_of 2 P (c_into_vector z).
Proof. intros A P z (H & K). repeat apply vec_cons; auto. apply vec_nil. Qed.
Lemma q_vec : forall A (P : A -> Prop) z, qt_of P z -> vec_of 4 P (q_into_vector z).
Proof. intros A P z (H & K & L & J). repeat apply vec_cons; auto. apply vec_nil. Qed.
Lemma vec_arr : forall A (P : A -> Prop) N v, vec_of N P v -> vec_of N P (v_from_array v).
Proof. auto. Qed.
Lemma mat_arr : forall A (P : A -> Prop) M N m, mat_of M N P m -> mat_of M N P (m_from_array_of_vectors m).
Proof. auto. Qed.
Lemma any_I : forall A (a : A), any a.
Proof. exact (fun _ _ => I). Qed.
Lemma pair_I : forall A B (P : A -> Prop) (Q : B -> Prop) a b, P a -> Q b -> pair_of P Q (a, b).
Proof. split; auto. Qed.
Lemma some_I : forall A (P : A -> Prop) a, P a -> opt_of P (Some a).
Proof. auto. Qed.
Lemma none_I : forall A (P : A -> Prop), opt_of P None.
Proof. exact (fun _ _ => I). Qed.
#[global] Hint Resolve vec_nil vec_cons mat_nil mat_cons c_vec q_vec vec_arr mat_arr any_I pair_I some_I none_I : safe.

Ltac unpack := repeat match goal with
  | x : prod _ _ |- _ => destruct x
  | H : pair_of _ _ _ |- _ => destruct H as (? & ?); cbn [fst snd] in *
  | H : opt_of _ (Some _) |- _ => cbn [opt_of] in H
  end; cbn beta iota.
Ltac arrays := fail.
Ltac leaf := solve [eauto 14 with safe | cbn [fst snd]; eauto 14 with safe | arrays].
Ltac safe :=
  lazymatch goal with
  | |- sound ?Q (bind (Ok ?a) ?f) => change (sound Q (f a)); cbn beta iota; safe
  | |- sound _ (bind (lift2 _ _ _) _) => eapply sound_bind; [safe|intros; unpack; safe]
  | |- sound _ (bind (lift1 _ _) _) => eapply sound_bind; [safe|intros; unpack; safe]
  | |- sound _ (bind (bind _ _) _) => eapply sound_bind; [safe|intros; unpack; safe]
  | |- sound _ (bind _ _) => eapply sound_bind; [leaf|intros; unpack; safe]
  | |- sound _ (lift2 _ _ _) => eapply sound_lift2; [safe|safe|intros; safe]
  | |- sound _ (lift1 _ _) => eapply sound_lift1; [safe|intros; safe]
  | |- sound _ (if ?b then _ else _) => destruct b; safe
  | |- sound _ (match ?x with Some _ => _ | None => _ end) => destruct x; unpack; safe
  | |- _ => leaf
  end.
(** The theorem named [C107_f] unfolds [f] and follows its code. *)

(* ------------------------------------------------------------------------- *)
(** * Containers with callbacks: any element type, any closure                  *)
'''
GENERIC = r'''
Theorem C107_v_init : forall C A N (I : C -> Prop) (P : A -> Prop) (f : C -> res (C * A)) c,
  (forall c, I c -> sound (pair_of I P) (f c)) -> I c -> sound (pair_of I (vec_of N P)) (v_init N f c).
Proof. exact safe_v_init. Qed.
Theorem C107_v_fill : forall A N (P : A -> Prop) x, P x -> sound (vec_of N P) (v_fill N x).
Proof. intros. unfold v_fill. leaf. Qed.
Theorem C107_v_default : forall A N (P : A -> Prop) x, P x -> sound (vec_of N P) (v_default N x) /\ sound (vec_of N P) (v_new N x).
Proof. intros. unfold v_new, v_default. split; leaf. Qed.
Theorem C107_v_index : forall A N (P : A -> Prop) v i, vec_of N P v -> sound P (v_index v i).
Proof. exact safe_v_index. Qed.
Theorem C107_v_index_set : forall A N (P : A -> Prop) v i x, vec_of N P v -> P x -> sound (vec_of N P) (v_index_set v i x).
Proof. exact safe_v_index_set. Qed.
(** The unsafe accessors, under their documented condition. *)
Theorem C107_v_get_unchecked : forall A N (P : A -> Prop) v i, vec_of N P v -> i < N -> sound P (v_get_unchecked v i).
Proof. exact safe_v_get_unchecked. Qed.
Theorem C107_v_set_unchecked : forall A N (P : A -> Prop) v i x, vec_of N P v -> P x -> i < N -> sound (vec_of N P) (v_set_unchecked v i x).
Proof. exact safe_v_set_unchecked. Qed.
Theorem C107_v_try_from_slice : forall A N (P : A -> Prop) s, Forall P s -> opt_of (vec_of N P) (v_try_from_slice N s).
Proof. intros. unfold v_try_from_slice. destruct (Nat.eqb_spec (length s) N); cbn; auto. split; auto. Qed.
Theorem C107_v_try_from_iter : forall S A N (I : S -> Prop) (P : A -> Prop) (n : next_fn S A) s,
  (forall s, I s -> sound (pair_of I (opt_of P)) (n s)) -> I s -> sound (pair_of I (opt_of (vec_of N P))) (v_try_from_iter N n s).
Proof. exact safe_v_try_from_iter. Qed.
Theorem C107_v_indices : forall N, sound (vec_of N (fun i => i < N)) (v_indices N).
Proof. exact safe_v_indices. Qed.
Theorem C107_v_for_each : forall S A N (I : S -> Prop) (P : A -> Prop) (f : S -> A -> res S) s v,
  vec_of N P v -> I s -> (forall s x, I s -> P x -> sound I (f s x)) -> sound I (v_for_each_st f s v).
Proof. exact safe_v_for_each_st. Qed.
Theorem C107_v_map_st : forall C A B N (I : C -> Prop) (P : A -> Prop) (Q : B -> Prop) (f : C -> A -> res (C * B)) c v,
  vec_of N P v -> I c -> (forall c x, I c -> P x -> sound (pair_of I Q) (f c x)) -> sound (pair_of I (vec_of N Q)) (v_map_st f c v).
Proof. exact safe_v_map_st. Qed.
Theorem C107_v_map : forall A B N (P : A -> Prop) (Q : B -> Prop) (f : A -> res B) v,
  vec_of N P v -> (forall x, P x -> sound Q (f x)) -> sound (vec_of N Q) (v_map f v).
Proof. exact safe_v_map. Qed.
Theorem C107_v_zip : forall A B N (P : A -> Prop) (Q : B -> Prop) u v,
  vec_of N P u -> vec_of N Q v -> sound (vec_of N (pair_of P Q)) (v_zip N u v).
Proof. exact safe_v_zip. Qed.
Theorem C107_v_enumerate : forall A N (P : A -> Prop) v, vec_of N P v -> sound (vec_of N (pair_of (fun i => i < N) P)) (v_enumerate N v).
Proof. intros. unfold v_enumerate. safe. Qed.
Theorem C107_v_unzip : forall A B N (P : A -> Prop) (Q : B -> Prop) l,
  vec_of N (pair_of P Q) l -> sound (pair_of (vec_of N P) (vec_of N Q)) (v_unzip N l).
Proof. exact safe_v_unzip. Qed.
Theorem C107_v_fold : forall S A N (I : S -> Prop) (P : A -> Prop) (f : S -> A -> res S) s v,
  vec_of N P v -> I s -> (forall s x, I s -> P x -> sound I (f s x)) -> sound I (v_fold f s v).
Proof. exact safe_v_fold. Qed.
Theorem C107_v_fold_first : forall A N (P : A -> Prop) (f : A -> A -> res A) v,
  vec_of N P v -> (forall x y, P x -> P y -> sound P (f x y)) -> sound P (v_fold_first f v).
Proof. exact safe_v_fold_first. Qed.
Theorem C107_v_scan_st : forall C A B N (I : C -> Prop) (P : A -> Prop) (Q : B -> Prop) (f : C -> A -> res (C * B)) c v,
  vec_of N P v -> I c -> (forall c x, I c -> P x -> sound (pair_of I Q) (f c x)) -> sound (pair_of I (vec_of N Q)) (v_scan_st N f c v).
Proof. exact safe_v_scan_st. Qed.
Theorem C107_group_next : forall S A N (I : S -> Prop) (P : A -> Prop) (n : next_fn S A) s,
  (forall s, I s -> sound (pair_of I (opt_of P)) (n s)) -> I s -> sound (pair_of I (opt_of (vec_of N P))) (group_next N n s).
Proof. intros. apply safe_group_next; auto. Qed.
Theorem C107_v_assign : forall T U (P : T -> Prop) (Q : U -> Prop) (opa : T -> U -> res T) N a b,
  vec_of N P a -> vec_of N Q b -> (forall x y, P x -> Q y -> sound P (opa x y)) -> in_place (vec_of N P) (v_assign opa a b).
Proof. intros. eapply safe_v_assign; eauto. Qed.
Theorem C107_v_assign_scalar : forall T U (P : T -> Prop) (Q : U -> Prop) (opa : T -> U -> res T) N a x,
  vec_of N P a -> Q x -> (forall x y, P x -> Q y -> sound P (opa x y)) -> in_place (vec_of N P) (v_assign_scalar opa a x).
Proof. exact safe_v_assign_scalar. Qed.
Theorem C107_v_not : forall A N (P : A -> Prop) f v, vec_of N P v -> (forall x, P x -> sound P (f x)) -> sound (vec_of N P) (v_not f v).
Proof. intros. unfold v_not. leaf. Qed.
Theorem C107_v_bitop : forall A N (P : A -> Prop) f u v, vec_of N P u -> vec_of N P v -> (forall x y, P x -> P y -> sound P (f x y)) ->
  sound (vec_of N P) (v_bitop N f u v) /\ sound (vec_of N P) (v_div_floor N f u v) /\ sound (vec_of N P) (v_mod_floor N f u v).
Proof. intros. unfold v_bitop, v_div_floor, v_mod_floor. repeat split; leaf. Qed.
Theorem C107_v_div_mod_floor : forall A N (P : A -> Prop) f u v, vec_of N P u -> vec_of N P v ->
  (forall x y, P x -> P y -> sound (pair_of P P) (f x y)) -> sound (pair_of (vec_of N P) (vec_of N P)) (v_div_mod_floor N f u v).
Proof. intros. unfold v_div_mod_floor. safe. Qed.
Theorem C107_m_init : forall C A M N (I : C -> Prop) (P : A -> Prop) (f : C -> res (C * A)) c,
  (forall c, I c -> sound (pair_of I P) (f c)) -> I c -> sound (pair_of I (mat_of M N P)) (m_init M N f c).
Proof. exact safe_m_init. Qed.
Theorem C107_m_fill : forall A M N (P : A -> Prop) x, P x -> sound (mat_of M N P) (m_fill M N x) /\ sound (mat_of M N P) (m_default M N x).
Proof. intros. unfold m_fill, m_default. split; leaf. Qed.
Theorem C107_m_index : forall A M N (P : A -> Prop) m ij, mat_of M N P m -> sound P (m_index m ij).
Proof. exact safe_m_index. Qed.
Theorem C107_m_index_set : forall A M N (P : A -> Prop) m ij x, mat_of M N P m -> P x -> sound (mat_of M N P) (m_index_set m ij x).
Proof. exact safe_m_index_set. Qed.
Theorem C107_m_row : forall A M N (P : A -> Prop) m i, mat_of M N P m -> sound (vec_of N P) (m_row m i).
Proof. exact safe_m_row. Qed.
Theorem C107_m_row_set : forall A M N (P : A -> Prop) m i r, mat_of M N P m -> vec_of N P r -> sound (mat_of M N P) (m_row_set m i r).
Proof. exact safe_m_row_set. Qed.
Theorem C107_m_col : forall A M N (P : A -> Prop) m j, mat_of M N P m -> sound (vec_of M P) (m_col M m j).
Proof. exact safe_m_col. Qed.
Theorem C107_m_get_unchecked : forall A M N (P : A -> Prop) m i j, mat_of M N P m -> i < M -> j < N -> sound P (m_get_unchecked m i j).
Proof. exact safe_m_get_unchecked. Qed.
Theorem C107_m_set_unchecked : forall A M N (P : A -> Prop) m i j x, mat_of M N P m -> P x -> i < M -> j < N ->
  sound (mat_of M N P) (m_set_unchecked m i j x).
Proof. exact safe_m_set_unchecked. Qed.
Theorem C107_m_for_each : forall S A M N (I : S -> Prop) (P : A -> Prop) (f : S -> A -> res S) s m,
  mat_of M N P m -> I s -> (forall s x, I s -> P x -> sound I (f s x)) -> sound I (m_for_each_st f s m).
Proof. exact safe_m_for_each_st. Qed.
Theorem C107_m_map_st : forall C A B M N (I : C -> Prop) (P : A -> Prop) (Q : B -> Prop) (f : C -> A -> res (C * B)) c m,
  mat_of M N P m -> I c -> (forall c x, I c -> P x -> sound (pair_of I Q) (f c x)) -> sound (pair_of I (mat_of M N Q)) (m_map_st f c m).
Proof. exact safe_m_map_st. Qed.
Theorem C107_m_map : forall A B M N (P : A -> Prop) (Q : B -> Prop) (f : A -> res B) m,
  mat_of M N P m -> (forall x, P x -> sound Q (f x)) -> sound (mat_of M N Q) (m_map f m).
Proof. exact safe_m_map. Qed.
Theorem C107_m_zip : forall A B M N (P : A -> Prop) (Q : B -> Prop) a b,
  mat_of M N P a -> mat_of M N Q b -> sound (mat_of M N (pair_of P Q)) (m_zip M N a b).
Proof. exact safe_m_zip. Qed.
Theorem C107_m_unzip : forall A B M N (P : A -> Prop) (Q : B -> Prop) l,
  mat_of M N (pair_of P Q) l -> sound (pair_of (mat_of M N P) (mat_of M N Q)) (m_unzip M N l).
Proof. exact safe_m_unzip. Qed.
Theorem C107_m_fold : forall S A M N (I : S -> Prop) (P : A -> Prop) (f : S -> A -> res S) s m,
  mat_of M N P m -> I s -> (forall s x, I s -> P x -> sound I (f s x)) -> sound I (m_fold f s m).
Proof. exact safe_m_fold. Qed.
Theorem C107_m_fold_first : forall A M N (P : A -> Prop) (f : A -> A -> res A) m,
  mat_of M N P m -> (forall x y, P x -> P y -> sound P (f x y)) -> sound P (m_fold_first f m).
Proof. exact safe_m_fold_first. Qed.
Theorem C107_m_scan_st : forall C A B M N (I : C -> Prop) (P : A -> Prop) (Q : B -> Prop) (f : C -> A -> res (C * B)) c m,
  mat_of M N P m -> I c -> (forall c x, I c -> P x -> sound (pair_of I Q) (f c x)) -> sound (pair_of I (mat_of M N Q)) (m_scan_st M N f c m).
Proof. exact safe_m_scan_st. Qed.
Theorem C107_m_iter : forall A M N (P : A -> Prop) m, mat_of M N P m -> sound (pair_of (Forall (Forall P)) (Forall P)) (m_iter m).
Proof. exact safe_m_iter. Qed.
Theorem C107_m_iter_next : forall A (P : A -> Prop) s, pair_of (Forall (Forall P)) (Forall P) s ->
  sound (pair_of (pair_of (Forall (Forall P)) (Forall P)) (opt_of P)) (m_iter_next s).
Proof. exact closed_flat_next. Qed.
Theorem C107_m_try_from_iter_of_vectors : forall S A M N (I : S -> Prop) (P : A -> Prop) (n : next_fn S (list A)) s,
  (forall s, I s -> sound (pair_of I (opt_of (vec_of N P))) (n s)) -> I s ->
  sound (pair_of I (opt_of (mat_of M N P))) (m_try_from_iter_of_vectors M n s).
Proof. exact safe_m_try_from_iter_of_vectors. Qed.
Theorem C107_m_try_from_iter : forall S A M N (I : S -> Prop) (P : A -> Prop) (n : next_fn S A) s,
  (forall s, I s -> sound (pair_of I (opt_of P)) (n s)) -> I s -> sound (pair_of I (opt_of (mat_of M N P))) (m_try_from_iter M N n s).
Proof. exact safe_m_try_from_iter. Qed.
Theorem C107_m_try_from_slice_of_vectors : forall A M N (P : A -> Prop) s, Forall (vec_of N P) s ->
  sound (opt_of (mat_of M N P)) (m_try_from_slice_of_vectors M s).
Proof. exact safe_m_try_from_slice_of_vectors. Qed.
Theorem C107_m_try_from_slice : forall A M N (P : A -> Prop) s, Forall P s -> sound (opt_of (mat_of M N P)) (m_try_from_slice M N s).
Proof. exact safe_m_try_from_slice. Qed.
Theorem C107_m_indices : forall M N, sound (mat_of M N (pair_of (fun i => i < M) (fun j => j < N))) (m_indices M N).
Proof. exact safe_m_indices. Qed.
Theorem C107_m_transpose : forall A M N (P : A -> Prop) m, mat_of M N P m -> sound (mat_of N M P) (m_transpose M N m).
Proof. exact safe_m_transpose. Qed.
Theorem C107_m_assign : forall T U M N (P : T -> Prop) (Q : U -> Prop) (opa : T -> U -> res T) a b,
  mat_of M N P a -> mat_of M N Q b -> (forall x y, P x -> Q y -> sound P (opa x y)) -> in_place (mat_of M N P) (m_assign M N opa a b).
Proof. exact safe_m_assign. Qed.
Theorem C107_m_assign_scalar : forall T U M N (P : T -> Prop) (Q : U -> Prop) (opa : T -> U -> res T) a x,
  mat_of M N P a -> Q x -> (forall x y, P x -> Q y -> sound P (opa x y)) -> in_place (mat_of M N P) (m_assign_scalar M N opa a x).
Proof. exact safe_m_assign_scalar. Qed.
Theorem C107_m_not : forall A M N (P : A -> Prop) f m, mat_of M N P m -> (forall x, P x -> sound P (f x)) -> sound (mat_of M N P) (m_not f m).
Proof. intros. unfold m_not. leaf. Qed.
Theorem C107_m_bitop : forall A M N (P : A -> Prop) f a b, mat_of M N P a -> mat_of M N P b -> (forall x y, P x -> P y -> sound P (f x y)) ->
  sound (mat_of M N P) (m_bitop M N f a b) /\ sound (mat_of M N P) (m_div_floor M N f a b) /\ sound (mat_of M N P) (m_mod_floor M N f a b).
Proof. intros. unfold m_bitop, m_div_floor, m_mod_floor. repeat split; leaf. Qed.
Theorem C107_m_div_mod_floor : forall A M N (P : A -> Prop) f a b, mat_of M N P a -> mat_of M N P b ->
  (forall x y, P x -> P y -> sound (pair_of P P) (f x y)) -> sound (pair_of (mat_of M N P) (mat_of M N P)) (m_div_mod_floor M N f a b).
Proof. intros. unfold m_div_mod_floor. safe. Qed.
Theorem C107_m_any : forall M N m, mat_of M N any m -> sound any (m_any M N m) /\ sound any (m_all M N m).
Proof.
  intros. unfold m_any, m_all. split; (eapply sound_bind; [eapply safe_m_iter; eauto|]); intros it Hit;
    [eapply safe_iter_any|eapply safe_iter_all]; eauto; apply closed_flat_next.
Qed.
Theorem C107_array_of_arrays : forall A M N (P : A -> Prop) m, mat_of M N P m ->
  sound (mat_of M N P) (m_from_array_of_arrays m) /\ sound (mat_of M N P) (m_into_array_of_arrays m).
Proof.
  intros. unfold m_from_array_of_arrays, m_into_array_of_arrays. split; (eapply sound_bind; [eapply safe_v_map; [exact H|]|]);
    try (intros r Hr; exact Hr); intros w Hw; exact Hw.
Qed.
Lemma safe_from_arrays : forall A M N (P : A -> Prop) m, mat_of M N P m -> sound (mat_of M N P) (m_from_array_of_arrays m).
Proof. intros. apply C107_array_of_arrays. auto. Qed.
Lemma safe_into_arrays : forall A M N (P : A -> Prop) m, mat_of M N P m -> sound (mat_of M N P) (m_into_array_of_arrays m).
Proof. intros. apply C107_array_of_arrays. auto. Qed.
Lemma safe_m_any : forall M N m, mat_of M N any m -> sound any (m_any M N m).
Proof. intros. apply C107_m_any. auto. Qed.
Lemma safe_m_all : forall M N m, mat_of M N any m -> sound any (m_all M N m).
Proof. intros. apply C107_m_any. auto. Qed.
Lemma safe_v_fill : forall A N (P : A -> Prop) x, P x -> sound (vec_of N P) (v_fill N x).
Proof. exact C107_v_fill. Qed.
Lemma safe_m_fill : forall A M N (P : A -> Prop) x, P x -> sound (mat_of M N P) (m_fill M N x).
Proof. intros. apply C107_m_fill. auto. Qed.
Ltac arrays ::= eapply safe_from_arrays; repeat (first [apply mat_cons | apply vec_cons | apply mat_nil | apply vec_nil]); eauto with safe.
#[global] Hint Resolve safe_from_arrays safe_into_arrays safe_m_any safe_m_all safe_v_fill safe_m_fill : safe.
Lemma ok1_any : forall A B (f : A -> B) x, sound any (ok1 f x).
Proof. exact (fun _ _ _ _ => I). Qed.
Lemma ok2_any : forall A B C (f : A -> B -> C) x y, sound any (ok2 f x y).
Proof. exact (fun _ _ _ _ _ _ => I). Qed.
Lemma ok1_in : forall A B (Q : B -> Prop) (f : A -> B) x, Q (f x) -> sound Q (ok1 f x).
Proof. exact (fun _ _ _ _ _ H => H). Qed.
Lemma ok2_in : forall A B C (Q : C -> Prop) (f : A -> B -> C) x y, Q (f x y) -> sound Q (ok2 f x y).
Proof. exact (fun _ _ _ _ _ _ _ H => H). Qed.
#[global] Hint Resolve ok1_in ok2_in : safe.
Lemma if_in : forall A (P : A -> Prop) (b : bool) x y, P x -> P y -> P (if b then x else y).
Proof. intros. destruct b; auto. Qed.
Lemma vec_weaken : forall A N (P : A -> Prop) v, vec_of N P v -> vec_of N any v.
Proof. intros A N P v (L & F). split; auto. apply Forall_forall. intros. exact I. Qed.
Lemma mat_weaken : forall A M N (P : A -> Prop) m, mat_of M N P m -> mat_of M N any m.
Proof. intros A M N P m H. apply mat_elt; [eapply mat_rect; eauto|]. intros. exact I. Qed.

(** Fixed components. *)
Ltac fix_get := intros; unfold v_x, v_y, v_z, v_w; eapply safe_v_get_unchecked; eauto; lia.
Ltac fix_set := intros; unfold v_x_set, v_y_set, v_z_set, v_w_set; eapply safe_v_set_unchecked; eauto; lia.
'''
for c,i in (("x",0),("y",1),("z",2),("w",3)):
    GENERIC += f"Theorem C107_v_{c} : forall A N (P : A -> Prop) v, vec_of N P v -> {i} < N -> sound P (v_{c} v).\nProof. fix_get. Qed.\n"
    GENERIC += f"Theorem C107_v_{c}_set : forall A N (P : A -> Prop) v x, vec_of N P v -> P x -> {i} < N -> sound (vec_of N P) (v_{c}_set v x).\nProof. fix_set. Qed.\n"
GENERIC += r'''
Lemma lt02 : 0 < 2. Proof. lia. Qed. Lemma lt12 : 1 < 2. Proof. lia. Qed.
Lemma lt03 : 0 < 3. Proof. lia. Qed. Lemma lt13 : 1 < 3. Proof. lia. Qed. Lemma lt23 : 2 < 3. Proof. lia. Qed.
Lemma lt04 : 0 < 4. Proof. lia. Qed. Lemma lt14 : 1 < 4. Proof. lia. Qed. Lemma lt24 : 2 < 4. Proof. lia. Qed. Lemma lt34 : 3 < 4. Proof. lia. Qed.
#[global] Hint Resolve lt02 lt12 lt03 lt13 lt23 lt04 lt14 lt24 lt34 : safe.
#[global] Hint Resolve C107_v_x C107_v_y C107_v_z C107_v_w C107_v_x_set C107_v_y_set C107_v_z_set C107_v_w_set : safe.
Ltac vec_cases H := let L := fresh in let F := fresh in destruct H as (L & F);
  repeat match type of L with length ?v = _ => destruct v; cbn in L; try discriminate; try (apply eq_add_S in L) end;
  repeat match goal with G : Forall _ (_ :: _) |- _ => inversion G; clear G; subst end.
Theorem C107_v_into_tuple2 : forall A (P : A -> Prop) v, vec_of 2 P v -> sound (pair_of P P) (v_into_tuple2 v).
Proof. intros A P v H. vec_cases H. cbn. split; auto. Qed.
Theorem C107_v_into_tuple3 : forall A (P : A -> Prop) v, vec_of 3 P v -> sound (pair_of (pair_of P P) P) (v_into_tuple3 v).
Proof. intros A P v H. vec_cases H. cbn. split; auto. split; auto. Qed.
Theorem C107_v_into_tuple4 : forall A (P : A -> Prop) v, vec_of 4 P v -> sound (pair_of (pair_of (pair_of P P) P) P) (v_into_tuple4 v).
Proof. intros A P v H. vec_cases H. cbn. split; auto. split; auto. split; auto. Qed.
Theorem C107_v_from_tuple : forall A (P : A -> Prop) a b c d, P a -> P b -> P c -> P d ->
  vec_of 2 P (v_from_tuple2 (a, b)) /\ vec_of 3 P (v_from_tuple3 (a, b, c)) /\ vec_of 4 P (v_from_tuple4 (a, b, c, d)).
Proof. intros. repeat split; cbn; repeat (constructor; auto). Qed.
Theorem C107_c_from_vector : forall A (P : A -> Prop) v, vec_of 2 P v -> sound (cx_of P) (c_from_vector v).
Proof. intros A P v H. vec_cases H. cbn. split; auto. Qed.
Theorem C107_q_from_vector : forall A (P : A -> Prop) v, vec_of 4 P v -> sound (qt_of P) (q_from_vector v).
Proof. intros A P v H. vec_cases H. cbn. repeat split; auto. Qed.
#[global] Hint Resolve C107_v_into_tuple2 C107_v_into_tuple3 C107_v_into_tuple4 C107_c_from_vector C107_q_from_vector : safe.
Lemma tuple2_vec : forall A (P : A -> Prop) t, pair_of P P t -> vec_of 2 P (v_from_tuple2 t).
Proof. intros A P (a & b) (H & K). repeat split; cbn; repeat (constructor; auto). Qed.
Lemma tuple3_vec : forall A (P : A -> Prop) a b c, P a -> P b -> P c -> vec_of 3 P (v_from_tuple3 (a, b, c)).
Proof. intros. repeat split; cbn; repeat (constructor; auto). Qed.
Lemma tuple4_vec : forall A (P : A -> Prop) t, pair_of (pair_of (pair_of P P) P) P t -> vec_of 4 P (v_from_tuple4 t).
Proof. intros A P (((a & b) & c) & d) (((H & K) & L) & J). repeat split; cbn; repeat (constructor; auto). Qed.
#[global] Hint Resolve tuple2_vec tuple3_vec tuple4_vec : safe.
'''
# (call, "arg:kind ...", result kind)
NOOPS = """
c_from_array v | v:v_2 | c
c_from_tuple t | t:(pair_of_P_P) | c
c_into_tuple z | z:c | (pair_of P P)
c_new x y | x:s y:s | c
c_re z | z:c | s
c_im z | z:c | s
c_re_set z x | z:c x:s | c
c_im_set z x | z:c x:s | c
q_from_array v | v:v_4 | q
q_from_tuple t | t:(pair_of_(pair_of_(pair_of_P_P)_P)_P) | q
q_into_tuple z | z:q | (pair_of (pair_of (pair_of P P) P) P)
q_new w x y z | w:s x:s y:s z:s | q
q_from_scalar_and_vector3 w v | w:s v:v_3 | q
q_into_scalar_and_vector3 z | z:q | (pair_of P (vec_of 3 P))
q_w z | z:q | s
q_x z | z:q | s
q_y z | z:q | s
q_z z | z:q | s
q_w_set z x | z:q x:s | q
q_x_set z x | z:q x:s | q
q_y_set z x | z:q x:s | q
q_z_set z x | z:q x:s | q
q_xyz z | z:q | v 3
mo_new a b c d | a:s b:s c:s d:s | m 2 2
mo_from_tuple t | t:(pair_of_(pair_of_(pair_of_P_P)_P)_P) | m 2 2
mo_into_tuple m | m:m_2_2 | (pair_of (pair_of (pair_of P P) P) P)
mo_a m | m:m_2_2 | s
mo_b m | m:m_2_2 | s
mo_c m | m:m_2_2 | s
mo_d m | m:m_2_2 | s
mo_a_ref m | m:m_2_2 | s
mo_b_ref m | m:m_2_2 | s
mo_c_ref m | m:m_2_2 | s
mo_d_ref m | m:m_2_2 | s
mo_a_set m x | m:m_2_2 x:s | m 2 2
mo_b_set m x | m:m_2_2 x:s | m 2 2
mo_c_set m x | m:m_2_2 x:s | m 2 2
mo_d_set m x | m:m_2_2 x:s | m 2 2
mo_from_array m | m:m_2_2 | m 2 2
mo_into_array m | m:m_2_2 | m 2 2
v_bc_self v | v:v_N | v N
m_bc_self m | m:m_M_N | m M N
v_bc_scalar N x | x:s | v N
m_bc_vector M v | v:v_N | m M N
m_bc_scalar M N x | x:s | m M N
c_from_num t | t:(pair_of_P_P) | c
c_into_num z | z:c | (pair_of P P)
"""
ARITH = """
v_neg o u | u:v_N | v N
v_add o N u v | u:v_N v:v_N | v N
v_sub o N u v | u:v_N v:v_N | v N
v_mul o N u v | u:v_N v:v_N | v N
v_div o N u v | u:v_N v:v_N | v N
v_rem o N u v | u:v_N v:v_N | v N
v_smul o u x | u:v_N x:s | v N
v_sdiv o u x | u:v_N x:s | v N
v_srem o u x | u:v_N x:s | v N
v_rsmul o x u | x:s u:v_N | v N
v_zero o N | | v N
v_sum o u | u:v_N | s
v_max o u | u:v_N | s
v_min o u | u:v_N | s
v_iter_sum o N l | l:(Forall_(vec_of_N_P)) | v N
v_iter_product o N l | l:(Forall_(vec_of_N_P)) | v N
v_dot o N u v | u:v_N v:v_N | s
v_square_length o u | u:v_N | s
v_norm_l2_sqr o u | u:v_N | s
v_veq o N u v | u:v_N v:v_N | (vec_of N any)
v_vne o N u v | u:v_N v:v_N | (vec_of N any)
v_vlt o N u v | u:v_N v:v_N | (vec_of N any)
v_vle o N u v | u:v_N v:v_N | (vec_of N any)
v_vgt o N u v | u:v_N v:v_N | (vec_of N any)
v_vge o N u v | u:v_N v:v_N | (vec_of N any)
v_cross2 o u v | u:v_2 v:v_2 | s
v_cross3 o u v | u:v_3 v:v_3 | v 3
v_cross4 o u v | u:v_4 v:v_4 | v 4
m_neg o a | a:m_M_N | m M N
m_add o M N a b | a:m_M_N b:m_M_N | m M N
m_sub o M N a b | a:m_M_N b:m_M_N | m M N
m_mul o M N a b | a:m_M_N b:m_M_N | m M N
m_div o M N a b | a:m_M_N b:m_M_N | m M N
m_rem o M N a b | a:m_M_N b:m_M_N | m M N
m_smul o a x | a:m_M_N x:s | m M N
m_sdiv o a x | a:m_M_N x:s | m M N
m_srem o a x | a:m_M_N x:s | m M N
m_zero o M N | | m M N
m_is_zero o M N a | a:m_M_N | any
m_sum o a | a:m_M_N | s
m_max o a | a:m_M_N | s
m_min o a | a:m_M_N | s
m_iter_sum o M N l | l:(Forall_(mat_of_M_N_P)) | m M N
m_iter_product o M N l | l:(Forall_(mat_of_M_N_P)) | m M N
m_norm_l2_sqr o a | a:m_M_N | s
m_veq o M N a b | a:m_M_N b:m_M_N | (mat_of M N any)
m_vne o M N a b | a:m_M_N b:m_M_N | (mat_of M N any)
m_vlt o M N a b | a:m_M_N b:m_M_N | (mat_of M N any)
m_vle o M N a b | a:m_M_N b:m_M_N | (mat_of M N any)
m_vgt o M N a b | a:m_M_N b:m_M_N | (mat_of M N any)
m_vge o M N a b | a:m_M_N b:m_M_N | (mat_of M N any)
m_outer o M N u v | u:v_M v:v_N | m M N
m_dot_v o M N a v | a:m_M_N v:v_N | v M
v_dot_m o M N v a | v:v_M a:m_M_N | v N
m_dot o L M N a b | a:m_L_M b:m_M_N | m L N
m_det o N a | a:m_N_N | s
m_cofactor o N a i j | a:m_N_N | s
m_adj o N a | a:m_N_N | m N N
m_inv o N a | a:m_N_N | m N N
m_Inv_inv o N a | a:m_N_N | m N N
m_diagonal o N v | v:v_N | m N N
m_one o N | | m N N
v_set_zero o N v | v:v_N | v N
m_set_zero o M N m | m:m_M_N | m M N
m_set_one o N m | m:m_N_N | m N N
m_is_one o N m | m:m_N_N | any
c_into_matrix o z | z:c | m 2 2
c_neg o z | z:c | c
c_conj o z | z:c | c
c_add o z w | z:c w:c | c
c_sub o z w | z:c w:c | c
c_add_s o z x | z:c x:s | c
c_sub_s o z x | z:c x:s | c
s_add_c o x z | x:s z:c | c
s_sub_c o x z | x:s z:c | c
c_zero o | | c
c_mul o z w | z:c w:c | c
c_mul_s o z x | z:c x:s | c
s_mul_c o x z | x:s z:c | c
c_one o | | c
c_i o | | c
c_norm_sqr o z | z:c | s
c_div_s o z x | z:c x:s | c
c_inv o z | z:c | c
c_div o z w | z:c w:c | c
s_div_c o x z | x:s z:c | c
c_dot o z w | z:c w:c | s
c_sum o l | l:(Forall_(cx_of_P)) | c
c_product o l | l:(Forall_(cx_of_P)) | c
c_mul_assign o z w | z:c w:c | c
c_mul_assign_s o z x | z:c x:s | c
c_div_assign o z w | z:c w:c | c
c_div_assign_s o z x | z:c x:s | c
c_set_zero o z | z:c | c
c_set_one o z | z:c | c
c_is_one o z | z:c | any
q_into_matrix o q | q:q | m 4 4
q_neg o q | q:q | q
q_conj o q | q:q | q
q_add o q r | q:q r:q | q
q_sub o q r | q:q r:q | q
q_add_c o q z | q:q z:c | q
q_sub_c o q z | q:q z:c | q
q_add_s o q x | q:q x:s | q
q_sub_s o q x | q:q x:s | q
s_add_q o x q | x:s q:q | q
c_add_q o z q | z:c q:q | q
s_sub_q o x q | x:s q:q | q
c_sub_q o z q | z:c q:q | q
q_zero o | | q
q_mul o q r | q:q r:q | q
q_mul_c o q z | q:q z:c | q
c_mul_q o z q | z:c q:q | q
q_mul_s o q x | q:q x:s | q
s_mul_q o x q | x:s q:q | q
q_one o | | q
q_i o | | q
q_j o | | q
q_k o | | q
q_norm_sqr o q | q:q | s
q_div_s o q x | q:q x:s | q
q_inv o q | q:q | q
q_div o q r | q:q r:q | q
q_div_c o q z | q:q z:c | q
c_div_q o z q | z:c q:q | q
s_div_q o x q | x:s q:q | q
q_dot o q r | q:q r:q | s
q_sum o l | l:(Forall_(qt_of_P)) | q
q_product o l | l:(Forall_(qt_of_P)) | q
q_mul_assign o q r | q:q r:q | q
q_mul_assign_c o q z | q:q z:c | q
q_mul_assign_s o q x | q:q x:s | q
q_div_assign o q r | q:q r:q | q
q_div_assign_c o q z | q:q z:c | q
q_div_assign_s o q x | q:q x:s | q
q_set_zero o q | q:q | q
q_set_one o q | q:q | q
q_is_one o q | q:q | any
mo_identity o | | m 2 2
mo_chain o a b | a:m_2_2 b:m_2_2 | m 2 2
mo_apply_self o a x | a:m_2_2 x:s | s
mo_apply_q o a q | a:(mat_of_2_2_(cx_of_P)) q:q | q
mo_det o a | a:m_2_2 | s
mo_normalize o a | a:m_2_2 | m 2 2
mo_inv o a | a:m_2_2 | m 2 2
mo_deriv o a z | a:(mat_of_2_2_(cx_of_P)) z:c | c
mo_deriv_dir o x a q r | x:s a:(mat_of_2_2_(cx_of_P)) q:q r:q | q
linear_normal_transform o N a | a:m_N_N | m N N
rot2_apply o z v | z:c v:v_2 | v 2
rot2_to_linear o z | z:c | m 2 2
rot3_apply o q v | q:q v:v_3 | v 3
"""
FLOAT = """
v_length o (f_sqrt F) u | u:v_N | s
v_normalize o (f_sqrt F) u | u:v_N | v N
v_norm_l2 o (f_sqrt F) u | u:v_N | s
m_norm_l2 o (f_sqrt F) a | a:m_M_N | s
v_norm_l1 o (ok1 (f_abs F)) u | u:v_N | s
v_norm_l_inf o (ok1 (f_abs F)) u | u:v_N | s
m_norm_l1 o (ok1 (f_abs F)) a | a:m_M_N | s
m_norm_l_inf o (ok1 (f_abs F)) a | a:m_M_N | s
c_norm_l1 o (ok1 (f_abs F)) z | z:c | s
q_norm_l1 o (ok1 (f_abs F)) q | q:q | s
c_norm o F z | z:c | s
c_arg F z | z:c | s
c_to_polar o F z | z:c | (pair_of P P)
c_from_polar o F x y | x:s y:s | c
c_normalize o F z | z:c | c
q_norm o F q | q:q | s
q_normalize o F q | q:q | q
look_at o F u v | u:v_3 v:v_3 | m 3 3
look_at_any o F u | u:v_3 | m 3 3
rot2_new F x | x:s | c
rot2_angle F z | z:c | s
rot3_to_linear o F q | q:q | m 3 3
rot3_new o F u x | u:v_3 x:s | q
rot3_axis o F q | q:q | v 3
rot3_angle o F q | q:q | s
rot3_flip o F q | q:q | q
"""
def pred(k):
    k=k.strip()
    if k=='s': return 'P'
    if k=='c': return '(cx_of P)'
    if k=='q': return '(qt_of P)'
    if k=='any': return 'any'
    if k.startswith('('): return k
    p=k.split()
    if p[0]=='v': return f'(vec_of {p[1]} P)'
    if p[0]=='m': return f'(mat_of {p[1]} {p[2]} P)'
    raise Exception(k)
def line(l, ind='  '):
    call,args,r=[x.strip() for x in l.split('|')]
    hyps=[];vs=[]
    for a in args.split():
        n,k=a.split(':',1); k=k.replace('_',' ')
        for t in ('pair of','vec of','mat of','cx of','qt of'): k=k.replace(t,t.replace(' ','_'))
        vs.append(n); hyps.append(f"{pred(k)} {n}")
    name=call.split()[0]
    nats=[x for x in ('L','M','N','i','j') if re.search(rf'\b{x}\b',call+' '+' '.join(hyps)+' '+pred(r))]
    allv=nats+vs
    fa=f"forall {' '.join(allv)}, " if allv else ""
    hs="".join(h.strip('()') + " -> " if False else h+" -> " for h in hyps)
    hs=re.sub(r'\((vec_of \w+ P|mat_of \w+ \w+ P|cx_of P|qt_of P)\) (\w+) ->',r'\1 \2 ->',hs)
    hs=re.sub(r'\((.*?)\) (t|l|a) ->',lambda m: m.group(0) if m.group(1).count('(')!=m.group(1).count(')') else f'{m.group(1)} {m.group(2)} ->',hs)
    return name,f"{ind}Theorem C107_{name} : {fa}{hs}sound {pred(r)} ({call})."
SPECIAL={
 'c_new':'intros. unfold c_new. apply C107_c_from_vector. repeat split; cbn; repeat (constructor; auto).',
 'q_new':'intros. unfold q_new. apply C107_q_from_vector. repeat split; cbn; repeat (constructor; auto).',
 'mo_from_tuple':'intros (((a & b) & c) & d) (((? & ?) & ?) & ?). cbn [mo_from_tuple]. apply C107_mo_new; auto.',
 'mo_into_tuple':'intros m Hm. unfold mo_into_tuple, m_into_vector_of_vectors. eapply sound_bind; [apply C107_v_into_tuple2; exact Hm|]. intros (ab & cd) (H1 & H2). cbn in H1, H2. safe.',
 'm_bc_vector':'intros. unfold m_bc_vector. eapply sound_bind; [apply C107_v_fill; exact H|]. intros w Hw. exact Hw.',
 'c_from_num':'intros t (H1 & H2). unfold c_from_num. apply C107_c_new; auto.',
 'v_max':'intros. unfold v_max. eapply safe_v_fold_first; eauto. intros. cbn. apply if_in; auto.',
 'v_min':'intros. unfold v_min. eapply safe_v_fold_first; eauto. intros. cbn. apply if_in; auto.',
 'm_max':'intros. unfold m_max. eapply safe_m_fold_first; eauto. intros. cbn. apply if_in; auto.',
 'm_min':'intros. unfold m_min. eapply safe_m_fold_first; eauto. intros. cbn. apply if_in; auto.',
 'm_is_zero':'intros. unfold m_is_zero. eapply sound_bind; [eapply safe_m_iter; eauto|]. intros it Hit. eapply safe_iter_all; eauto. apply closed_flat_next.',
}
for n in ('v_iter_sum','v_iter_product','m_iter_sum','m_iter_product','c_sum','c_product','q_sum','q_product'):
    R={'v':'vec_of N P','m':'mat_of M N P','c':'cx_of P','q':'qt_of P'}[n[0]]
    SPECIAL[n]=f'intros. unfold {n}. eapply sound_bind with (P := {R}); [leaf|]. intros. eapply sound_fold_res; eauto. intros. leaf.'
SPECIAL['m_outer']='intros. unfold m_outer. eapply sound_bind; [apply safe_m_indices|]. intros. eapply safe_m_map; eauto. intros (i & j) _. safe.'
SPECIAL['m_dot']='intros. unfold m_dot. eapply sound_bind; [apply safe_m_indices|]. intros. eapply safe_m_map; eauto. intros (i & j) _. safe.'
SPECIAL['m_dot_v']='intros. unfold m_dot_v. eapply sound_bind; [apply safe_v_indices|]. intros. eapply safe_v_map; eauto. intros i _. safe.'
SPECIAL['v_dot_m']='intros. unfold v_dot_m. eapply sound_bind; [apply safe_v_indices|]. intros. eapply safe_v_map; eauto. intros i _. safe.'
SPECIAL['m_one']='intros. unfold m_one. eapply sound_bind; [apply safe_m_indices|]. intros. eapply safe_m_map; eauto. intros (i & j) _. cbn. apply if_in; leaf.'
SPECIAL['m_adj']='intros. unfold m_adj. eapply sound_bind; [apply safe_m_indices|]. intros. eapply safe_m_map; eauto. intros (i & j) _. leaf.'
SPECIAL['m_diagonal']='''intros. unfold m_diagonal. eapply sound_bind; [apply safe_m_indices|]. intros ix Hix.
    eapply sound_bind with (P := pair_of (Forall P) (mat_of N N P)); [|intros (? & ?) (_ & X); exact X].
    eapply safe_m_map_st; eauto; [apply H|]. intros it (i & j) Hit _. destruct (i =? j); [|split; cbn; leaf].
    eapply sound_bind; [apply (closed_list_next Hit)|]. intros (it1 & x) (H1 & H2). cbn in H1, H2. safe.'''
SPECIAL['m_det']='''intros. unfold m_det. eapply sound_bind; [eapply safe_d_det; eauto|]. intros (s & x) X. exact X.'''
SPECIAL['m_cofactor']='''intros. unfold m_cofactor. destruct (_ && _); [|exact I]. eapply sound_bind; [eapply safe_d_cofactor; intros; eapply safe_d_det; eauto|].
    intros (s & x) X. exact X.'''
for n,t in (('mo_apply_self','mo_apply_self, mo_apply'),('mo_apply_q','mo_apply_q, mo_apply'),('v_rsmul','v_rsmul')):
    SPECIAL[n]=f'intros. unfold {t}. safe.'
SPECIAL['rot3_to_linear']='intros. unfold rot3_to_linear. cbv zeta. safe.'
SPECIAL['rot3_apply']='intros. unfold rot3_apply. eapply sound_bind with (P := qt_of P); [leaf|]. intros. safe.'
for n,R in (('v_norm_l1','vec_of N P'),('v_norm_l_inf','vec_of N P'),('m_norm_l1','mat_of M N P'),('m_norm_l_inf','mat_of M N P')):
    SPECIAL[n]=f'intros. unfold {n}. eapply sound_bind with (P := {R}); [leaf|]. intros. safe.'
for n in ('v_length','v_norm_l2','m_norm_l2'):
    SPECIAL[n]=f'intros. unfold {n}. eapply sound_bind with (P := P); [leaf|]. intros. leaf.'
DET = r'''
  (** The determinant's recursion *)
  Lemma safe_d_cofactor : forall (rec : smask -> res (smask * T)) s a b, (forall s, sound (fun p => P (snd p)) (rec s)) ->
    sound (fun p => P (snd p)) (d_cofactor o rec s a b).
  Proof.
    intros rec s (i & ri) (j & rj) K. unfold d_cofactor. eapply sound_bind with (P := any).
    { unfold smask_exclude, index_set. destruct (_ <? _); [|exact I]. cbn [bind]. destruct (_ <? _); [|exact I]. cbn [bind]. destruct (sm_deg s); exact I. }
    intros s1 _. eapply sound_bind; [apply K|]. intros (s2 & x) Hx. cbn in Hx. eapply sound_bind with (P := P).
    { destruct (_ =? _); [exact Hx|]. apply (cl_neg HP). exact Hx. }
    intros y Hy. eapply sound_bind with (P := any).
    { unfold smask_include, index_set. destruct (_ <? _); [|exact I]. cbn [bind]. destruct (_ <? _); exact I. }
    intros s3 _. exact Hy.
  Qed.
  Lemma safe_mask_find : forall data fuel i, sound any (mask_find fuel data i).
  Proof.
    intros data. induction fuel as [|k IH]; intros i; cbn [mask_find]; [exact I|]. eapply sound_bind with (P := any).
    { unfold index. destruct (nth_error data i); exact I. } intros [] _; [exact I|apply IH].
  Qed.
  Lemma safe_d_loop : forall N M' N' m (rec : smask -> res (smask * T)), mat_of M' N' P m -> (forall s, sound (fun p => P (snd p)) (rec s)) ->
    forall left rj i j s x, P x -> sound (fun p => P (snd p)) (d_loop o N m rec left rj i j s x).
  Proof.
    intros N M' N' m rec Hm K. induction left as [|l IH]; intros rj i j s x Hx; cbn [d_loop]. { exact Hx. }
    eapply sound_bind; [apply safe_mask_find|]. intros j1 _. eapply sound_bind; [eapply safe_m_index; eauto|]. intros y Hy.
    eapply sound_bind; [apply safe_d_cofactor; auto|]. intros (s1 & c) Hc. cbn in Hc.
    eapply sound_bind; [apply (cl_mul HP); eauto|]. intros p Hp. eapply sound_bind; [apply (cl_add HP); eauto|]. intros z Hz. apply IH. exact Hz.
  Qed.
  Lemma safe_d_det : forall N M' N' m, mat_of M' N' P m -> forall fuel s, sound (fun p => P (snd p)) (d_det o N m fuel s).
  Proof.
    intros N M' N' m Hm. induction fuel as [|k IH]; intros s; cbn [d_det]; [exact I|]. destruct (sm_deg s =? 0). { apply (cl_one HP). }
    eapply sound_bind; [apply safe_mask_find|]. intros i _. eapply safe_d_loop; eauto; try apply (cl_zero HP).
  Qed.
'''
def emit(block, w):
    for l in block.strip().splitlines():
        n,t=line(l)
        w(t)
        w("  Proof. "+SPECIAL.get(n,f"intros. unfold {n}. safe.")+" Qed.")
        w(f"  Hint Resolve C107_{n} : safe.")
if __name__=='__main__':
    out=[]; w=out.append
    w(HEAD); w(GENERIC)
    w("(* ------------------------------------------------------------------------- *)\n(** * Components and conversions                                               *)\nSection Conv.\n  Context {T : Type} (P : T -> Prop).")
    emit(NOOPS,w)
    names=[line(l)[0] for l in NOOPS.strip().splitlines()]
    w("End Conv.")
    w("#[global] Hint Resolve "+" ".join("C107_"+n for n in names)+" : safe.\n")
    w("(* ------------------------------------------------------------------------- *)\n(** * Arithmetic                                                               *)\nSection Arith.\n  Context {T : Type} (P : T -> Prop) (o : Ops T) (HP : closed P o).\n  Let h0 := cl_zero HP. Let h1 := cl_one HP.\n  Hint Resolve h0 h1 : safe.")
    w(DET)
    emit(ARITH,w)
    names=[line(l)[0] for l in ARITH.strip().splitlines()]
    w("End Arith.")
    w("#[global] Hint Resolve "+" ".join("C107_"+n for n in names)+" : safe.\n")
    w("(* ------------------------------------------------------------------------- *)\n(** * Floats                                                                   *)\nSection Float.\n  Context {T : Type} (P : T -> Prop) (o : Ops T) (HP : closed P o) (F : FloatOps T) (HF : closed_float P F).\n  Let h0 := cl_zero HP. Let h1 := cl_one HP. Let h2 := cl_sqrt HF. Let h3 := cl_sin HF. Let h4 := cl_cos HF. Let h5 := cl_atan2 HF.\n  Let h6 := cl_abs HF. Let h7 := cl_pi HF. Let h8 := cl_two HF. Let h9 := cl_half HF. Let h10 := cl_epsilon HF.\n  Hint Resolve h0 h1 h2 h3 h4 h5 h6 h7 h8 h9 h10 : safe.")
    emit(FLOAT,w)
    names=[line(l)[0] for l in FLOAT.strip().splitlines()]
    w("End Float.")
    w("#[global] Hint Resolve "+" ".join("C107_"+n for n in names)+" : safe.\n")
    w(open('/verif/tools/safe_tail.txt').read())
    open('/verif/rocq/theories/PropSafe.v','w').write("\n".join(out))
