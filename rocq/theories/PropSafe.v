(** C107: a safe call never has undefined behaviour, whatever its arguments, unless a callback or a scalar operation
    itself does; what it returns has the declared dimensions; and every set of scalars closed under the scalar operations
    is preserved.  One theorem per function.  Generated by tools/gen_safe.py. *)
From Coq Require Import ZArith SpecFloat Lia String.
From Flocq Require IEEE754.BinarySingleNaN.
From Verif Require Import Spec SpecSafe SpecMachine SafeFacts MathModel ViewModel UnitModel NumModel DeriveModel Instances FloatInst FlocqFacts.
Set Implicit Arguments.
Local Open Scope nat_scope.
Local Open Scope list_scope.

Create HintDb safe discriminated.
#[global] Hint Constants Opaque : safe.
#[global] Hint Resolve sound_ok cl_add cl_sub cl_mul cl_div cl_rem cl_neg ct_identity ct_inv ct_apply ct_deriv ct_chain cd_dir cd_normal safe_unwrap : safe.
#[global] Hint Resolve safe_v_init safe_v_init_const safe_v_index safe_v_index_set safe_v_try_from_iter safe_v_indices safe_v_map_st safe_v_map
  safe_v_zip safe_v_unzip safe_v_fold safe_v_for_each_st safe_v_fold_first safe_v_scan_st safe_v_zip_map safe_v_assign safe_v_assign_scalar
  safe_m_init safe_m_init_const safe_m_index safe_m_index_set safe_m_row safe_m_row_set safe_m_col safe_m_map_st safe_m_map safe_m_zip
  safe_m_unzip safe_m_fold safe_m_for_each_st safe_m_fold_first safe_m_scan_st safe_m_try_from_iter_of_vectors safe_m_try_from_iter
  safe_m_try_from_slice_of_vectors safe_m_try_from_slice safe_m_indices safe_m_transpose safe_m_zip_map safe_m_assign safe_m_assign_scalar
  safe_m_iter : safe.

Lemma vec_nil : forall A (P : A -> Prop), vec_of 0 P [].
Proof. split; constructor. Qed.
Lemma vec_cons : forall A (P : A -> Prop) N x v, P x -> vec_of N P v -> vec_of (S N) P (x :: v).
Proof. intros A P N x v Hx (L & F). split; cbn; auto. Qed.
Lemma mat_nil : forall A (P : A -> Prop) N, mat_of 0 N P [].
Proof. split; constructor. Qed.
Lemma mat_cons : forall A (P : A -> Prop) M N r m, vec_of N P r -> mat_of M N P m -> mat_of (S M) N P (r :: m).
Proof. intros. apply vec_cons; auto. Qed.
Lemma c_vec : forall A (P : A -> Prop) z, cx_of P z -> vec_of 2 P (c_into_vector z).
Proof. intros A P z (H & K). repeat apply vec_cons; auto. apply vec_nil. Qed.
Lemma q_vec : forall A (P : A -> Prop) z, qt_of P z -> vec_of 4 P (q_into_vector z).
Proof. intros A P z (H & K & L & J). repeat apply vec_cons; auto. apply vec_nil. Qed.
Lemma vec_arr : forall A (P : A -> Prop) N v, vec_of N P v -> vec_of N P (v_from_array v).
Proof. auto. Qed.
Lemma mat_arr : forall A (P : A -> Prop) M N m, mat_of M N P m -> mat_of M N P (m_from_array_of_vectors m).
Proof. auto. Qed.
Lemma any_I : forall A (a : A), any a.
Proof. exact (fun _ _ => I). Qed.
Lemma pair_I : forall A B (P : A -> Prop) (Q : B -> Prop) a b, P a -> Q b -> pair_of P Q (a, b).
Proof. split; auto. Qed.
Lemma some_I : forall A (P : A -> Prop) a, P a -> opt_of P (Some a).
Proof. auto. Qed.
Lemma none_I : forall A (P : A -> Prop), opt_of P None.
Proof. exact (fun _ _ => I). Qed.
#[global] Hint Resolve vec_nil vec_cons mat_nil mat_cons c_vec q_vec vec_arr mat_arr any_I pair_I some_I none_I : safe.

Ltac unpack := repeat match goal with
  | x : prod _ _ |- _ => destruct x
  | H : pair_of _ _ _ |- _ => destruct H as (? & ?); cbn [fst snd] in *
  | H : opt_of _ (Some _) |- _ => cbn [opt_of] in H
  end; cbn beta iota.
Ltac arrays := fail.
Ltac leaf := solve [eauto 14 with safe | cbn [fst snd]; eauto 14 with safe | arrays].
Ltac safe :=
  lazymatch goal with
  | |- sound ?Q (bind (Ok ?a) ?f) => change (sound Q (f a)); cbn beta iota; safe
  | |- sound _ (bind (lift2 _ _ _) _) => eapply sound_bind; [safe|intros; unpack; safe]
  | |- sound _ (bind (lift1 _ _) _) => eapply sound_bind; [safe|intros; unpack; safe]
  | |- sound _ (bind (bind _ _) _) => eapply sound_bind; [safe|intros; unpack; safe]
  | |- sound _ (bind _ _) => eapply sound_bind; [leaf|intros; unpack; safe]
  | |- sound _ (lift2 _ _ _) => eapply sound_lift2; [safe|safe|intros; safe]
  | |- sound _ (lift1 _ _) => eapply sound_lift1; [safe|intros; safe]
  | |- sound _ (if ?b then _ else _) => destruct b; safe
  | |- sound _ (match ?x with Some _ => _ | None => _ end) => destruct x; unpack; safe
  | |- _ => leaf
  end.
(** The theorem named [C107_f] unfolds [f] and follows its code. *)

(* ------------------------------------------------------------------------- *)
(** * Containers with callbacks: any element type, any closure                  *)


Theorem C107_v_init : forall C A N (I : C -> Prop) (P : A -> Prop) (f : C -> res (C * A)) c,
  (forall c, I c -> sound (pair_of I P) (f c)) -> I c -> sound (pair_of I (vec_of N P)) (v_init N f c).
Proof. exact safe_v_init. Qed.
Theorem C107_v_fill : forall A N (P : A -> Prop) x, P x -> sound (vec_of N P) (v_fill N x).
Proof. intros. unfold v_fill. leaf. Qed.
Theorem C107_v_default : forall A N (P : A -> Prop) x, P x -> sound (vec_of N P) (v_default N x) /\ sound (vec_of N P) (v_new N x).
Proof. intros. unfold v_new, v_default. split; leaf. Qed.
Theorem C107_v_index : forall A N (P : A -> Prop) v i, vec_of N P v -> sound P (v_index v i).
Proof. exact safe_v_index. Qed.
Theorem C107_v_index_set : forall A N (P : A -> Prop) v i x, vec_of N P v -> P x -> sound (vec_of N P) (v_index_set v i x).
Proof. exact safe_v_index_set. Qed.
(** The unsafe accessors, under their documented condition. *)
Theorem C107_v_get_unchecked : forall A N (P : A -> Prop) v i, vec_of N P v -> i < N -> sound P (v_get_unchecked v i).
Proof. exact safe_v_get_unchecked. Qed.
Theorem C107_v_set_unchecked : forall A N (P : A -> Prop) v i x, vec_of N P v -> P x -> i < N -> sound (vec_of N P) (v_set_unchecked v i x).
Proof. exact safe_v_set_unchecked. Qed.
Theorem C107_v_try_from_slice : forall A N (P : A -> Prop) s, Forall P s -> opt_of (vec_of N P) (v_try_from_slice N s).
Proof. intros. unfold v_try_from_slice. destruct (Nat.eqb_spec (length s) N); cbn; auto. split; auto. Qed.
Theorem C107_v_try_from_iter : forall S A N (I : S -> Prop) (P : A -> Prop) (n : next_fn S A) s,
  (forall s, I s -> sound (pair_of I (opt_of P)) (n s)) -> I s -> sound (pair_of I (opt_of (vec_of N P))) (v_try_from_iter N n s).
Proof. exact safe_v_try_from_iter. Qed.
Theorem C107_v_indices : forall N, sound (vec_of N (fun i => i < N)) (v_indices N).
Proof. exact safe_v_indices. Qed.
Theorem C107_v_for_each : forall S A N (I : S -> Prop) (P : A -> Prop) (f : S -> A -> res S) s v,
  vec_of N P v -> I s -> (forall s x, I s -> P x -> sound I (f s x)) -> sound I (v_for_each_st f s v).
Proof. exact safe_v_for_each_st. Qed.
Theorem C107_v_map_st : forall C A B N (I : C -> Prop) (P : A -> Prop) (Q : B -> Prop) (f : C -> A -> res (C * B)) c v,
  vec_of N P v -> I c -> (forall c x, I c -> P x -> sound (pair_of I Q) (f c x)) -> sound (pair_of I (vec_of N Q)) (v_map_st f c v).
Proof. exact safe_v_map_st. Qed.
Theorem C107_v_map : forall A B N (P : A -> Prop) (Q : B -> Prop) (f : A -> res B) v,
  vec_of N P v -> (forall x, P x -> sound Q (f x)) -> sound (vec_of N Q) (v_map f v).
Proof. exact safe_v_map. Qed.
Theorem C107_v_zip : forall A B N (P : A -> Prop) (Q : B -> Prop) u v,
  vec_of N P u -> vec_of N Q v -> sound (vec_of N (pair_of P Q)) (v_zip N u v).
Proof. exact safe_v_zip. Qed.
Theorem C107_v_enumerate : forall A N (P : A -> Prop) v, vec_of N P v -> sound (vec_of N (pair_of (fun i => i < N) P)) (v_enumerate N v).
Proof. intros. unfold v_enumerate. safe. Qed.
Theorem C107_v_unzip : forall A B N (P : A -> Prop) (Q : B -> Prop) l,
  vec_of N (pair_of P Q) l -> sound (pair_of (vec_of N P) (vec_of N Q)) (v_unzip N l).
Proof. exact safe_v_unzip. Qed.
Theorem C107_v_fold : forall S A N (I : S -> Prop) (P : A -> Prop) (f : S -> A -> res S) s v,
  vec_of N P v -> I s -> (forall s x, I s -> P x -> sound I (f s x)) -> sound I (v_fold f s v).
Proof. exact safe_v_fold. Qed.
Theorem C107_v_fold_first : forall A N (P : A -> Prop) (f : A -> A -> res A) v,
  vec_of N P v -> (forall x y, P x -> P y -> sound P (f x y)) -> sound P (v_fold_first f v).
Proof. exact safe_v_fold_first. Qed.
Theorem C107_v_scan_st : forall C A B N (I : C -> Prop) (P : A -> Prop) (Q : B -> Prop) (f : C -> A -> res (C * B)) c v,
  vec_of N P v -> I c -> (forall c x, I c -> P x -> sound (pair_of I Q) (f c x)) -> sound (pair_of I (vec_of N Q)) (v_scan_st N f c v).
Proof. exact safe_v_scan_st. Qed.
Theorem C107_group_next : forall S A N (I : S -> Prop) (P : A -> Prop) (n : next_fn S A) s,
  (forall s, I s -> sound (pair_of I (opt_of P)) (n s)) -> I s -> sound (pair_of I (opt_of (vec_of N P))) (group_next N n s).
Proof. intros. apply safe_group_next; auto. Qed.
Theorem C107_v_assign : forall T U (P : T -> Prop) (Q : U -> Prop) (opa : T -> U -> res T) N a b,
  vec_of N P a -> vec_of N Q b -> (forall x y, P x -> Q y -> sound P (opa x y)) -> in_place (vec_of N P) (v_assign opa a b).
Proof. intros. eapply safe_v_assign; eauto. Qed.
Theorem C107_v_assign_scalar : forall T U (P : T -> Prop) (Q : U -> Prop) (opa : T -> U -> res T) N a x,
  vec_of N P a -> Q x -> (forall x y, P x -> Q y -> sound P (opa x y)) -> in_place (vec_of N P) (v_assign_scalar opa a x).
Proof. exact safe_v_assign_scalar. Qed.
Theorem C107_v_not : forall A N (P : A -> Prop) f v, vec_of N P v -> (forall x, P x -> sound P (f x)) -> sound (vec_of N P) (v_not f v).
Proof. intros. unfold v_not. leaf. Qed.
Theorem C107_v_bitop : forall A N (P : A -> Prop) f u v, vec_of N P u -> vec_of N P v -> (forall x y, P x -> P y -> sound P (f x y)) ->
  sound (vec_of N P) (v_bitop N f u v) /\ sound (vec_of N P) (v_div_floor N f u v) /\ sound (vec_of N P) (v_mod_floor N f u v).
Proof. intros. unfold v_bitop, v_div_floor, v_mod_floor. repeat split; leaf. Qed.
Theorem C107_v_div_mod_floor : forall A N (P : A -> Prop) f u v, vec_of N P u -> vec_of N P v ->
  (forall x y, P x -> P y -> sound (pair_of P P) (f x y)) -> sound (pair_of (vec_of N P) (vec_of N P)) (v_div_mod_floor N f u v).
Proof. intros. unfold v_div_mod_floor. safe. Qed.
Theorem C107_m_init : forall C A M N (I : C -> Prop) (P : A -> Prop) (f : C -> res (C * A)) c,
  (forall c, I c -> sound (pair_of I P) (f c)) -> I c -> sound (pair_of I (mat_of M N P)) (m_init M N f c).
Proof. exact safe_m_init. Qed.
Theorem C107_m_fill : forall A M N (P : A -> Prop) x, P x -> sound (mat_of M N P) (m_fill M N x) /\ sound (mat_of M N P) (m_default M N x).
Proof. intros. unfold m_fill, m_default. split; leaf. Qed.
Theorem C107_m_index : forall A M N (P : A -> Prop) m ij, mat_of M N P m -> sound P (m_index m ij).
Proof. exact safe_m_index. Qed.
Theorem C107_m_index_set : forall A M N (P : A -> Prop) m ij x, mat_of M N P m -> P x -> sound (mat_of M N P) (m_index_set m ij x).
Proof. exact safe_m_index_set. Qed.
Theorem C107_m_row : forall A M N (P : A -> Prop) m i, mat_of M N P m -> sound (vec_of N P) (m_row m i).
Proof. exact safe_m_row. Qed.
Theorem C107_m_row_set : forall A M N (P : A -> Prop) m i r, mat_of M N P m -> vec_of N P r -> sound (mat_of M N P) (m_row_set m i r).
Proof. exact safe_m_row_set. Qed.
Theorem C107_m_col : forall A M N (P : A -> Prop) m j, mat_of M N P m -> sound (vec_of M P) (m_col M m j).
Proof. exact safe_m_col. Qed.
Theorem C107_m_get_unchecked : forall A M N (P : A -> Prop) m i j, mat_of M N P m -> i < M -> j < N -> sound P (m_get_unchecked m i j).
Proof. exact safe_m_get_unchecked. Qed.
Theorem C107_m_set_unchecked : forall A M N (P : A -> Prop) m i j x, mat_of M N P m -> P x -> i < M -> j < N ->
  sound (mat_of M N P) (m_set_unchecked m i j x).
Proof. exact safe_m_set_unchecked. Qed.
Theorem C107_m_for_each : forall S A M N (I : S -> Prop) (P : A -> Prop) (f : S -> A -> res S) s m,
  mat_of M N P m -> I s -> (forall s x, I s -> P x -> sound I (f s x)) -> sound I (m_for_each_st f s m).
Proof. exact safe_m_for_each_st. Qed.
Theorem C107_m_map_st : forall C A B M N (I : C -> Prop) (P : A -> Prop) (Q : B -> Prop) (f : C -> A -> res (C * B)) c m,
  mat_of M N P m -> I c -> (forall c x, I c -> P x -> sound (pair_of I Q) (f c x)) -> sound (pair_of I (mat_of M N Q)) (m_map_st f c m).
Proof. exact safe_m_map_st. Qed.
Theorem C107_m_map : forall A B M N (P : A -> Prop) (Q : B -> Prop) (f : A -> res B) m,
  mat_of M N P m -> (forall x, P x -> sound Q (f x)) -> sound (mat_of M N Q) (m_map f m).
Proof. exact safe_m_map. Qed.
Theorem C107_m_zip : forall A B M N (P : A -> Prop) (Q : B -> Prop) a b,
  mat_of M N P a -> mat_of M N Q b -> sound (mat_of M N (pair_of P Q)) (m_zip M N a b).
Proof. exact safe_m_zip. Qed.
Theorem C107_m_unzip : forall A B M N (P : A -> Prop) (Q : B -> Prop) l,
  mat_of M N (pair_of P Q) l -> sound (pair_of (mat_of M N P) (mat_of M N Q)) (m_unzip M N l).
Proof. exact safe_m_unzip. Qed.
Theorem C107_m_fold : forall S A M N (I : S -> Prop) (P : A -> Prop) (f : S -> A -> res S) s m,
  mat_of M N P m -> I s -> (forall s x, I s -> P x -> sound I (f s x)) -> sound I (m_fold f s m).
Proof. exact safe_m_fold. Qed.
Theorem C107_m_fold_first : forall A M N (P : A -> Prop) (f : A -> A -> res A) m,
  mat_of M N P m -> (forall x y, P x -> P y -> sound P (f x y)) -> sound P (m_fold_first f m).
Proof. exact safe_m_fold_first. Qed.
Theorem C107_m_scan_st : forall C A B M N (I : C -> Prop) (P : A -> Prop) (Q : B -> Prop) (f : C -> A -> res (C * B)) c m,
  mat_of M N P m -> I c -> (forall c x, I c -> P x -> sound (pair_of I Q) (f c x)) -> sound (pair_of I (mat_of M N Q)) (m_scan_st M N f c m).
Proof. exact safe_m_scan_st. Qed.
Theorem C107_m_iter : forall A M N (P : A -> Prop) m, mat_of M N P m -> sound (pair_of (Forall (Forall P)) (Forall P)) (m_iter m).
Proof. exact safe_m_iter. Qed.
Theorem C107_m_iter_next : forall A (P : A -> Prop) s, pair_of (Forall (Forall P)) (Forall P) s ->
  sound (pair_of (pair_of (Forall (Forall P)) (Forall P)) (opt_of P)) (m_iter_next s).
Proof. exact closed_flat_next. Qed.
Theorem C107_m_try_from_iter_of_vectors : forall S A M N (I : S -> Prop) (P : A -> Prop) (n : next_fn S (list A)) s,
  (forall s, I s -> sound (pair_of I (opt_of (vec_of N P))) (n s)) -> I s ->
  sound (pair_of I (opt_of (mat_of M N P))) (m_try_from_iter_of_vectors M n s).
Proof. exact safe_m_try_from_iter_of_vectors. Qed.
Theorem C107_m_try_from_iter : forall S A M N (I : S -> Prop) (P : A -> Prop) (n : next_fn S A) s,
  (forall s, I s -> sound (pair_of I (opt_of P)) (n s)) -> I s -> sound (pair_of I (opt_of (mat_of M N P))) (m_try_from_iter M N n s).
Proof. exact safe_m_try_from_iter. Qed.
Theorem C107_m_try_from_slice_of_vectors : forall A M N (P : A -> Prop) s, Forall (vec_of N P) s ->
  sound (opt_of (mat_of M N P)) (m_try_from_slice_of_vectors M s).
Proof. exact safe_m_try_from_slice_of_vectors. Qed.
Theorem C107_m_try_from_slice : forall A M N (P : A -> Prop) s, Forall P s -> sound (opt_of (mat_of M N P)) (m_try_from_slice M N s).
Proof. exact safe_m_try_from_slice. Qed.
Theorem C107_m_indices : forall M N, sound (mat_of M N (pair_of (fun i => i < M) (fun j => j < N))) (m_indices M N).
Proof. exact safe_m_indices. Qed.
Theorem C107_m_transpose : forall A M N (P : A -> Prop) m, mat_of M N P m -> sound (mat_of N M P) (m_transpose M N m).
Proof. exact safe_m_transpose. Qed.
Theorem C107_m_assign : forall T U M N (P : T -> Prop) (Q : U -> Prop) (opa : T -> U -> res T) a b,
  mat_of M N P a -> mat_of M N Q b -> (forall x y, P x -> Q y -> sound P (opa x y)) -> in_place (mat_of M N P) (m_assign M N opa a b).
Proof. exact safe_m_assign. Qed.
Theorem C107_m_assign_scalar : forall T U M N (P : T -> Prop) (Q : U -> Prop) (opa : T -> U -> res T) a x,
  mat_of M N P a -> Q x -> (forall x y, P x -> Q y -> sound P (opa x y)) -> in_place (mat_of M N P) (m_assign_scalar M N opa a x).
Proof. exact safe_m_assign_scalar. Qed.
Theorem C107_m_not : forall A M N (P : A -> Prop) f m, mat_of M N P m -> (forall x, P x -> sound P (f x)) -> sound (mat_of M N P) (m_not f m).
Proof. intros. unfold m_not. leaf. Qed.
Theorem C107_m_bitop : forall A M N (P : A -> Prop) f a b, mat_of M N P a -> mat_of M N P b -> (forall x y, P x -> P y -> sound P (f x y)) ->
  sound (mat_of M N P) (m_bitop M N f a b) /\ sound (mat_of M N P) (m_div_floor M N f a b) /\ sound (mat_of M N P) (m_mod_floor M N f a b).
Proof. intros. unfold m_bitop, m_div_floor, m_mod_floor. repeat split; leaf. Qed.
Theorem C107_m_div_mod_floor : forall A M N (P : A -> Prop) f a b, mat_of M N P a -> mat_of M N P b ->
  (forall x y, P x -> P y -> sound (pair_of P P) (f x y)) -> sound (pair_of (mat_of M N P) (mat_of M N P)) (m_div_mod_floor M N f a b).
Proof. intros. unfold m_div_mod_floor. safe. Qed.
Theorem C107_m_any : forall M N m, mat_of M N any m -> sound any (m_any M N m) /\ sound any (m_all M N m).
Proof.
  intros. unfold m_any, m_all. split; (eapply sound_bind; [eapply safe_m_iter; eauto|]); intros it Hit;
    [eapply safe_iter_any|eapply safe_iter_all]; eauto; apply closed_flat_next.
Qed.
Theorem C107_array_of_arrays : forall A M N (P : A -> Prop) m, mat_of M N P m ->
  sound (mat_of M N P) (m_from_array_of_arrays m) /\ sound (mat_of M N P) (m_into_array_of_arrays m).
Proof.
  intros. unfold m_from_array_of_arrays, m_into_array_of_arrays. split; (eapply sound_bind; [eapply safe_v_map; [exact H|]|]);
    try (intros r Hr; exact Hr); intros w Hw; exact Hw.
Qed.
Lemma safe_from_arrays : forall A M N (P : A -> Prop) m, mat_of M N P m -> sound (mat_of M N P) (m_from_array_of_arrays m).
Proof. intros. apply C107_array_of_arrays. auto. Qed.
Lemma safe_into_arrays : forall A M N (P : A -> Prop) m, mat_of M N P m -> sound (mat_of M N P) (m_into_array_of_arrays m).
Proof. intros. apply C107_array_of_arrays. auto. Qed.
Lemma safe_m_any : forall M N m, mat_of M N any m -> sound any (m_any M N m).
Proof. intros. apply C107_m_any. auto. Qed.
Lemma safe_m_all : forall M N m, mat_of M N any m -> sound any (m_all M N m).
Proof. intros. apply C107_m_any. auto. Qed.
Lemma safe_v_fill : forall A N (P : A -> Prop) x, P x -> sound (vec_of N P) (v_fill N x).
Proof. exact C107_v_fill. Qed.
Lemma safe_m_fill : forall A M N (P : A -> Prop) x, P x -> sound (mat_of M N P) (m_fill M N x).
Proof. intros. apply C107_m_fill. auto. Qed.
Ltac arrays ::= eapply safe_from_arrays; repeat (first [apply mat_cons | apply vec_cons | apply mat_nil | apply vec_nil]); eauto with safe.
#[global] Hint Resolve safe_from_arrays safe_into_arrays safe_m_any safe_m_all safe_v_fill safe_m_fill : safe.
Lemma ok1_any : forall A B (f : A -> B) x, sound any (ok1 f x).
Proof. exact (fun _ _ _ _ => I). Qed.
Lemma ok2_any : forall A B C (f : A -> B -> C) x y, sound any (ok2 f x y).
Proof. exact (fun _ _ _ _ _ _ => I). Qed.
Lemma ok1_in : forall A B (Q : B -> Prop) (f : A -> B) x, Q (f x) -> sound Q (ok1 f x).
Proof. exact (fun _ _ _ _ _ H => H). Qed.
Lemma ok2_in : forall A B C (Q : C -> Prop) (f : A -> B -> C) x y, Q (f x y) -> sound Q (ok2 f x y).
Proof. exact (fun _ _ _ _ _ _ _ H => H). Qed.
#[global] Hint Resolve ok1_in ok2_in : safe.
Lemma if_in : forall A (P : A -> Prop) (b : bool) x y, P x -> P y -> P (if b then x else y).
Proof. intros. destruct b; auto. Qed.
Lemma vec_weaken : forall A N (P : A -> Prop) v, vec_of N P v -> vec_of N any v.
Proof. intros A N P v (L & F). split; auto. apply Forall_forall. intros. exact I. Qed.
Lemma mat_weaken : forall A M N (P : A -> Prop) m, mat_of M N P m -> mat_of M N any m.
Proof. intros A M N P m H. apply mat_elt; [eapply mat_rect; eauto|]. intros. exact I. Qed.

(** Fixed components. *)
Ltac fix_get := intros; unfold v_x, v_y, v_z, v_w; eapply safe_v_get_unchecked; eauto; lia.
Ltac fix_set := intros; unfold v_x_set, v_y_set, v_z_set, v_w_set; eapply safe_v_set_unchecked; eauto; lia.
Theorem C107_v_x : forall A N (P : A -> Prop) v, vec_of N P v -> 0 < N -> sound P (v_x v).
Proof. fix_get. Qed.
Theorem C107_v_x_set : forall A N (P : A -> Prop) v x, vec_of N P v -> P x -> 0 < N -> sound (vec_of N P) (v_x_set v x).
Proof. fix_set. Qed.
Theorem C107_v_y : forall A N (P : A -> Prop) v, vec_of N P v -> 1 < N -> sound P (v_y v).
Proof. fix_get. Qed.
Theorem C107_v_y_set : forall A N (P : A -> Prop) v x, vec_of N P v -> P x -> 1 < N -> sound (vec_of N P) (v_y_set v x).
Proof. fix_set. Qed.
Theorem C107_v_z : forall A N (P : A -> Prop) v, vec_of N P v -> 2 < N -> sound P (v_z v).
Proof. fix_get. Qed.
Theorem C107_v_z_set : forall A N (P : A -> Prop) v x, vec_of N P v -> P x -> 2 < N -> sound (vec_of N P) (v_z_set v x).
Proof. fix_set. Qed.
Theorem C107_v_w : forall A N (P : A -> Prop) v, vec_of N P v -> 3 < N -> sound P (v_w v).
Proof. fix_get. Qed.
Theorem C107_v_w_set : forall A N (P : A -> Prop) v x, vec_of N P v -> P x -> 3 < N -> sound (vec_of N P) (v_w_set v x).
Proof. fix_set. Qed.

Lemma lt02 : 0 < 2. Proof. lia. Qed. Lemma lt12 : 1 < 2. Proof. lia. Qed.
Lemma lt03 : 0 < 3. Proof. lia. Qed. Lemma lt13 : 1 < 3. Proof. lia. Qed. Lemma lt23 : 2 < 3. Proof. lia. Qed.
Lemma lt04 : 0 < 4. Proof. lia. Qed. Lemma lt14 : 1 < 4. Proof. lia. Qed. Lemma lt24 : 2 < 4. Proof. lia. Qed. Lemma lt34 : 3 < 4. Proof. lia. Qed.
#[global] Hint Resolve lt02 lt12 lt03 lt13 lt23 lt04 lt14 lt24 lt34 : safe.
#[global] Hint Resolve C107_v_x C107_v_y C107_v_z C107_v_w C107_v_x_set C107_v_y_set C107_v_z_set C107_v_w_set : safe.
Ltac vec_cases H := let L := fresh in let F := fresh in destruct H as (L & F);
  repeat match type of L with length ?v = _ => destruct v; cbn in L; try discriminate; try (apply eq_add_S in L) end;
  repeat match goal with G : Forall _ (_ :: _) |- _ => inversion G; clear G; subst end.
Theorem C107_v_into_tuple2 : forall A (P : A -> Prop) v, vec_of 2 P v -> sound (pair_of P P) (v_into_tuple2 v).
Proof. intros A P v H. vec_cases H. cbn. split; auto. Qed.
Theorem C107_v_into_tuple3 : forall A (P : A -> Prop) v, vec_of 3 P v -> sound (pair_of (pair_of P P) P) (v_into_tuple3 v).
Proof. intros A P v H. vec_cases H. cbn. split; auto. split; auto. Qed.
Theorem C107_v_into_tuple4 : forall A (P : A -> Prop) v, vec_of 4 P v -> sound (pair_of (pair_of (pair_of P P) P) P) (v_into_tuple4 v).
Proof. intros A P v H. vec_cases H. cbn. split; auto. split; auto. split; auto. Qed.
Theorem C107_v_from_tuple : forall A (P : A -> Prop) a b c d, P a -> P b -> P c -> P d ->
  vec_of 2 P (v_from_tuple2 (a, b)) /\ vec_of 3 P (v_from_tuple3 (a, b, c)) /\ vec_of 4 P (v_from_tuple4 (a, b, c, d)).
Proof. intros. repeat split; cbn; repeat (constructor; auto). Qed.
Theorem C107_c_from_vector : forall A (P : A -> Prop) v, vec_of 2 P v -> sound (cx_of P) (c_from_vector v).
Proof. intros A P v H. vec_cases H. cbn. split; auto. Qed.
Theorem C107_q_from_vector : forall A (P : A -> Prop) v, vec_of 4 P v -> sound (qt_of P) (q_from_vector v).
Proof. intros A P v H. vec_cases H. cbn. repeat split; auto. Qed.
#[global] Hint Resolve C107_v_into_tuple2 C107_v_into_tuple3 C107_v_into_tuple4 C107_c_from_vector C107_q_from_vector : safe.
Lemma tuple2_vec : forall A (P : A -> Prop) t, pair_of P P t -> vec_of 2 P (v_from_tuple2 t).
Proof. intros A P (a & b) (H & K). repeat split; cbn; repeat (constructor; auto). Qed.
Lemma tuple3_vec : forall A (P : A -> Prop) a b c, P a -> P b -> P c -> vec_of 3 P (v_from_tuple3 (a, b, c)).
Proof. intros. repeat split; cbn; repeat (constructor; auto). Qed.
Lemma tuple4_vec : forall A (P : A -> Prop) t, pair_of (pair_of (pair_of P P) P) P t -> vec_of 4 P (v_from_tuple4 t).
Proof. intros A P (((a & b) & c) & d) (((H & K) & L) & J). repeat split; cbn; repeat (constructor; auto). Qed.
#[global] Hint Resolve tuple2_vec tuple3_vec tuple4_vec : safe.

(* ------------------------------------------------------------------------- *)
(** * Components and conversions                                               *)
Section Conv.
  Context {T : Type} (P : T -> Prop).
  Theorem C107_c_from_array : forall v, vec_of 2 P v -> sound (cx_of P) (c_from_array v).
  Proof. intros. unfold c_from_array. safe. Qed.
  Hint Resolve C107_c_from_array : safe.
  Theorem C107_c_from_tuple : forall t, pair_of P P t -> sound (cx_of P) (c_from_tuple t).
  Proof. intros. unfold c_from_tuple. safe. Qed.
  Hint Resolve C107_c_from_tuple : safe.
  Theorem C107_c_into_tuple : forall z, cx_of P z -> sound (pair_of P P) (c_into_tuple z).
  Proof. intros. unfold c_into_tuple. safe. Qed.
  Hint Resolve C107_c_into_tuple : safe.
  Theorem C107_c_new : forall x y, P x -> P y -> sound (cx_of P) (c_new x y).
  Proof. intros. unfold c_new. apply C107_c_from_vector. repeat split; cbn; repeat (constructor; auto). Qed.
  Hint Resolve C107_c_new : safe.
  Theorem C107_c_re : forall z, cx_of P z -> sound P (c_re z).
  Proof. intros. unfold c_re. safe. Qed.
  Hint Resolve C107_c_re : safe.
  Theorem C107_c_im : forall z, cx_of P z -> sound P (c_im z).
  Proof. intros. unfold c_im. safe. Qed.
  Hint Resolve C107_c_im : safe.
  Theorem C107_c_re_set : forall z x, cx_of P z -> P x -> sound (cx_of P) (c_re_set z x).
  Proof. intros. unfold c_re_set. safe. Qed.
  Hint Resolve C107_c_re_set : safe.
  Theorem C107_c_im_set : forall z x, cx_of P z -> P x -> sound (cx_of P) (c_im_set z x).
  Proof. intros. unfold c_im_set. safe. Qed.
  Hint Resolve C107_c_im_set : safe.
  Theorem C107_q_from_array : forall v, vec_of 4 P v -> sound (qt_of P) (q_from_array v).
  Proof. intros. unfold q_from_array. safe. Qed.
  Hint Resolve C107_q_from_array : safe.
  Theorem C107_q_from_tuple : forall t, pair_of (pair_of (pair_of P P) P) P t -> sound (qt_of P) (q_from_tuple t).
  Proof. intros. unfold q_from_tuple. safe. Qed.
  Hint Resolve C107_q_from_tuple : safe.
  Theorem C107_q_into_tuple : forall z, qt_of P z -> sound (pair_of (pair_of (pair_of P P) P) P) (q_into_tuple z).
  Proof. intros. unfold q_into_tuple. safe. Qed.
  Hint Resolve C107_q_into_tuple : safe.
  Theorem C107_q_new : forall w x y z, P w -> P x -> P y -> P z -> sound (qt_of P) (q_new w x y z).
  Proof. intros. unfold q_new. apply C107_q_from_vector. repeat split; cbn; repeat (constructor; auto). Qed.
  Hint Resolve C107_q_new : safe.
  Theorem C107_q_from_scalar_and_vector3 : forall w v, P w -> vec_of 3 P v -> sound (qt_of P) (q_from_scalar_and_vector3 w v).
  Proof. intros. unfold q_from_scalar_and_vector3. safe. Qed.
  Hint Resolve C107_q_from_scalar_and_vector3 : safe.
  Theorem C107_q_into_scalar_and_vector3 : forall z, qt_of P z -> sound (pair_of P (vec_of 3 P)) (q_into_scalar_and_vector3 z).
  Proof. intros. unfold q_into_scalar_and_vector3. safe. Qed.
  Hint Resolve C107_q_into_scalar_and_vector3 : safe.
  Theorem C107_q_w : forall z, qt_of P z -> sound P (q_w z).
  Proof. intros. unfold q_w. safe. Qed.
  Hint Resolve C107_q_w : safe.
  Theorem C107_q_x : forall z, qt_of P z -> sound P (q_x z).
  Proof. intros. unfold q_x. safe. Qed.
  Hint Resolve C107_q_x : safe.
  Theorem C107_q_y : forall z, qt_of P z -> sound P (q_y z).
  Proof. intros. unfold q_y. safe. Qed.
  Hint Resolve C107_q_y : safe.
  Theorem C107_q_z : forall z, qt_of P z -> sound P (q_z z).
  Proof. intros. unfold q_z. safe. Qed.
  Hint Resolve C107_q_z : safe.
  Theorem C107_q_w_set : forall z x, qt_of P z -> P x -> sound (qt_of P) (q_w_set z x).
  Proof. intros. unfold q_w_set. safe. Qed.
  Hint Resolve C107_q_w_set : safe.
  Theorem C107_q_x_set : forall z x, qt_of P z -> P x -> sound (qt_of P) (q_x_set z x).
  Proof. intros. unfold q_x_set. safe. Qed.
  Hint Resolve C107_q_x_set : safe.
  Theorem C107_q_y_set : forall z x, qt_of P z -> P x -> sound (qt_of P) (q_y_set z x).
  Proof. intros. unfold q_y_set. safe. Qed.
  Hint Resolve C107_q_y_set : safe.
  Theorem C107_q_z_set : forall z x, qt_of P z -> P x -> sound (qt_of P) (q_z_set z x).
  Proof. intros. unfold q_z_set. safe. Qed.
  Hint Resolve C107_q_z_set : safe.
  Theorem C107_q_xyz : forall z, qt_of P z -> sound (vec_of 3 P) (q_xyz z).
  Proof. intros. unfold q_xyz. safe. Qed.
  Hint Resolve C107_q_xyz : safe.
  Theorem C107_mo_new : forall a b c d, P a -> P b -> P c -> P d -> sound (mat_of 2 2 P) (mo_new a b c d).
  Proof. intros. unfold mo_new. safe. Qed.
  Hint Resolve C107_mo_new : safe.
  Theorem C107_mo_from_tuple : forall t, pair_of (pair_of (pair_of P P) P) P t -> sound (mat_of 2 2 P) (mo_from_tuple t).
  Proof. intros (((a & b) & c) & d) (((? & ?) & ?) & ?). cbn [mo_from_tuple]. apply C107_mo_new; auto. Qed.
  Hint Resolve C107_mo_from_tuple : safe.
  Theorem C107_mo_into_tuple : forall m, mat_of 2 2 P m -> sound (pair_of (pair_of (pair_of P P) P) P) (mo_into_tuple m).
  Proof. intros m Hm. unfold mo_into_tuple, m_into_vector_of_vectors. eapply sound_bind; [apply C107_v_into_tuple2; exact Hm|]. intros (ab & cd) (H1 & H2). cbn in H1, H2. safe. Qed.
  Hint Resolve C107_mo_into_tuple : safe.
  Theorem C107_mo_a : forall m, mat_of 2 2 P m -> sound P (mo_a m).
  Proof. intros. unfold mo_a. safe. Qed.
  Hint Resolve C107_mo_a : safe.
  Theorem C107_mo_b : forall m, mat_of 2 2 P m -> sound P (mo_b m).
  Proof. intros. unfold mo_b. safe. Qed.
  Hint Resolve C107_mo_b : safe.
  Theorem C107_mo_c : forall m, mat_of 2 2 P m -> sound P (mo_c m).
  Proof. intros. unfold mo_c. safe. Qed.
  Hint Resolve C107_mo_c : safe.
  Theorem C107_mo_d : forall m, mat_of 2 2 P m -> sound P (mo_d m).
  Proof. intros. unfold mo_d. safe. Qed.
  Hint Resolve C107_mo_d : safe.
  Theorem C107_mo_a_ref : forall m, mat_of 2 2 P m -> sound P (mo_a_ref m).
  Proof. intros. unfold mo_a_ref. safe. Qed.
  Hint Resolve C107_mo_a_ref : safe.
  Theorem C107_mo_b_ref : forall m, mat_of 2 2 P m -> sound P (mo_b_ref m).
  Proof. intros. unfold mo_b_ref. safe. Qed.
  Hint Resolve C107_mo_b_ref : safe.
  Theorem C107_mo_c_ref : forall m, mat_of 2 2 P m -> sound P (mo_c_ref m).
  Proof. intros. unfold mo_c_ref. safe. Qed.
  Hint Resolve C107_mo_c_ref : safe.
  Theorem C107_mo_d_ref : forall m, mat_of 2 2 P m -> sound P (mo_d_ref m).
  Proof. intros. unfold mo_d_ref. safe. Qed.
  Hint Resolve C107_mo_d_ref : safe.
  Theorem C107_mo_a_set : forall m x, mat_of 2 2 P m -> P x -> sound (mat_of 2 2 P) (mo_a_set m x).
  Proof. intros. unfold mo_a_set. safe. Qed.
  Hint Resolve C107_mo_a_set : safe.
  Theorem C107_mo_b_set : forall m x, mat_of 2 2 P m -> P x -> sound (mat_of 2 2 P) (mo_b_set m x).
  Proof. intros. unfold mo_b_set. safe. Qed.
  Hint Resolve C107_mo_b_set : safe.
  Theorem C107_mo_c_set : forall m x, mat_of 2 2 P m -> P x -> sound (mat_of 2 2 P) (mo_c_set m x).
  Proof. intros. unfold mo_c_set. safe. Qed.
  Hint Resolve C107_mo_c_set : safe.
  Theorem C107_mo_d_set : forall m x, mat_of 2 2 P m -> P x -> sound (mat_of 2 2 P) (mo_d_set m x).
  Proof. intros. unfold mo_d_set. safe. Qed.
  Hint Resolve C107_mo_d_set : safe.
  Theorem C107_mo_from_array : forall m, mat_of 2 2 P m -> sound (mat_of 2 2 P) (mo_from_array m).
  Proof. intros. unfold mo_from_array. safe. Qed.
  Hint Resolve C107_mo_from_array : safe.
  Theorem C107_mo_into_array : forall m, mat_of 2 2 P m -> sound (mat_of 2 2 P) (mo_into_array m).
  Proof. intros. unfold mo_into_array. safe. Qed.
  Hint Resolve C107_mo_into_array : safe.
  Theorem C107_v_bc_self : forall N v, vec_of N P v -> sound (vec_of N P) (v_bc_self v).
  Proof. intros. unfold v_bc_self. safe. Qed.
  Hint Resolve C107_v_bc_self : safe.
  Theorem C107_m_bc_self : forall M N m, mat_of M N P m -> sound (mat_of M N P) (m_bc_self m).
  Proof. intros. unfold m_bc_self. safe. Qed.
  Hint Resolve C107_m_bc_self : safe.
  Theorem C107_v_bc_scalar : forall N x, P x -> sound (vec_of N P) (v_bc_scalar N x).
  Proof. intros. unfold v_bc_scalar. safe. Qed.
  Hint Resolve C107_v_bc_scalar : safe.
  Theorem C107_m_bc_vector : forall M N v, vec_of N P v -> sound (mat_of M N P) (m_bc_vector M v).
  Proof. intros. unfold m_bc_vector. eapply sound_bind; [apply C107_v_fill; exact H|]. intros w Hw. exact Hw. Qed.
  Hint Resolve C107_m_bc_vector : safe.
  Theorem C107_m_bc_scalar : forall M N x, P x -> sound (mat_of M N P) (m_bc_scalar M N x).
  Proof. intros. unfold m_bc_scalar. safe. Qed.
  Hint Resolve C107_m_bc_scalar : safe.
  Theorem C107_c_from_num : forall t, pair_of P P t -> sound (cx_of P) (c_from_num t).
  Proof. intros t (H1 & H2). unfold c_from_num. apply C107_c_new; auto. Qed.
  Hint Resolve C107_c_from_num : safe.
  Theorem C107_c_into_num : forall z, cx_of P z -> sound (pair_of P P) (c_into_num z).
  Proof. intros. unfold c_into_num. safe. Qed.
  Hint Resolve C107_c_into_num : safe.
End Conv.
#[global] Hint Resolve C107_c_from_array C107_c_from_tuple C107_c_into_tuple C107_c_new C107_c_re C107_c_im C107_c_re_set C107_c_im_set C107_q_from_array C107_q_from_tuple C107_q_into_tuple C107_q_new C107_q_from_scalar_and_vector3 C107_q_into_scalar_and_vector3 C107_q_w C107_q_x C107_q_y C107_q_z C107_q_w_set C107_q_x_set C107_q_y_set C107_q_z_set C107_q_xyz C107_mo_new C107_mo_from_tuple C107_mo_into_tuple C107_mo_a C107_mo_b C107_mo_c C107_mo_d C107_mo_a_ref C107_mo_b_ref C107_mo_c_ref C107_mo_d_ref C107_mo_a_set C107_mo_b_set C107_mo_c_set C107_mo_d_set C107_mo_from_array C107_mo_into_array C107_v_bc_self C107_m_bc_self C107_v_bc_scalar C107_m_bc_vector C107_m_bc_scalar C107_c_from_num C107_c_into_num : safe.

(* ------------------------------------------------------------------------- *)
(** * Arithmetic                                                               *)
Section Arith.
  Context {T : Type} (P : T -> Prop) (o : Ops T) (HP : closed P o).
  Let h0 := cl_zero HP. Let h1 := cl_one HP.
  Hint Resolve h0 h1 : safe.

  (** The determinant's recursion *)
  Lemma safe_d_cofactor : forall (rec : smask -> res (smask * T)) s a b, (forall s, sound (fun p => P (snd p)) (rec s)) ->
    sound (fun p => P (snd p)) (d_cofactor o rec s a b).
  Proof.
    intros rec s (i & ri) (j & rj) K. unfold d_cofactor. eapply sound_bind with (P := any).
    { unfold smask_exclude, index_set. destruct (_ <? _); [|exact I]. cbn [bind]. destruct (_ <? _); [|exact I]. cbn [bind]. destruct (sm_deg s); exact I. }
    intros s1 _. eapply sound_bind; [apply K|]. intros (s2 & x) Hx. cbn in Hx. eapply sound_bind with (P := P).
    { destruct (_ =? _); [exact Hx|]. apply (cl_neg HP). exact Hx. }
    intros y Hy. eapply sound_bind with (P := any).
    { unfold smask_include, index_set. destruct (_ <? _); [|exact I]. cbn [bind]. destruct (_ <? _); exact I. }
    intros s3 _. exact Hy.
  Qed.
  Lemma safe_mask_find : forall data fuel i, sound any (mask_find fuel data i).
  Proof.
    intros data. induction fuel as [|k IH]; intros i; cbn [mask_find]; [exact I|]. eapply sound_bind with (P := any).
    { unfold index. destruct (nth_error data i); exact I. } intros [] _; [exact I|apply IH].
  Qed.
  Lemma safe_d_loop : forall N M' N' m (rec : smask -> res (smask * T)), mat_of M' N' P m -> (forall s, sound (fun p => P (snd p)) (rec s)) ->
    forall left rj i j s x, P x -> sound (fun p => P (snd p)) (d_loop o N m rec left rj i j s x).
  Proof.
    intros N M' N' m rec Hm K. induction left as [|l IH]; intros rj i j s x Hx; cbn [d_loop]. { exact Hx. }
    eapply sound_bind; [apply safe_mask_find|]. intros j1 _. eapply sound_bind; [eapply safe_m_index; eauto|]. intros y Hy.
    eapply sound_bind; [apply safe_d_cofactor; auto|]. intros (s1 & c) Hc. cbn in Hc.
    eapply sound_bind; [apply (cl_mul HP); eauto|]. intros p Hp. eapply sound_bind; [apply (cl_add HP); eauto|]. intros z Hz. apply IH. exact Hz.
  Qed.
  Lemma safe_d_det : forall N M' N' m, mat_of M' N' P m -> forall fuel s, sound (fun p => P (snd p)) (d_det o N m fuel s).
  Proof.
    intros N M' N' m Hm. induction fuel as [|k IH]; intros s; cbn [d_det]; [exact I|]. destruct (sm_deg s =? 0). { apply (cl_one HP). }
    eapply sound_bind; [apply safe_mask_find|]. intros i _. eapply safe_d_loop; eauto; try apply (cl_zero HP).
  Qed.

  Theorem C107_v_neg : forall N u, vec_of N P u -> sound (vec_of N P) (v_neg o u).
  Proof. intros. unfold v_neg. safe. Qed.
  Hint Resolve C107_v_neg : safe.
  Theorem C107_v_add : forall N u v, vec_of N P u -> vec_of N P v -> sound (vec_of N P) (v_add o N u v).
  Proof. intros. unfold v_add. safe. Qed.
  Hint Resolve C107_v_add : safe.
  Theorem C107_v_sub : forall N u v, vec_of N P u -> vec_of N P v -> sound (vec_of N P) (v_sub o N u v).
  Proof. intros. unfold v_sub. safe. Qed.
  Hint Resolve C107_v_sub : safe.
  Theorem C107_v_mul : forall N u v, vec_of N P u -> vec_of N P v -> sound (vec_of N P) (v_mul o N u v).
  Proof. intros. unfold v_mul. safe. Qed.
  Hint Resolve C107_v_mul : safe.
  Theorem C107_v_div : forall N u v, vec_of N P u -> vec_of N P v -> sound (vec_of N P) (v_div o N u v).
  Proof. intros. unfold v_div. safe. Qed.
  Hint Resolve C107_v_div : safe.
  Theorem C107_v_rem : forall N u v, vec_of N P u -> vec_of N P v -> sound (vec_of N P) (v_rem o N u v).
  Proof. intros. unfold v_rem. safe. Qed.
  Hint Resolve C107_v_rem : safe.
  Theorem C107_v_smul : forall N u x, vec_of N P u -> P x -> sound (vec_of N P) (v_smul o u x).
  Proof. intros. unfold v_smul. safe. Qed.
  Hint Resolve C107_v_smul : safe.
  Theorem C107_v_sdiv : forall N u x, vec_of N P u -> P x -> sound (vec_of N P) (v_sdiv o u x).
  Proof. intros. unfold v_sdiv. safe. Qed.
  Hint Resolve C107_v_sdiv : safe.
  Theorem C107_v_srem : forall N u x, vec_of N P u -> P x -> sound (vec_of N P) (v_srem o u x).
  Proof. intros. unfold v_srem. safe. Qed.
  Hint Resolve C107_v_srem : safe.
  Theorem C107_v_rsmul : forall N x u, P x -> vec_of N P u -> sound (vec_of N P) (v_rsmul o x u).
  Proof. intros. unfold v_rsmul. safe. Qed.
  Hint Resolve C107_v_rsmul : safe.
  Theorem C107_v_zero : forall N, sound (vec_of N P) (v_zero o N).
  Proof. intros. unfold v_zero. safe. Qed.
  Hint Resolve C107_v_zero : safe.
  Theorem C107_v_sum : forall N u, vec_of N P u -> sound P (v_sum o u).
  Proof. intros. unfold v_sum. safe. Qed.
  Hint Resolve C107_v_sum : safe.
  Theorem C107_v_max : forall N u, vec_of N P u -> sound P (v_max o u).
  Proof. intros. unfold v_max. eapply safe_v_fold_first; eauto. intros. cbn. apply if_in; auto. Qed.
  Hint Resolve C107_v_max : safe.
  Theorem C107_v_min : forall N u, vec_of N P u -> sound P (v_min o u).
  Proof. intros. unfold v_min. eapply safe_v_fold_first; eauto. intros. cbn. apply if_in; auto. Qed.
  Hint Resolve C107_v_min : safe.
  Theorem C107_v_iter_sum : forall N l, Forall (vec_of N P) l -> sound (vec_of N P) (v_iter_sum o N l).
  Proof. intros. unfold v_iter_sum. eapply sound_bind with (P := vec_of N P); [leaf|]. intros. eapply sound_fold_res; eauto. intros. leaf. Qed.
  Hint Resolve C107_v_iter_sum : safe.
  Theorem C107_v_iter_product : forall N l, Forall (vec_of N P) l -> sound (vec_of N P) (v_iter_product o N l).
  Proof. intros. unfold v_iter_product. eapply sound_bind with (P := vec_of N P); [leaf|]. intros. eapply sound_fold_res; eauto. intros. leaf. Qed.
  Hint Resolve C107_v_iter_product : safe.
  Theorem C107_v_dot : forall N u v, vec_of N P u -> vec_of N P v -> sound P (v_dot o N u v).
  Proof. intros. unfold v_dot. safe. Qed.
  Hint Resolve C107_v_dot : safe.
  Theorem C107_v_square_length : forall N u, vec_of N P u -> sound P (v_square_length o u).
  Proof. intros. unfold v_square_length. safe. Qed.
  Hint Resolve C107_v_square_length : safe.
  Theorem C107_v_norm_l2_sqr : forall N u, vec_of N P u -> sound P (v_norm_l2_sqr o u).
  Proof. intros. unfold v_norm_l2_sqr. safe. Qed.
  Hint Resolve C107_v_norm_l2_sqr : safe.
  Theorem C107_v_veq : forall N u v, vec_of N P u -> vec_of N P v -> sound (vec_of N any) (v_veq o N u v).
  Proof. intros. unfold v_veq. safe. Qed.
  Hint Resolve C107_v_veq : safe.
  Theorem C107_v_vne : forall N u v, vec_of N P u -> vec_of N P v -> sound (vec_of N any) (v_vne o N u v).
  Proof. intros. unfold v_vne. safe. Qed.
  Hint Resolve C107_v_vne : safe.
  Theorem C107_v_vlt : forall N u v, vec_of N P u -> vec_of N P v -> sound (vec_of N any) (v_vlt o N u v).
  Proof. intros. unfold v_vlt. safe. Qed.
  Hint Resolve C107_v_vlt : safe.
  Theorem C107_v_vle : forall N u v, vec_of N P u -> vec_of N P v -> sound (vec_of N any) (v_vle o N u v).
  Proof. intros. unfold v_vle. safe. Qed.
  Hint Resolve C107_v_vle : safe.
  Theorem C107_v_vgt : forall N u v, vec_of N P u -> vec_of N P v -> sound (vec_of N any) (v_vgt o N u v).
  Proof. intros. unfold v_vgt. safe. Qed.
  Hint Resolve C107_v_vgt : safe.
  Theorem C107_v_vge : forall N u v, vec_of N P u -> vec_of N P v -> sound (vec_of N any) (v_vge o N u v).
  Proof. intros. unfold v_vge. safe. Qed.
  Hint Resolve C107_v_vge : safe.
  Theorem C107_v_cross2 : forall u v, vec_of 2 P u -> vec_of 2 P v -> sound P (v_cross2 o u v).
  Proof. intros. unfold v_cross2. safe. Qed.
  Hint Resolve C107_v_cross2 : safe.
  Theorem C107_v_cross3 : forall u v, vec_of 3 P u -> vec_of 3 P v -> sound (vec_of 3 P) (v_cross3 o u v).
  Proof. intros. unfold v_cross3. safe. Qed.
  Hint Resolve C107_v_cross3 : safe.
  Theorem C107_v_cross4 : forall u v, vec_of 4 P u -> vec_of 4 P v -> sound (vec_of 4 P) (v_cross4 o u v).
  Proof. intros. unfold v_cross4. safe. Qed.
  Hint Resolve C107_v_cross4 : safe.
  Theorem C107_m_neg : forall M N a, mat_of M N P a -> sound (mat_of M N P) (m_neg o a).
  Proof. intros. unfold m_neg. safe. Qed.
  Hint Resolve C107_m_neg : safe.
  Theorem C107_m_add : forall M N a b, mat_of M N P a -> mat_of M N P b -> sound (mat_of M N P) (m_add o M N a b).
  Proof. intros. unfold m_add. safe. Qed.
  Hint Resolve C107_m_add : safe.
  Theorem C107_m_sub : forall M N a b, mat_of M N P a -> mat_of M N P b -> sound (mat_of M N P) (m_sub o M N a b).
  Proof. intros. unfold m_sub. safe. Qed.
  Hint Resolve C107_m_sub : safe.
  Theorem C107_m_mul : forall M N a b, mat_of M N P a -> mat_of M N P b -> sound (mat_of M N P) (m_mul o M N a b).
  Proof. intros. unfold m_mul. safe. Qed.
  Hint Resolve C107_m_mul : safe.
  Theorem C107_m_div : forall M N a b, mat_of M N P a -> mat_of M N P b -> sound (mat_of M N P) (m_div o M N a b).
  Proof. intros. unfold m_div. safe. Qed.
  Hint Resolve C107_m_div : safe.
  Theorem C107_m_rem : forall M N a b, mat_of M N P a -> mat_of M N P b -> sound (mat_of M N P) (m_rem o M N a b).
  Proof. intros. unfold m_rem. safe. Qed.
  Hint Resolve C107_m_rem : safe.
  Theorem C107_m_smul : forall M N a x, mat_of M N P a -> P x -> sound (mat_of M N P) (m_smul o a x).
  Proof. intros. unfold m_smul. safe. Qed.
  Hint Resolve C107_m_smul : safe.
  Theorem C107_m_sdiv : forall M N a x, mat_of M N P a -> P x -> sound (mat_of M N P) (m_sdiv o a x).
  Proof. intros. unfold m_sdiv. safe. Qed.
  Hint Resolve C107_m_sdiv : safe.
  Theorem C107_m_srem : forall M N a x, mat_of M N P a -> P x -> sound (mat_of M N P) (m_srem o a x).
  Proof. intros. unfold m_srem. safe. Qed.
  Hint Resolve C107_m_srem : safe.
  Theorem C107_m_zero : forall M N, sound (mat_of M N P) (m_zero o M N).
  Proof. intros. unfold m_zero. safe. Qed.
  Hint Resolve C107_m_zero : safe.
  Theorem C107_m_is_zero : forall M N a, mat_of M N P a -> sound any (m_is_zero o M N a).
  Proof. intros. unfold m_is_zero. eapply sound_bind; [eapply safe_m_iter; eauto|]. intros it Hit. eapply safe_iter_all; eauto. apply closed_flat_next. Qed.
  Hint Resolve C107_m_is_zero : safe.
  Theorem C107_m_sum : forall M N a, mat_of M N P a -> sound P (m_sum o a).
  Proof. intros. unfold m_sum. safe. Qed.
  Hint Resolve C107_m_sum : safe.
  Theorem C107_m_max : forall M N a, mat_of M N P a -> sound P (m_max o a).
  Proof. intros. unfold m_max. eapply safe_m_fold_first; eauto. intros. cbn. apply if_in; auto. Qed.
  Hint Resolve C107_m_max : safe.
  Theorem C107_m_min : forall M N a, mat_of M N P a -> sound P (m_min o a).
  Proof. intros. unfold m_min. eapply safe_m_fold_first; eauto. intros. cbn. apply if_in; auto. Qed.
  Hint Resolve C107_m_min : safe.
  Theorem C107_m_iter_sum : forall M N l, Forall (mat_of M N P) l -> sound (mat_of M N P) (m_iter_sum o M N l).
  Proof. intros. unfold m_iter_sum. eapply sound_bind with (P := mat_of M N P); [leaf|]. intros. eapply sound_fold_res; eauto. intros. leaf. Qed.
  Hint Resolve C107_m_iter_sum : safe.
  Theorem C107_m_iter_product : forall M N l, Forall (mat_of M N P) l -> sound (mat_of M N P) (m_iter_product o M N l).
  Proof. intros. unfold m_iter_product. eapply sound_bind with (P := mat_of M N P); [leaf|]. intros. eapply sound_fold_res; eauto. intros. leaf. Qed.
  Hint Resolve C107_m_iter_product : safe.
  Theorem C107_m_norm_l2_sqr : forall M N a, mat_of M N P a -> sound P (m_norm_l2_sqr o a).
  Proof. intros. unfold m_norm_l2_sqr. safe. Qed.
  Hint Resolve C107_m_norm_l2_sqr : safe.
  Theorem C107_m_veq : forall M N a b, mat_of M N P a -> mat_of M N P b -> sound (mat_of M N any) (m_veq o M N a b).
  Proof. intros. unfold m_veq. safe. Qed.
  Hint Resolve C107_m_veq : safe.
  Theorem C107_m_vne : forall M N a b, mat_of M N P a -> mat_of M N P b -> sound (mat_of M N any) (m_vne o M N a b).
  Proof. intros. unfold m_vne. safe. Qed.
  Hint Resolve C107_m_vne : safe.
  Theorem C107_m_vlt : forall M N a b, mat_of M N P a -> mat_of M N P b -> sound (mat_of M N any) (m_vlt o M N a b).
  Proof. intros. unfold m_vlt. safe. Qed.
  Hint Resolve C107_m_vlt : safe.
  Theorem C107_m_vle : forall M N a b, mat_of M N P a -> mat_of M N P b -> sound (mat_of M N any) (m_vle o M N a b).
  Proof. intros. unfold m_vle. safe. Qed.
  Hint Resolve C107_m_vle : safe.
  Theorem C107_m_vgt : forall M N a b, mat_of M N P a -> mat_of M N P b -> sound (mat_of M N any) (m_vgt o M N a b).
  Proof. intros. unfold m_vgt. safe. Qed.
  Hint Resolve C107_m_vgt : safe.
  Theorem C107_m_vge : forall M N a b, mat_of M N P a -> mat_of M N P b -> sound (mat_of M N any) (m_vge o M N a b).
  Proof. intros. unfold m_vge. safe. Qed.
  Hint Resolve C107_m_vge : safe.
  Theorem C107_m_outer : forall M N u v, vec_of M P u -> vec_of N P v -> sound (mat_of M N P) (m_outer o M N u v).
  Proof. intros. unfold m_outer. eapply sound_bind; [apply safe_m_indices|]. intros. eapply safe_m_map; eauto. intros (i & j) _. safe. Qed.
  Hint Resolve C107_m_outer : safe.
  Theorem C107_m_dot_v : forall M N a v, mat_of M N P a -> vec_of N P v -> sound (vec_of M P) (m_dot_v o M N a v).
  Proof. intros. unfold m_dot_v. eapply sound_bind; [apply safe_v_indices|]. intros. eapply safe_v_map; eauto. intros i _. safe. Qed.
  Hint Resolve C107_m_dot_v : safe.
  Theorem C107_v_dot_m : forall M N v a, vec_of M P v -> mat_of M N P a -> sound (vec_of N P) (v_dot_m o M N v a).
  Proof. intros. unfold v_dot_m. eapply sound_bind; [apply safe_v_indices|]. intros. eapply safe_v_map; eauto. intros i _. safe. Qed.
  Hint Resolve C107_v_dot_m : safe.
  Theorem C107_m_dot : forall L M N a b, mat_of L M P a -> mat_of M N P b -> sound (mat_of L N P) (m_dot o L M N a b).
  Proof. intros. unfold m_dot. eapply sound_bind; [apply safe_m_indices|]. intros. eapply safe_m_map; eauto. intros (i & j) _. safe. Qed.
  Hint Resolve C107_m_dot : safe.
  Theorem C107_m_det : forall N a, mat_of N N P a -> sound P (m_det o N a).
  Proof. intros. unfold m_det. eapply sound_bind; [eapply safe_d_det; eauto|]. intros (s & x) X. exact X. Qed.
  Hint Resolve C107_m_det : safe.
  Theorem C107_m_cofactor : forall N i j a, mat_of N N P a -> sound P (m_cofactor o N a i j).
  Proof. intros. unfold m_cofactor. destruct (_ && _); [|exact I]. eapply sound_bind; [eapply safe_d_cofactor; intros; eapply safe_d_det; eauto|].
    intros (s & x) X. exact X. Qed.
  Hint Resolve C107_m_cofactor : safe.
  Theorem C107_m_adj : forall N a, mat_of N N P a -> sound (mat_of N N P) (m_adj o N a).
  Proof. intros. unfold m_adj. eapply sound_bind; [apply safe_m_indices|]. intros. eapply safe_m_map; eauto. intros (i & j) _. leaf. Qed.
  Hint Resolve C107_m_adj : safe.
  Theorem C107_m_inv : forall N a, mat_of N N P a -> sound (mat_of N N P) (m_inv o N a).
  Proof. intros. unfold m_inv. safe. Qed.
  Hint Resolve C107_m_inv : safe.
  Theorem C107_m_Inv_inv : forall N a, mat_of N N P a -> sound (mat_of N N P) (m_Inv_inv o N a).
  Proof. intros. unfold m_Inv_inv. safe. Qed.
  Hint Resolve C107_m_Inv_inv : safe.
  Theorem C107_m_diagonal : forall N v, vec_of N P v -> sound (mat_of N N P) (m_diagonal o N v).
  Proof. intros. unfold m_diagonal. eapply sound_bind; [apply safe_m_indices|]. intros ix Hix.
    eapply sound_bind with (P := pair_of (Forall P) (mat_of N N P)); [|intros (? & ?) (_ & X); exact X].
    eapply safe_m_map_st; eauto; [apply H|]. intros it (i & j) Hit _. destruct (i =? j); [|split; cbn; leaf].
    eapply sound_bind; [apply (closed_list_next Hit)|]. intros (it1 & x) (H1 & H2). cbn in H1, H2. safe. Qed.
  Hint Resolve C107_m_diagonal : safe.
  Theorem C107_m_one : forall N, sound (mat_of N N P) (m_one o N).
  Proof. intros. unfold m_one. eapply sound_bind; [apply safe_m_indices|]. intros. eapply safe_m_map; eauto. intros (i & j) _. cbn. apply if_in; leaf. Qed.
  Hint Resolve C107_m_one : safe.
  Theorem C107_v_set_zero : forall N v, vec_of N P v -> sound (vec_of N P) (v_set_zero o N v).
  Proof. intros. unfold v_set_zero. safe. Qed.
  Hint Resolve C107_v_set_zero : safe.
  Theorem C107_m_set_zero : forall M N m, mat_of M N P m -> sound (mat_of M N P) (m_set_zero o M N m).
  Proof. intros. unfold m_set_zero. safe. Qed.
  Hint Resolve C107_m_set_zero : safe.
  Theorem C107_m_set_one : forall N m, mat_of N N P m -> sound (mat_of N N P) (m_set_one o N m).
  Proof. intros. unfold m_set_one. safe. Qed.
  Hint Resolve C107_m_set_one : safe.
  Theorem C107_m_is_one : forall N m, mat_of N N P m -> sound any (m_is_one o N m).
  Proof. intros. unfold m_is_one. safe. Qed.
  Hint Resolve C107_m_is_one : safe.
  Theorem C107_c_into_matrix : forall z, cx_of P z -> sound (mat_of 2 2 P) (c_into_matrix o z).
  Proof. intros. unfold c_into_matrix. safe. Qed.
  Hint Resolve C107_c_into_matrix : safe.
  Theorem C107_c_neg : forall z, cx_of P z -> sound (cx_of P) (c_neg o z).
  Proof. intros. unfold c_neg. safe. Qed.
  Hint Resolve C107_c_neg : safe.
  Theorem C107_c_conj : forall z, cx_of P z -> sound (cx_of P) (c_conj o z).
  Proof. intros. unfold c_conj. safe. Qed.
  Hint Resolve C107_c_conj : safe.
  Theorem C107_c_add : forall z w, cx_of P z -> cx_of P w -> sound (cx_of P) (c_add o z w).
  Proof. intros. unfold c_add. safe. Qed.
  Hint Resolve C107_c_add : safe.
  Theorem C107_c_sub : forall z w, cx_of P z -> cx_of P w -> sound (cx_of P) (c_sub o z w).
  Proof. intros. unfold c_sub. safe. Qed.
  Hint Resolve C107_c_sub : safe.
  Theorem C107_c_add_s : forall z x, cx_of P z -> P x -> sound (cx_of P) (c_add_s o z x).
  Proof. intros. unfold c_add_s. safe. Qed.
  Hint Resolve C107_c_add_s : safe.
  Theorem C107_c_sub_s : forall z x, cx_of P z -> P x -> sound (cx_of P) (c_sub_s o z x).
  Proof. intros. unfold c_sub_s. safe. Qed.
  Hint Resolve C107_c_sub_s : safe.
  Theorem C107_s_add_c : forall x z, P x -> cx_of P z -> sound (cx_of P) (s_add_c o x z).
  Proof. intros. unfold s_add_c. safe. Qed.
  Hint Resolve C107_s_add_c : safe.
  Theorem C107_s_sub_c : forall x z, P x -> cx_of P z -> sound (cx_of P) (s_sub_c o x z).
  Proof. intros. unfold s_sub_c. safe. Qed.
  Hint Resolve C107_s_sub_c : safe.
  Theorem C107_c_zero : sound (cx_of P) (c_zero o).
  Proof. intros. unfold c_zero. safe. Qed.
  Hint Resolve C107_c_zero : safe.
  Theorem C107_c_mul : forall z w, cx_of P z -> cx_of P w -> sound (cx_of P) (c_mul o z w).
  Proof. intros. unfold c_mul. safe. Qed.
  Hint Resolve C107_c_mul : safe.
  Theorem C107_c_mul_s : forall z x, cx_of P z -> P x -> sound (cx_of P) (c_mul_s o z x).
  Proof. intros. unfold c_mul_s. safe. Qed.
  Hint Resolve C107_c_mul_s : safe.
  Theorem C107_s_mul_c : forall x z, P x -> cx_of P z -> sound (cx_of P) (s_mul_c o x z).
  Proof. intros. unfold s_mul_c. safe. Qed.
  Hint Resolve C107_s_mul_c : safe.
  Theorem C107_c_one : sound (cx_of P) (c_one o).
  Proof. intros. unfold c_one. safe. Qed.
  Hint Resolve C107_c_one : safe.
  Theorem C107_c_i : sound (cx_of P) (c_i o).
  Proof. intros. unfold c_i. safe. Qed.
  Hint Resolve C107_c_i : safe.
  Theorem C107_c_norm_sqr : forall z, cx_of P z -> sound P (c_norm_sqr o z).
  Proof. intros. unfold c_norm_sqr. safe. Qed.
  Hint Resolve C107_c_norm_sqr : safe.
  Theorem C107_c_div_s : forall z x, cx_of P z -> P x -> sound (cx_of P) (c_div_s o z x).
  Proof. intros. unfold c_div_s. safe. Qed.
  Hint Resolve C107_c_div_s : safe.
  Theorem C107_c_inv : forall z, cx_of P z -> sound (cx_of P) (c_inv o z).
  Proof. intros. unfold c_inv. safe. Qed.
  Hint Resolve C107_c_inv : safe.
  Theorem C107_c_div : forall z w, cx_of P z -> cx_of P w -> sound (cx_of P) (c_div o z w).
  Proof. intros. unfold c_div. safe. Qed.
  Hint Resolve C107_c_div : safe.
  Theorem C107_s_div_c : forall x z, P x -> cx_of P z -> sound (cx_of P) (s_div_c o x z).
  Proof. intros. unfold s_div_c. safe. Qed.
  Hint Resolve C107_s_div_c : safe.
  Theorem C107_c_dot : forall z w, cx_of P z -> cx_of P w -> sound P (c_dot o z w).
  Proof. intros. unfold c_dot. safe. Qed.
  Hint Resolve C107_c_dot : safe.
  Theorem C107_c_sum : forall l, Forall (cx_of P) l -> sound (cx_of P) (c_sum o l).
  Proof. intros. unfold c_sum. eapply sound_bind with (P := cx_of P); [leaf|]. intros. eapply sound_fold_res; eauto. intros. leaf. Qed.
  Hint Resolve C107_c_sum : safe.
  Theorem C107_c_product : forall l, Forall (cx_of P) l -> sound (cx_of P) (c_product o l).
  Proof. intros. unfold c_product. eapply sound_bind with (P := cx_of P); [leaf|]. intros. eapply sound_fold_res; eauto. intros. leaf. Qed.
  Hint Resolve C107_c_product : safe.
  Theorem C107_c_mul_assign : forall z w, cx_of P z -> cx_of P w -> sound (cx_of P) (c_mul_assign o z w).
  Proof. intros. unfold c_mul_assign. safe. Qed.
  Hint Resolve C107_c_mul_assign : safe.
  Theorem C107_c_mul_assign_s : forall z x, cx_of P z -> P x -> sound (cx_of P) (c_mul_assign_s o z x).
  Proof. intros. unfold c_mul_assign_s. safe. Qed.
  Hint Resolve C107_c_mul_assign_s : safe.
  Theorem C107_c_div_assign : forall z w, cx_of P z -> cx_of P w -> sound (cx_of P) (c_div_assign o z w).
  Proof. intros. unfold c_div_assign. safe. Qed.
  Hint Resolve C107_c_div_assign : safe.
  Theorem C107_c_div_assign_s : forall z x, cx_of P z -> P x -> sound (cx_of P) (c_div_assign_s o z x).
  Proof. intros. unfold c_div_assign_s. safe. Qed.
  Hint Resolve C107_c_div_assign_s : safe.
  Theorem C107_c_set_zero : forall z, cx_of P z -> sound (cx_of P) (c_set_zero o z).
  Proof. intros. unfold c_set_zero. safe. Qed.
  Hint Resolve C107_c_set_zero : safe.
  Theorem C107_c_set_one : forall z, cx_of P z -> sound (cx_of P) (c_set_one o z).
  Proof. intros. unfold c_set_one. safe. Qed.
  Hint Resolve C107_c_set_one : safe.
  Theorem C107_c_is_one : forall z, cx_of P z -> sound any (c_is_one o z).
  Proof. intros. unfold c_is_one. safe. Qed.
  Hint Resolve C107_c_is_one : safe.
  Theorem C107_q_into_matrix : forall q, qt_of P q -> sound (mat_of 4 4 P) (q_into_matrix o q).
  Proof. intros. unfold q_into_matrix. safe. Qed.
  Hint Resolve C107_q_into_matrix : safe.
  Theorem C107_q_neg : forall q, qt_of P q -> sound (qt_of P) (q_neg o q).
  Proof. intros. unfold q_neg. safe. Qed.
  Hint Resolve C107_q_neg : safe.
  Theorem C107_q_conj : forall q, qt_of P q -> sound (qt_of P) (q_conj o q).
  Proof. intros. unfold q_conj. safe. Qed.
  Hint Resolve C107_q_conj : safe.
  Theorem C107_q_add : forall q r, qt_of P q -> qt_of P r -> sound (qt_of P) (q_add o q r).
  Proof. intros. unfold q_add. safe. Qed.
  Hint Resolve C107_q_add : safe.
  Theorem C107_q_sub : forall q r, qt_of P q -> qt_of P r -> sound (qt_of P) (q_sub o q r).
  Proof. intros. unfold q_sub. safe. Qed.
  Hint Resolve C107_q_sub : safe.
  Theorem C107_q_add_c : forall q z, qt_of P q -> cx_of P z -> sound (qt_of P) (q_add_c o q z).
  Proof. intros. unfold q_add_c. safe. Qed.
  Hint Resolve C107_q_add_c : safe.
  Theorem C107_q_sub_c : forall q z, qt_of P q -> cx_of P z -> sound (qt_of P) (q_sub_c o q z).
  Proof. intros. unfold q_sub_c. safe. Qed.
  Hint Resolve C107_q_sub_c : safe.
  Theorem C107_q_add_s : forall q x, qt_of P q -> P x -> sound (qt_of P) (q_add_s o q x).
  Proof. intros. unfold q_add_s. safe. Qed.
  Hint Resolve C107_q_add_s : safe.
  Theorem C107_q_sub_s : forall q x, qt_of P q -> P x -> sound (qt_of P) (q_sub_s o q x).
  Proof. intros. unfold q_sub_s. safe. Qed.
  Hint Resolve C107_q_sub_s : safe.
  Theorem C107_s_add_q : forall x q, P x -> qt_of P q -> sound (qt_of P) (s_add_q o x q).
  Proof. intros. unfold s_add_q. safe. Qed.
  Hint Resolve C107_s_add_q : safe.
  Theorem C107_c_add_q : forall z q, cx_of P z -> qt_of P q -> sound (qt_of P) (c_add_q o z q).
  Proof. intros. unfold c_add_q. safe. Qed.
  Hint Resolve C107_c_add_q : safe.
  Theorem C107_s_sub_q : forall x q, P x -> qt_of P q -> sound (qt_of P) (s_sub_q o x q).
  Proof. intros. unfold s_sub_q. safe. Qed.
  Hint Resolve C107_s_sub_q : safe.
  Theorem C107_c_sub_q : forall z q, cx_of P z -> qt_of P q -> sound (qt_of P) (c_sub_q o z q).
  Proof. intros. unfold c_sub_q. safe. Qed.
  Hint Resolve C107_c_sub_q : safe.
  Theorem C107_q_zero : sound (qt_of P) (q_zero o).
  Proof. intros. unfold q_zero. safe. Qed.
  Hint Resolve C107_q_zero : safe.
  Theorem C107_q_mul : forall q r, qt_of P q -> qt_of P r -> sound (qt_of P) (q_mul o q r).
  Proof. intros. unfold q_mul. safe. Qed.
  Hint Resolve C107_q_mul : safe.
  Theorem C107_q_mul_c : forall q z, qt_of P q -> cx_of P z -> sound (qt_of P) (q_mul_c o q z).
  Proof. intros. unfold q_mul_c. safe. Qed.
  Hint Resolve C107_q_mul_c : safe.
  Theorem C107_c_mul_q : forall z q, cx_of P z -> qt_of P q -> sound (qt_of P) (c_mul_q o z q).
  Proof. intros. unfold c_mul_q. safe. Qed.
  Hint Resolve C107_c_mul_q : safe.
  Theorem C107_q_mul_s : forall q x, qt_of P q -> P x -> sound (qt_of P) (q_mul_s o q x).
  Proof. intros. unfold q_mul_s. safe. Qed.
  Hint Resolve C107_q_mul_s : safe.
  Theorem C107_s_mul_q : forall x q, P x -> qt_of P q -> sound (qt_of P) (s_mul_q o x q).
  Proof. intros. unfold s_mul_q. safe. Qed.
  Hint Resolve C107_s_mul_q : safe.
  Theorem C107_q_one : sound (qt_of P) (q_one o).
  Proof. intros. unfold q_one. safe. Qed.
  Hint Resolve C107_q_one : safe.
  Theorem C107_q_i : sound (qt_of P) (q_i o).
  Proof. intros. unfold q_i. safe. Qed.
  Hint Resolve C107_q_i : safe.
  Theorem C107_q_j : sound (qt_of P) (q_j o).
  Proof. intros. unfold q_j. safe. Qed.
  Hint Resolve C107_q_j : safe.
  Theorem C107_q_k : sound (qt_of P) (q_k o).
  Proof. intros. unfold q_k. safe. Qed.
  Hint Resolve C107_q_k : safe.
  Theorem C107_q_norm_sqr : forall q, qt_of P q -> sound P (q_norm_sqr o q).
  Proof. intros. unfold q_norm_sqr. safe. Qed.
  Hint Resolve C107_q_norm_sqr : safe.
  Theorem C107_q_div_s : forall q x, qt_of P q -> P x -> sound (qt_of P) (q_div_s o q x).
  Proof. intros. unfold q_div_s. safe. Qed.
  Hint Resolve C107_q_div_s : safe.
  Theorem C107_q_inv : forall q, qt_of P q -> sound (qt_of P) (q_inv o q).
  Proof. intros. unfold q_inv. safe. Qed.
  Hint Resolve C107_q_inv : safe.
  Theorem C107_q_div : forall q r, qt_of P q -> qt_of P r -> sound (qt_of P) (q_div o q r).
  Proof. intros. unfold q_div. safe. Qed.
  Hint Resolve C107_q_div : safe.
  Theorem C107_q_div_c : forall q z, qt_of P q -> cx_of P z -> sound (qt_of P) (q_div_c o q z).
  Proof. intros. unfold q_div_c. safe. Qed.
  Hint Resolve C107_q_div_c : safe.
  Theorem C107_c_div_q : forall z q, cx_of P z -> qt_of P q -> sound (qt_of P) (c_div_q o z q).
  Proof. intros. unfold c_div_q. safe. Qed.
  Hint Resolve C107_c_div_q : safe.
  Theorem C107_s_div_q : forall x q, P x -> qt_of P q -> sound (qt_of P) (s_div_q o x q).
  Proof. intros. unfold s_div_q. safe. Qed.
  Hint Resolve C107_s_div_q : safe.
  Theorem C107_q_dot : forall q r, qt_of P q -> qt_of P r -> sound P (q_dot o q r).
  Proof. intros. unfold q_dot. safe. Qed.
  Hint Resolve C107_q_dot : safe.
  Theorem C107_q_sum : forall l, Forall (qt_of P) l -> sound (qt_of P) (q_sum o l).
  Proof. intros. unfold q_sum. eapply sound_bind with (P := qt_of P); [leaf|]. intros. eapply sound_fold_res; eauto. intros. leaf. Qed.
  Hint Resolve C107_q_sum : safe.
  Theorem C107_q_product : forall l, Forall (qt_of P) l -> sound (qt_of P) (q_product o l).
  Proof. intros. unfold q_product. eapply sound_bind with (P := qt_of P); [leaf|]. intros. eapply sound_fold_res; eauto. intros. leaf. Qed.
  Hint Resolve C107_q_product : safe.
  Theorem C107_q_mul_assign : forall q r, qt_of P q -> qt_of P r -> sound (qt_of P) (q_mul_assign o q r).
  Proof. intros. unfold q_mul_assign. safe. Qed.
  Hint Resolve C107_q_mul_assign : safe.
  Theorem C107_q_mul_assign_c : forall q z, qt_of P q -> cx_of P z -> sound (qt_of P) (q_mul_assign_c o q z).
  Proof. intros. unfold q_mul_assign_c. safe. Qed.
  Hint Resolve C107_q_mul_assign_c : safe.
  Theorem C107_q_mul_assign_s : forall q x, qt_of P q -> P x -> sound (qt_of P) (q_mul_assign_s o q x).
  Proof. intros. unfold q_mul_assign_s. safe. Qed.
  Hint Resolve C107_q_mul_assign_s : safe.
  Theorem C107_q_div_assign : forall q r, qt_of P q -> qt_of P r -> sound (qt_of P) (q_div_assign o q r).
  Proof. intros. unfold q_div_assign. safe. Qed.
  Hint Resolve C107_q_div_assign : safe.
  Theorem C107_q_div_assign_c : forall q z, qt_of P q -> cx_of P z -> sound (qt_of P) (q_div_assign_c o q z).
  Proof. intros. unfold q_div_assign_c. safe. Qed.
  Hint Resolve C107_q_div_assign_c : safe.
  Theorem C107_q_div_assign_s : forall q x, qt_of P q -> P x -> sound (qt_of P) (q_div_assign_s o q x).
  Proof. intros. unfold q_div_assign_s. safe. Qed.
  Hint Resolve C107_q_div_assign_s : safe.
  Theorem C107_q_set_zero : forall q, qt_of P q -> sound (qt_of P) (q_set_zero o q).
  Proof. intros. unfold q_set_zero. safe. Qed.
  Hint Resolve C107_q_set_zero : safe.
  Theorem C107_q_set_one : forall q, qt_of P q -> sound (qt_of P) (q_set_one o q).
  Proof. intros. unfold q_set_one. safe. Qed.
  Hint Resolve C107_q_set_one : safe.
  Theorem C107_q_is_one : forall q, qt_of P q -> sound any (q_is_one o q).
  Proof. intros. unfold q_is_one. safe. Qed.
  Hint Resolve C107_q_is_one : safe.
  Theorem C107_mo_identity : sound (mat_of 2 2 P) (mo_identity o).
  Proof. intros. unfold mo_identity. safe. Qed.
  Hint Resolve C107_mo_identity : safe.
  Theorem C107_mo_chain : forall a b, mat_of 2 2 P a -> mat_of 2 2 P b -> sound (mat_of 2 2 P) (mo_chain o a b).
  Proof. intros. unfold mo_chain. safe. Qed.
  Hint Resolve C107_mo_chain : safe.
  Theorem C107_mo_apply_self : forall a x, mat_of 2 2 P a -> P x -> sound P (mo_apply_self o a x).
  Proof. intros. unfold mo_apply_self, mo_apply. safe. Qed.
  Hint Resolve C107_mo_apply_self : safe.
  Theorem C107_mo_apply_q : forall a q, mat_of 2 2 (cx_of P) a -> qt_of P q -> sound (qt_of P) (mo_apply_q o a q).
  Proof. intros. unfold mo_apply_q, mo_apply. safe. Qed.
  Hint Resolve C107_mo_apply_q : safe.
  Theorem C107_mo_det : forall a, mat_of 2 2 P a -> sound P (mo_det o a).
  Proof. intros. unfold mo_det. safe. Qed.
  Hint Resolve C107_mo_det : safe.
  Theorem C107_mo_normalize : forall a, mat_of 2 2 P a -> sound (mat_of 2 2 P) (mo_normalize o a).
  Proof. intros. unfold mo_normalize. safe. Qed.
  Hint Resolve C107_mo_normalize : safe.
  Theorem C107_mo_inv : forall a, mat_of 2 2 P a -> sound (mat_of 2 2 P) (mo_inv o a).
  Proof. intros. unfold mo_inv. safe. Qed.
  Hint Resolve C107_mo_inv : safe.
  Theorem C107_mo_deriv : forall a z, mat_of 2 2 (cx_of P) a -> cx_of P z -> sound (cx_of P) (mo_deriv o a z).
  Proof. intros. unfold mo_deriv. safe. Qed.
  Hint Resolve C107_mo_deriv : safe.
  Theorem C107_mo_deriv_dir : forall x a q r, P x -> mat_of 2 2 (cx_of P) a -> qt_of P q -> qt_of P r -> sound (qt_of P) (mo_deriv_dir o x a q r).
  Proof. intros. unfold mo_deriv_dir. safe. Qed.
  Hint Resolve C107_mo_deriv_dir : safe.
  Theorem C107_linear_normal_transform : forall N a, mat_of N N P a -> sound (mat_of N N P) (linear_normal_transform o N a).
  Proof. intros. unfold linear_normal_transform. safe. Qed.
  Hint Resolve C107_linear_normal_transform : safe.
  Theorem C107_rot2_apply : forall z v, cx_of P z -> vec_of 2 P v -> sound (vec_of 2 P) (rot2_apply o z v).
  Proof. intros. unfold rot2_apply. safe. Qed.
  Hint Resolve C107_rot2_apply : safe.
  Theorem C107_rot2_to_linear : forall z, cx_of P z -> sound (mat_of 2 2 P) (rot2_to_linear o z).
  Proof. intros. unfold rot2_to_linear. safe. Qed.
  Hint Resolve C107_rot2_to_linear : safe.
  Theorem C107_rot3_apply : forall q v, qt_of P q -> vec_of 3 P v -> sound (vec_of 3 P) (rot3_apply o q v).
  Proof. intros. unfold rot3_apply. eapply sound_bind with (P := qt_of P); [leaf|]. intros. safe. Qed.
  Hint Resolve C107_rot3_apply : safe.
End Arith.
#[global] Hint Resolve C107_v_neg C107_v_add C107_v_sub C107_v_mul C107_v_div C107_v_rem C107_v_smul C107_v_sdiv C107_v_srem C107_v_rsmul C107_v_zero C107_v_sum C107_v_max C107_v_min C107_v_iter_sum C107_v_iter_product C107_v_dot C107_v_square_length C107_v_norm_l2_sqr C107_v_veq C107_v_vne C107_v_vlt C107_v_vle C107_v_vgt C107_v_vge C107_v_cross2 C107_v_cross3 C107_v_cross4 C107_m_neg C107_m_add C107_m_sub C107_m_mul C107_m_div C107_m_rem C107_m_smul C107_m_sdiv C107_m_srem C107_m_zero C107_m_is_zero C107_m_sum C107_m_max C107_m_min C107_m_iter_sum C107_m_iter_product C107_m_norm_l2_sqr C107_m_veq C107_m_vne C107_m_vlt C107_m_vle C107_m_vgt C107_m_vge C107_m_outer C107_m_dot_v C107_v_dot_m C107_m_dot C107_m_det C107_m_cofactor C107_m_adj C107_m_inv C107_m_Inv_inv C107_m_diagonal C107_m_one C107_v_set_zero C107_m_set_zero C107_m_set_one C107_m_is_one C107_c_into_matrix C107_c_neg C107_c_conj C107_c_add C107_c_sub C107_c_add_s C107_c_sub_s C107_s_add_c C107_s_sub_c C107_c_zero C107_c_mul C107_c_mul_s C107_s_mul_c C107_c_one C107_c_i C107_c_norm_sqr C107_c_div_s C107_c_inv C107_c_div C107_s_div_c C107_c_dot C107_c_sum C107_c_product C107_c_mul_assign C107_c_mul_assign_s C107_c_div_assign C107_c_div_assign_s C107_c_set_zero C107_c_set_one C107_c_is_one C107_q_into_matrix C107_q_neg C107_q_conj C107_q_add C107_q_sub C107_q_add_c C107_q_sub_c C107_q_add_s C107_q_sub_s C107_s_add_q C107_c_add_q C107_s_sub_q C107_c_sub_q C107_q_zero C107_q_mul C107_q_mul_c C107_c_mul_q C107_q_mul_s C107_s_mul_q C107_q_one C107_q_i C107_q_j C107_q_k C107_q_norm_sqr C107_q_div_s C107_q_inv C107_q_div C107_q_div_c C107_c_div_q C107_s_div_q C107_q_dot C107_q_sum C107_q_product C107_q_mul_assign C107_q_mul_assign_c C107_q_mul_assign_s C107_q_div_assign C107_q_div_assign_c C107_q_div_assign_s C107_q_set_zero C107_q_set_one C107_q_is_one C107_mo_identity C107_mo_chain C107_mo_apply_self C107_mo_apply_q C107_mo_det C107_mo_normalize C107_mo_inv C107_mo_deriv C107_mo_deriv_dir C107_linear_normal_transform C107_rot2_apply C107_rot2_to_linear C107_rot3_apply : safe.

(* ------------------------------------------------------------------------- *)
(** * Floats                                                                   *)
Section Float.
  Context {T : Type} (P : T -> Prop) (o : Ops T) (HP : closed P o) (F : FloatOps T) (HF : closed_float P F).
  Let h0 := cl_zero HP. Let h1 := cl_one HP. Let h2 := cl_sqrt HF. Let h3 := cl_sin HF. Let h4 := cl_cos HF. Let h5 := cl_atan2 HF.
  Let h6 := cl_abs HF. Let h7 := cl_pi HF. Let h8 := cl_two HF. Let h9 := cl_half HF. Let h10 := cl_epsilon HF.
  Hint Resolve h0 h1 h2 h3 h4 h5 h6 h7 h8 h9 h10 : safe.
  Theorem C107_v_length : forall N u, vec_of N P u -> sound P (v_length o (f_sqrt F) u).
  Proof. intros. unfold v_length. eapply sound_bind with (P := P); [leaf|]. intros. leaf. Qed.
  Hint Resolve C107_v_length : safe.
  Theorem C107_v_normalize : forall N u, vec_of N P u -> sound (vec_of N P) (v_normalize o (f_sqrt F) u).
  Proof. intros. unfold v_normalize. safe. Qed.
  Hint Resolve C107_v_normalize : safe.
  Theorem C107_v_norm_l2 : forall N u, vec_of N P u -> sound P (v_norm_l2 o (f_sqrt F) u).
  Proof. intros. unfold v_norm_l2. eapply sound_bind with (P := P); [leaf|]. intros. leaf. Qed.
  Hint Resolve C107_v_norm_l2 : safe.
  Theorem C107_m_norm_l2 : forall M N a, mat_of M N P a -> sound P (m_norm_l2 o (f_sqrt F) a).
  Proof. intros. unfold m_norm_l2. eapply sound_bind with (P := P); [leaf|]. intros. leaf. Qed.
  Hint Resolve C107_m_norm_l2 : safe.
  Theorem C107_v_norm_l1 : forall N u, vec_of N P u -> sound P (v_norm_l1 o (ok1 (f_abs F)) u).
  Proof. intros. unfold v_norm_l1. eapply sound_bind with (P := vec_of N P); [leaf|]. intros. safe. Qed.
  Hint Resolve C107_v_norm_l1 : safe.
  Theorem C107_v_norm_l_inf : forall N u, vec_of N P u -> sound P (v_norm_l_inf o (ok1 (f_abs F)) u).
  Proof. intros. unfold v_norm_l_inf. eapply sound_bind with (P := vec_of N P); [leaf|]. intros. safe. Qed.
  Hint Resolve C107_v_norm_l_inf : safe.
  Theorem C107_m_norm_l1 : forall M N a, mat_of M N P a -> sound P (m_norm_l1 o (ok1 (f_abs F)) a).
  Proof. intros. unfold m_norm_l1. eapply sound_bind with (P := mat_of M N P); [leaf|]. intros. safe. Qed.
  Hint Resolve C107_m_norm_l1 : safe.
  Theorem C107_m_norm_l_inf : forall M N a, mat_of M N P a -> sound P (m_norm_l_inf o (ok1 (f_abs F)) a).
  Proof. intros. unfold m_norm_l_inf. eapply sound_bind with (P := mat_of M N P); [leaf|]. intros. safe. Qed.
  Hint Resolve C107_m_norm_l_inf : safe.
  Theorem C107_c_norm_l1 : forall z, cx_of P z -> sound P (c_norm_l1 o (ok1 (f_abs F)) z).
  Proof. intros. unfold c_norm_l1. safe. Qed.
  Hint Resolve C107_c_norm_l1 : safe.
  Theorem C107_q_norm_l1 : forall q, qt_of P q -> sound P (q_norm_l1 o (ok1 (f_abs F)) q).
  Proof. intros. unfold q_norm_l1. safe. Qed.
  Hint Resolve C107_q_norm_l1 : safe.
  Theorem C107_c_norm : forall z, cx_of P z -> sound P (c_norm o F z).
  Proof. intros. unfold c_norm. safe. Qed.
  Hint Resolve C107_c_norm : safe.
  Theorem C107_c_arg : forall z, cx_of P z -> sound P (c_arg F z).
  Proof. intros. unfold c_arg. safe. Qed.
  Hint Resolve C107_c_arg : safe.
  Theorem C107_c_to_polar : forall z, cx_of P z -> sound (pair_of P P) (c_to_polar o F z).
  Proof. intros. unfold c_to_polar. safe. Qed.
  Hint Resolve C107_c_to_polar : safe.
  Theorem C107_c_from_polar : forall x y, P x -> P y -> sound (cx_of P) (c_from_polar o F x y).
  Proof. intros. unfold c_from_polar. safe. Qed.
  Hint Resolve C107_c_from_polar : safe.
  Theorem C107_c_normalize : forall z, cx_of P z -> sound (cx_of P) (c_normalize o F z).
  Proof. intros. unfold c_normalize. safe. Qed.
  Hint Resolve C107_c_normalize : safe.
  Theorem C107_q_norm : forall q, qt_of P q -> sound P (q_norm o F q).
  Proof. intros. unfold q_norm. safe. Qed.
  Hint Resolve C107_q_norm : safe.
  Theorem C107_q_normalize : forall q, qt_of P q -> sound (qt_of P) (q_normalize o F q).
  Proof. intros. unfold q_normalize. safe. Qed.
  Hint Resolve C107_q_normalize : safe.
  Theorem C107_look_at : forall u v, vec_of 3 P u -> vec_of 3 P v -> sound (mat_of 3 3 P) (look_at o F u v).
  Proof. intros. unfold look_at. safe. Qed.
  Hint Resolve C107_look_at : safe.
  Theorem C107_look_at_any : forall u, vec_of 3 P u -> sound (mat_of 3 3 P) (look_at_any o F u).
  Proof. intros. unfold look_at_any. safe. Qed.
  Hint Resolve C107_look_at_any : safe.
  Theorem C107_rot2_new : forall x, P x -> sound (cx_of P) (rot2_new F x).
  Proof. intros. unfold rot2_new. safe. Qed.
  Hint Resolve C107_rot2_new : safe.
  Theorem C107_rot2_angle : forall z, cx_of P z -> sound P (rot2_angle F z).
  Proof. intros. unfold rot2_angle. safe. Qed.
  Hint Resolve C107_rot2_angle : safe.
  Theorem C107_rot3_to_linear : forall q, qt_of P q -> sound (mat_of 3 3 P) (rot3_to_linear o F q).
  Proof. intros. unfold rot3_to_linear. cbv zeta. safe. Qed.
  Hint Resolve C107_rot3_to_linear : safe.
  Theorem C107_rot3_new : forall u x, vec_of 3 P u -> P x -> sound (qt_of P) (rot3_new o F u x).
  Proof. intros. unfold rot3_new. safe. Qed.
  Hint Resolve C107_rot3_new : safe.
  Theorem C107_rot3_axis : forall q, qt_of P q -> sound (vec_of 3 P) (rot3_axis o F q).
  Proof. intros. unfold rot3_axis. safe. Qed.
  Hint Resolve C107_rot3_axis : safe.
  Theorem C107_rot3_angle : forall q, qt_of P q -> sound P (rot3_angle o F q).
  Proof. intros. unfold rot3_angle. safe. Qed.
  Hint Resolve C107_rot3_angle : safe.
  Theorem C107_rot3_flip : forall q, qt_of P q -> sound (qt_of P) (rot3_flip o F q).
  Proof. intros. unfold rot3_flip. safe. Qed.
  Hint Resolve C107_rot3_flip : safe.
End Float.
#[global] Hint Resolve C107_v_length C107_v_normalize C107_v_norm_l2 C107_m_norm_l2 C107_v_norm_l1 C107_v_norm_l_inf C107_m_norm_l1 C107_m_norm_l_inf C107_c_norm_l1 C107_q_norm_l1 C107_c_norm C107_c_arg C107_c_to_polar C107_c_from_polar C107_c_normalize C107_q_norm C107_q_normalize C107_look_at C107_look_at_any C107_rot2_new C107_rot2_angle C107_rot3_to_linear C107_rot3_new C107_rot3_axis C107_rot3_angle C107_rot3_flip : safe.

(* ------------------------------------------------------------------------- *)
(** * Compound assignments of complex numbers and quaternions                   *)
Section Assign.
  Context {T : Type} (P : T -> Prop) (opa : T -> T -> res T) (HO : forall x y, P x -> P y -> sound P (opa x y)).
  Theorem C107_c_assign : forall a b, cx_of P a -> cx_of P b -> in_place (cx_of P) (c_assign opa a b).
  Proof.
    intros a b Ha Hb. unfold c_assign. assert (K := @C107_v_assign T T P P opa 2 _ _ (c_vec Ha) (c_vec Hb) HO).
    destruct (v_assign opa (c_into_vector a) (c_into_vector b)) as (v & r). destruct K as (K1 & K2). cbn [fst snd] in K1, K2.
    split; [|exact K2]. cbn [fst]. assert (K3 := C107_c_from_vector K1). destruct (c_from_vector v); auto.
  Qed.
  Theorem C107_q_assign : forall a b, qt_of P a -> qt_of P b -> in_place (qt_of P) (q_assign opa a b).
  Proof.
    intros a b Ha Hb. unfold q_assign. assert (K := @C107_v_assign T T P P opa 4 _ _ (q_vec Ha) (q_vec Hb) HO).
    destruct (v_assign opa (q_into_vector a) (q_into_vector b)) as (v & r). destruct K as (K1 & K2). cbn [fst snd] in K1, K2.
    split; [|exact K2]. cbn [fst]. assert (K3 := C107_q_from_vector K1). destruct (q_from_vector v); auto.
  Qed.
  Theorem C107_c_assign_s : forall a s, cx_of P a -> P s -> in_place (cx_of P) (c_assign_s_full opa a s) /\ sound (cx_of P) (c_assign_s opa a s).
  Proof.
    intros a s (Ha & Hb) Hs. split.
    - unfold c_assign_s_full. assert (K := HO Ha Hs). destruct (opa (re a) s); cbn in K; repeat split; auto.
    - unfold c_assign_s. assert (cx_of P a) by (split; auto). safe.
  Qed.
  Theorem C107_q_assign_s : forall a s, qt_of P a -> P s -> in_place (qt_of P) (q_assign_s_full opa a s) /\ sound (qt_of P) (q_assign_s opa a s).
  Proof.
    intros a s Ha Hs. split.
    - destruct Ha as (Ha & Hb & Hc & Hd). unfold q_assign_s_full. assert (K := HO Ha Hs). destruct (opa (qw a) s); cbn in K; repeat split; auto.
    - unfold q_assign_s. safe.
  Qed.
  Theorem C107_q_assign_c : forall a z, qt_of P a -> cx_of P z -> in_place (qt_of P) (q_assign_c_full opa a z) /\ sound (qt_of P) (q_assign_c opa a z).
  Proof.
    intros a z Ha Hz. split.
    - destruct Ha as (Ha & Hb & Hc & Hd), Hz as (H1 & H2). unfold q_assign_c_full. assert (K := HO Ha H1).
      destruct (opa (qw a) (re z)) as [w| | |]; cbn in K; try (repeat split; now auto). cbn [qw qx qy qz].
      assert (K2 := HO Hb H2). destruct (opa (qx a) (im z)); cbn in K2; repeat split; auto.
    - unfold q_assign_c. safe.
  Qed.
End Assign.

(* ------------------------------------------------------------------------- *)
(** * Complex numbers and quaternions as scalars; Moebius transformations       *)
Theorem C107_complex_scalars : forall T (P : T -> Prop) (o : Ops T) crem, closed P o ->
  (forall x y, cx_of P x -> cx_of P y -> sound (cx_of P) (crem x y)) -> closed (cx_of P) (c_ops o crem).
Proof.
  intros T P o crem HP HR. assert (h0 := cl_zero HP). assert (h1 := cl_one HP).
  split; cbn [c_ops o_zero o_one o_add o_sub o_mul o_div o_rem o_neg]; intros; auto; try leaf; split; auto.
Qed.
Theorem C107_quaternion_scalars : forall T (P : T -> Prop) (o : Ops T), closed P o -> closed (qt_of P) (q_ops o).
Proof.
  intros T P o HP. assert (h0 := cl_zero HP). assert (h1 := cl_one HP).
  split; cbn [q_ops o_zero o_one o_add o_sub o_mul o_div o_rem o_neg]; intros; auto; try leaf; repeat split; auto.
Qed.
Theorem C107_mo_apply : forall T U (P : T -> Prop) (Q : U -> Prop) mul add div m x,
  (forall a x, P a -> Q x -> sound Q (mul a x)) -> (forall x b, Q x -> P b -> sound Q (add x b)) ->
  (forall x y, Q x -> Q y -> sound Q (div x y)) -> mat_of 2 2 P m -> Q x -> sound Q (mo_apply mul add div m x).
Proof. intros. unfold mo_apply. safe. Qed.

(* ------------------------------------------------------------------------- *)
(** * Transformations                                                          *)
Ltac fields := constructor; cbn [t_identity t_inv t_apply t_deriv t_chain t_apply_dir t_apply_normal]; intros.
Section Trans.
  Context {T : Type} (P : T -> Prop) (o : Ops T) (HP : closed P o).
  Theorem C107_shift : forall N, closed_transform (vec_of N P) (vec_of N P) (shift_transform o N).
  Proof. intros. unfold shift_transform. fields; leaf. Qed.
  Theorem C107_shift_directional : forall N, closed_directional (vec_of N P) (vec_of N P) (shift_directional (T := T)).
  Proof. intros. unfold shift_directional. fields; leaf. Qed.
  Theorem C107_linear : forall N, closed_transform (vec_of N P) (mat_of N N P) (linear_transform o N).
  Proof. intros. unfold linear_transform. fields; leaf. Qed.
  Theorem C107_linear_reorder : forall N, closed_reorder (mat_of N N P) (vec_of N P) (linear_shift_reorder o N) /\
    closed_reorder (vec_of N P) (mat_of N N P) (shift_linear_reorder o N).
  Proof. intros. split; intros a b Ha Hb; unfold linear_shift_reorder, shift_linear_reorder; safe. Qed.
  Theorem C107_rotation2 : closed_transform (vec_of 2 P) (cx_of P) (rot2_transform o) /\
    closed_directional (vec_of 2 P) (cx_of P) (rot2_directional o).
  Proof. unfold rot2_directional, rot2_transform. split; fields; leaf. Qed.
  Theorem C107_rotation2_reorder : closed_reorder (cx_of P) (vec_of 2 P) (rot2_shift_reorder o) /\
    closed_reorder (vec_of 2 P) (cx_of P) (shift_rot2_reorder o).
  Proof. split; intros a b Ha Hb; unfold rot2_shift_reorder, shift_rot2_reorder; safe. Qed.
  Theorem C107_rotation3 : closed_transform (vec_of 3 P) (qt_of P) (rot3_transform o) /\
    closed_directional (vec_of 3 P) (qt_of P) (rot3_directional o).
  Proof. unfold rot3_directional, rot3_transform. split; fields; leaf. Qed.
  Theorem C107_rotation3_reorder : closed_reorder (qt_of P) (vec_of 3 P) (rot3_shift_reorder o) /\
    closed_reorder (vec_of 3 P) (qt_of P) (shift_rot3_reorder o).
  Proof. split; intros a b Ha Hb; unfold rot3_shift_reorder, shift_rot3_reorder; safe. Qed.
  (** [inv] is the scalar's [num_traits::Inv]. *)
  Theorem C107_scale : forall N inv, (forall x, P x -> sound P (inv x)) ->
    closed_transform (vec_of N P) P (scale_transform o inv) /\ closed_directional (vec_of N P) P (scale_directional (T := T)) /\
    closed_reorder P (vec_of N P) (scale_shift_reorder o) /\ closed_reorder (vec_of N P) P (shift_scale_reorder o inv).
  Proof.
    intros N inv HI. assert (h1 := cl_one HP). unfold scale_transform, scale_directional.
    split; [fields; leaf|]. split; [fields; leaf|]. split; intros a b Ha Hb; unfold scale_shift_reorder, shift_scale_reorder; safe.
  Qed.
End Trans.
(** A chain is as safe as its two members and the exchange of them. *)
Theorem C107_chain : forall Pt A B (Q : Pt -> Prop) (W : A -> Prop) (X : B -> Prop) (ta : Transform Pt A) (tb : Transform Pt B) rba,
  closed_transform Q W ta -> closed_transform Q X tb -> closed_reorder X W rba -> closed_transform Q (pair_of W X) (chain_transform ta tb rba).
Proof.
  intros Pt A B Q W X ta tb rba Ha Hb Hr. unfold closed_reorder in Hr. unfold chain_transform, chain_inv, chain_chain, chain_new.
  fields; unpack; safe.
Qed.
Theorem C107_chain_directional : forall Pt A B (Q : Pt -> Prop) (W : A -> Prop) (X : B -> Prop) (tb : Transform Pt B) da db,
  closed_transform Q X tb -> closed_directional Q W da -> closed_directional Q X db -> closed_directional Q (pair_of W X) (chain_directional tb da db).
Proof. intros Pt A B Q W X tb da db Hb Hda Hdb. unfold chain_directional. fields; unpack; safe. Qed.
Section Chains.
  Context {T : Type} (P : T -> Prop) (o : Ops T) (HP : closed P o).
  Theorem C107_affine : forall N, closed_transform (vec_of N P) (pair_of (vec_of N P) (mat_of N N P)) (affine_transform o N).
  Proof. intros. apply C107_chain; [apply C107_shift|apply C107_linear|apply C107_linear_reorder]; auto. Qed.
  Theorem C107_linear_shift : forall N, closed_transform (vec_of N P) (pair_of (mat_of N N P) (vec_of N P)) (linear_shift_transform o N).
  Proof. intros. apply C107_chain; [apply C107_linear|apply C107_shift|apply C107_linear_reorder]; auto. Qed.
  Theorem C107_rigid2 : closed_transform (vec_of 2 P) (pair_of (vec_of 2 P) (cx_of P)) (rigid2_transform o) /\
    closed_transform (vec_of 2 P) (pair_of (cx_of P) (vec_of 2 P)) (rot2_shift_transform o).
  Proof. split; apply C107_chain; try apply C107_shift; try apply C107_rotation2; try apply C107_rotation2_reorder; auto. Qed.
  Theorem C107_rigid3 : closed_transform (vec_of 3 P) (pair_of (vec_of 3 P) (qt_of P)) (rigid3_transform o) /\
    closed_transform (vec_of 3 P) (pair_of (qt_of P) (vec_of 3 P)) (rot3_shift_transform o).
  Proof. split; apply C107_chain; try apply C107_shift; try apply C107_rotation3; try apply C107_rotation3_reorder; auto. Qed.
  Theorem C107_shift_scale : forall N inv, (forall x, P x -> sound P (inv x)) ->
    closed_transform (vec_of N P) (pair_of (vec_of N P) P) (shift_scale_transform o N inv) /\
    closed_transform (vec_of N P) (pair_of P (vec_of N P)) (scale_shift_transform o N inv).
  Proof. intros N inv HI. destruct (C107_scale HP N inv HI) as (K1 & _ & K2 & K3). split; apply C107_chain; try apply C107_shift; auto. Qed.

  Context (F : FloatOps T) (HF : closed_float P F).
  Let h2 := cl_sqrt HF. Let h8 := cl_two HF.
  Hint Resolve h2 h8 : safe.
  Theorem C107_linear_directional : forall N, closed_directional (vec_of N P) (mat_of N N P) (linear_directional o N (f_sqrt F)).
  Proof.
    intros. unfold linear_directional, linear_transform. fields; eapply sound_bind; [leaf| |leaf|]; intros; try safe.
  Qed.
  Theorem C107_affine_directional : forall N, closed_directional (vec_of N P) (pair_of (vec_of N P) (mat_of N N P)) (affine_directional o N (f_sqrt F)).
  Proof. intros. apply C107_chain_directional; [apply C107_linear; auto|apply C107_shift_directional|apply C107_linear_directional]. Qed.
  (** Moebius transformations of complex numbers and of quaternions; [crem] is the complex remainder. *)
  Theorem C107_moebius_c : forall crem, (forall x y, cx_of P x -> cx_of P y -> sound (cx_of P) (crem x y)) ->
    closed_transform (cx_of P) (mat_of 2 2 (cx_of P)) (moebius_c_transform o crem) /\
    closed_directional (cx_of P) (mat_of 2 2 (cx_of P)) (moebius_c_directional o crem F).
  Proof.
    intros crem HR. assert (HC := C107_complex_scalars crem HP HR). unfold moebius_c_directional, moebius_c_transform. cbv zeta. split; fields; try leaf; safe.
  Qed.
  Theorem C107_moebius_q : forall crem, (forall x y, cx_of P x -> cx_of P y -> sound (cx_of P) (crem x y)) ->
    closed_transform (qt_of P) (mat_of 2 2 (cx_of P)) (moebius_q_transform o crem F) /\
    closed_directional (qt_of P) (mat_of 2 2 (cx_of P)) (moebius_q_directional o crem F).
  Proof.
    intros crem HR. assert (HC := C107_complex_scalars crem HP HR). unfold moebius_q_directional, moebius_q_transform. cbv zeta. split; fields; try leaf; safe.
  Qed.
  (** [look_at_any] of a rotation, to any depth of its recursion. *)
  Theorem C107_rot3_look_at_any : forall fuel u, vec_of 3 P u -> sound (qt_of P) (rot3_look_at_any o F fuel u).
  Proof.
    assert (h0 := cl_zero HP). assert (h1 := cl_one HP).
    assert (K : forall rec u, (forall u, vec_of 3 P u -> sound (qt_of P) (rec u)) -> vec_of 3 P u -> sound (qt_of P) (rot3_look_at_any_cont o F rec u)).
    { intros rec u HR Hu. unfold rot3_look_at_any_cont. cbv zeta. eapply sound_bind with (P := P); [leaf|]. intros n1 Hn. cbn [v_from_tuple3].
      assert (Hz : vec_of 3 P (v_from_array [o_zero o; o_zero o; n1])) by leaf. unfold v_from_tuple3.
      eapply sound_bind with (P := P); [leaf|]. intros d Hd. destruct (o_lt o d (o_zero o)). { safe. }
      eapply sound_bind; [leaf|]. intros c Hc. eapply sound_bind with (P := P); [safe|]. intros h Hh. eapply sound_bind with (P := P); [safe|].
      intros sm Hs. safe. }
    induction fuel as [|k IH]; intros u Hu; cbn [rot3_look_at_any]; [exact I|]. eapply sound_bind; [leaf|]. intros z Hz.
    destruct (o_lt o z (o_zero o)). { apply K; auto. }
    eapply sound_bind; [leaf|]. intros nd Hnd. eapply sound_bind; [apply K; eauto|]. intros r Hr. leaf.
  Qed.
End Chains.

(* ------------------------------------------------------------------------- *)
(** * Element-wise float functions, comparison, text                           *)
Section Fun.
  Context {T : Type} (P : T -> Prop).
  Theorem C107_v_fun1 : forall N f v, vec_of N P v -> (forall x, P x -> P (f x)) -> sound (vec_of N P) (v_fun1 f v).
  Proof. intros. unfold v_fun1. leaf. Qed.
  Theorem C107_m_fun1 : forall M N f m, mat_of M N P m -> (forall x, P x -> P (f x)) -> sound (mat_of M N P) (m_fun1 f m).
  Proof. intros. unfold m_fun1. leaf. Qed.
  Theorem C107_v_fun2 : forall U (Q : U -> Prop) N f v w, vec_of N P v -> sound (vec_of N Q) w -> (forall x y, P x -> Q y -> P (f x y)) ->
    sound (vec_of N P) (v_fun2 N f v w).
  Proof. intros. unfold v_fun2. safe. Qed.
  Theorem C107_m_fun2 : forall U (Q : U -> Prop) M N f m w, mat_of M N P m -> sound (mat_of M N Q) w -> (forall x y, P x -> Q y -> P (f x y)) ->
    sound (mat_of M N P) (m_fun2 M N f m w).
  Proof. intros. unfold m_fun2. safe. Qed.
  Theorem C107_v_fun3 : forall N f v a b, vec_of N P v -> sound (vec_of N P) a -> sound (vec_of N P) b -> (forall x y z, P x -> P y -> P z -> P (f x y z)) ->
    sound (vec_of N P) (v_fun3 N f v a b).
  Proof.
    intros. unfold v_fun3. eapply sound_bind; [eauto|]. intros a1 Ha. eapply sound_bind; [eauto|]. intros b1 Hb. eapply sound_bind; [leaf|].
    intros ab Hab. eapply safe_v_zip_map; eauto. intros s (x & y) Hs (Hx & Hy). cbn in Hx, Hy |- *. auto.
  Qed.
  Theorem C107_m_fun3 : forall M N f v a b, mat_of M N P v -> sound (mat_of M N P) a -> sound (mat_of M N P) b -> (forall x y z, P x -> P y -> P z -> P (f x y z)) ->
    sound (mat_of M N P) (m_fun3 M N f v a b).
  Proof.
    intros. unfold m_fun3. eapply sound_bind; [eauto|]. intros a1 Ha. eapply sound_bind; [eauto|]. intros b1 Hb. eapply sound_bind; [leaf|].
    intros ab Hab. eapply safe_m_zip_map; eauto. intros s (x & y) Hs (Hx & Hy). cbn in Hx, Hy |- *. auto.
  Qed.
  Theorem C107_v_clamp : forall N fmin fmax v a b, vec_of N P v -> sound (vec_of N P) a -> sound (vec_of N P) b ->
    (forall x y, P x -> P y -> P (fmin x y)) -> (forall x y, P x -> P y -> P (fmax x y)) -> sound (vec_of N P) (v_clamp N fmin fmax v a b).
  Proof. intros. unfold v_clamp. apply C107_v_fun3; auto. Qed.
  Theorem C107_m_clamp : forall M N fmin fmax v a b, mat_of M N P v -> sound (mat_of M N P) a -> sound (mat_of M N P) b ->
    (forall x y, P x -> P y -> P (fmin x y)) -> (forall x y, P x -> P y -> P (fmax x y)) -> sound (mat_of M N P) (m_clamp M N fmin fmax v a b).
  Proof. intros. unfold m_clamp. apply C107_m_fun3; auto. Qed.
  Theorem C107_v_sin_cos : forall N sc v, vec_of N P v -> (forall x, P x -> pair_of P P (sc x)) -> sound (pair_of (vec_of N P) (vec_of N P)) (v_sin_cos N sc v).
  Proof. intros. unfold v_sin_cos. eapply sound_bind with (P := vec_of N (pair_of P P)); [leaf|]. intros. leaf. Qed.
  Theorem C107_m_sin_cos : forall M N sc v, mat_of M N P v -> (forall x, P x -> pair_of P P (sc x)) ->
    sound (pair_of (mat_of M N P) (mat_of M N P)) (m_sin_cos M N sc v).
  Proof. intros. unfold m_sin_cos. eapply sound_bind with (P := mat_of M N (pair_of P P)); [leaf|]. intros. leaf. Qed.
End Fun.
(** Comparison and text may not be undefined, and return. *)
Section Compare.
  Context {T : Type} (ade : T -> T -> bool) (fmt : T -> string).
  Theorem C107_v_abs_diff_eq : forall N u v, length u = N -> length v = N -> sound any (v_abs_diff_eq N ade u v).
  Proof.
    intros N u v Hu Hv. unfold v_abs_diff_eq. eapply sound_bind with (P := vec_of N any); [|intros; exact I].
    apply safe_v_zip_map with (P := any) (Q := any); try (intros; exact I); (split; auto; apply Forall_forall; intros; exact I).
  Qed.
  Theorem C107_m_abs_diff_eq : forall M N a b, rect M N a -> rect M N b -> sound any (m_abs_diff_eq M N ade a b).
  Proof.
    intros M N a b Ha Hb. unfold m_abs_diff_eq. eapply sound_bind with (P := mat_of M N any); [|intros; apply C107_m_any; auto].
    apply safe_m_zip_map with (P := any) (Q := any); try (intros; exact I); (apply mat_elt; auto; intros; exact I).
  Qed.
  Theorem C107_c_abs_diff_eq : forall a b : complex T, sound any (c_abs_diff_eq ade a b) /\ sound any (rot2_abs_diff_eq ade a b).
  Proof.
    intros. split. { apply C107_v_abs_diff_eq; reflexivity. } unfold rot2_abs_diff_eq.
    assert (cx_of any a) by (split; exact I). assert (cx_of any b) by (split; exact I). safe.
  Qed.
  Theorem C107_q_abs_diff_eq : forall a b : quat T, sound any (q_abs_diff_eq ade a b) /\ sound any (rot3_abs_diff_eq ade a b).
  Proof. intros. split; apply C107_v_abs_diff_eq; reflexivity. Qed.
  Lemma safe_v_fmt_loop : forall v left i, sound any (v_fmt_loop fmt v left i).
  Proof.
    intros v. induction left as [|l IH]; intros i; cbn [v_fmt_loop]; [exact I|]. eapply sound_bind with (P := any).
    { unfold v_index, index. destruct (nth_error v i); exact I. } intros x _. eapply sound_bind; [apply IH|]. intros; exact I.
  Qed.
  Theorem C107_v_fmt : forall N v, sound any (v_fmt N fmt v).
  Proof.
    intros [|N] v; cbn [v_fmt]; [exact I|]. eapply sound_bind; [apply safe_v_fmt_loop|]. intros s _. eapply sound_bind with (P := any).
    { unfold v_index, index. destruct (nth_error v N); exact I. } intros; exact I.
  Qed.
  Lemma safe_m_index_any : forall (m : list (list T)) ij, sound any (m_index m ij).
  Proof. intros m (i & j). unfold m_index, v_index, index. cbn [fst snd]. destruct (nth_error m i) as [r|]; [|exact I]. cbn. destruct (nth_error r j); exact I. Qed.
  Theorem C107_m_fmt : forall M N m, sound any (m_fmt M N fmt m).
  Proof.
    intros M N m. assert (K : forall left j i, sound any (m_fmt_row fmt m left j i)).
    { induction left as [|l IH]; intros j i; cbn [m_fmt_row]; [exact I|]. eapply sound_bind; [apply safe_m_index_any|]. intros x _.
      eapply sound_bind; [apply IH|]. intros; exact I. }
    assert (K2 : forall left j, sound any (m_fmt_rows fmt m N left j)).
    { induction left as [|l IH]; intros j; cbn [m_fmt_rows]; [exact I|]. eapply sound_bind; [apply K|]. intros x _. eapply sound_bind; [apply IH|]. intros; exact I. }
    unfold m_fmt. eapply sound_bind; [apply K2|]. intros; exact I.
  Qed.
  Theorem C107_c_fmt : forall z, sound any (c_fmt fmt z).
  Proof. intros z. unfold c_fmt. assert (cx_of any z) by (split; exact I). safe. Qed.
  Theorem C107_q_fmt : forall q, sound any (q_fmt fmt q).
  Proof. intros q. unfold q_fmt. assert (qt_of any q) by (repeat split; exact I). safe. Qed.
End Compare.

(** Writing to a formatter that may fail or panic at any write; [J] is any invariant of the writer. *)
Section Write.
  Context {W T : Type} (J : W -> Prop) (P : T -> Prop) (lit : string -> W -> res (W * bool)) (elem : T -> W -> res (W * bool)).
  Context (HL : forall s w, J w -> sound (pair_of J any) (lit s w)) (HE : forall x w, P x -> J w -> sound (pair_of J any) (elem x w)).
  Let Wr (a : W -> res (W * bool)) := forall w, J w -> sound (pair_of J any) (a w).
  Lemma write_then : forall a b, Wr a -> Wr b -> Wr (and_then a b).
  Proof. intros a b Ha Hb w Hw. unfold and_then. eapply sound_bind; [apply Ha; auto|]. intros (w1 & ok) (H1 & _). destruct ok; [apply Hb; auto|split; auto; exact I]. Qed.
  Lemma write_eval : forall A (Q : A -> Prop) x k, sound Q x -> (forall a, Q a -> Wr (k a)) -> Wr (eval x k).
  Proof. intros A Q x k Hx Hk w Hw. unfold eval. eapply sound_bind; [apply Hx|]. intros a Ha. apply Hk; auto. Qed.
  Lemma write_lit : forall s, Wr (lit s). Proof. intros s w Hw. auto. Qed.
  Lemma write_elem : forall x, P x -> Wr (elem x). Proof. intros x Hx w Hw. auto. Qed.
  Lemma write_done : Wr (@done W). Proof. intros w Hw. split; auto. exact I. Qed.
  Ltac wr := repeat match goal with
    | |- Wr (eval _ _) => eapply write_eval; [leaf|intros]
    | |- Wr (and_then _ _) => apply write_then
    | |- Wr (lit _) => apply write_lit
    | |- Wr (elem _) => apply write_elem; assumption
    | |- Wr (@done _) => apply write_done
    end.
  Theorem C107_v_write : forall N v, vec_of N P v -> forall w, J w -> sound (pair_of J any) (v_write lit elem N v w).
  Proof.
    intros N v Hv. assert (K : forall left i k, Wr k -> Wr (v_write_loop lit elem v left i k)).
    { induction left as [|l IH]; intros i k Hk; cbn [v_write_loop]; auto. wr. apply IH; auto. }
    change (Wr (v_write lit elem N v)). unfold v_write. destruct N as [|N1]; wr. { intros w _. exact I. } apply K. wr.
  Qed.
  Theorem C107_m_write : forall M N m, mat_of M N P m -> forall w, J w -> sound (pair_of J any) (m_write lit elem M N m w).
  Proof.
    intros M N m Hm. assert (K : forall left j i k, Wr k -> Wr (m_write_row lit elem m left j i k)).
    { induction left as [|l IH]; intros j i k Hk; cbn [m_write_row]; auto. wr. apply IH; auto. }
    assert (K2 : forall left j k, Wr k -> Wr (m_write_rows lit elem m N left j k)).
    { induction left as [|l IH]; intros j k Hk; cbn [m_write_rows]; auto. wr. apply K. wr. apply IH; auto. }
    change (Wr (m_write lit elem M N m)). unfold m_write. wr. apply K2. wr.
  Qed.
  Theorem C107_c_write : forall z, cx_of P z -> forall w, J w -> sound (pair_of J any) (c_write lit elem z w).
  Proof. intros z Hz. change (Wr (c_write lit elem z)). unfold c_write. wr. Qed.
  Theorem C107_q_write : forall q, qt_of P q -> forall w, J w -> sound (pair_of J any) (q_write lit elem q w).
  Proof. intros q Hq. change (Wr (q_write lit elem q)). unfold q_write. wr. Qed.
  (** The derived [Debug] of the transformations, given that of their fields. *)
  Theorem C107_debug : forall name field a b c, (forall w, J w -> sound (pair_of J any) (a w)) -> (forall w, J w -> sound (pair_of J any) (b w)) ->
    (forall w, J w -> sound (pair_of J any) (c w)) ->
    forall w, J w -> sound (pair_of J any) (debug1 lit name field a w) /\ sound (pair_of J any) (chain_debug lit a b c w).
  Proof.
    intros name field a b c Ha Hb Hc w Hw. split.
    - revert w Hw. change (Wr (debug1 lit name field a)). unfold debug1. wr. exact Ha.
    - revert w Hw. change (Wr (chain_debug lit a b c)). unfold chain_debug. wr; assumption.
  Qed.
End Write.

(* ------------------------------------------------------------------------- *)
(** * Derived [Clone], [PartialEq], [Default]: [cl], [e], [d] are the scalar's  *)
Section Derived.
  Context {C T : Type} (J : C -> Prop) (P : T -> Prop) (cl : C -> T -> res (C * T)).
  Context (HC : forall c x, J c -> P x -> sound (pair_of J P) (cl c x)).
  Lemma safe_clone_loop : forall X (Q : X -> Prop) (one : C -> X -> ow T (C * X)) glue, (forall c x, J c -> Q x -> sound (pair_of J Q) (snd (one c x))) ->
    forall v c acc n k, J c -> vec_of n Q v -> vec_of k Q acc -> sound (pair_of J (vec_of (k + n) Q)) (snd (clone_loop one glue c v acc)).
  Proof.
    intros X Q one glue HO. induction v as [|x t IH]; intros c acc n k Hc Hv Ha; cbn [clone_loop].
    - destruct Hv as (<- & _). cbn [length]. rewrite Nat.add_0_r. split; auto.
    - destruct Hv as (<- & Hv). cbn [length]. inversion Hv; subst. assert (K := HO c x Hc H1). destruct (one c x) as (d & r). cbn [snd] in K.
      destruct r as [(c1 & y)| | |]; cbn in K; try exact K. destruct K as (K1 & K2). cbn in K1, K2.
      assert (K3 := IH c1 (acc ++ [y]) (length t) (S k) K1 (conj eq_refl H2)). destruct (clone_loop one glue c1 t (acc ++ [y])) as (d1 & r1). cbn [snd] in *.
      rewrite Nat.add_succ_r. apply K3. destruct Ha as (<- & Ha). split; [rewrite app_length; cbn; lia|]. apply Forall_app. auto.
  Qed.
  Theorem C107_v_clone : forall N c v, J c -> vec_of N P v -> sound (pair_of J (vec_of N P)) (snd (v_clone cl c v)).
  Proof. intros N c v Hc Hv. unfold v_clone. apply (@safe_clone_loop T P (fun c x => ([], cl c x)) (fun x => [x])) with (k := 0) (n := N); auto. apply vec_nil. Qed.
  Theorem C107_m_clone : forall M N c m, J c -> mat_of M N P m -> sound (pair_of J (mat_of M N P)) (snd (m_clone cl c m)).
  Proof. intros M N c v Hc Hv. unfold m_clone. apply (@safe_clone_loop _ (vec_of N P) (v_clone cl) (fun r => r)) with (k := 0) (n := M); auto; [|apply vec_nil]. intros. apply C107_v_clone; auto. Qed.
  Theorem C107_c_clone : forall c z, J c -> cx_of P z -> sound (pair_of J (cx_of P)) (snd (c_clone cl c z)).
  Proof.
    intros c z Hc Hz. unfold c_clone. assert (K := C107_v_clone Hc (c_vec Hz)). destruct (v_clone cl c (c_into_vector z)) as (d & r). cbn [snd] in *.
    eapply sound_bind; [exact K|]. intros; unpack. safe.
  Qed.
  Theorem C107_q_clone : forall c z, J c -> qt_of P z -> sound (pair_of J (qt_of P)) (snd (q_clone cl c z)).
  Proof.
    intros c z Hc Hz. unfold q_clone. assert (K := C107_v_clone Hc (q_vec Hz)). destruct (v_clone cl c (q_into_vector z)) as (d & r). cbn [snd] in *.
    eapply sound_bind; [exact K|]. intros; unpack. safe.
  Qed.
  Lemma safe_eq_loop : forall X (Q : X -> Prop) (e : C -> X -> X -> res (C * bool)), (forall c x y, J c -> Q x -> Q y -> sound (pair_of J any) (e c x y)) ->
    forall u v c, J c -> Forall Q u -> Forall Q v -> sound (pair_of J any) (v_eq_st e c u v).
  Proof.
    intros X Q e HE. induction u as [|x u IH]; intros [|y v] c Hc Hu Hv; cbn [v_eq_st]; try (split; auto; exact I).
    inversion Hu; inversion Hv; subst. eapply sound_bind; [apply HE; auto|]. intros (c1 & b) (K & _). cbn in K. destruct b; [auto|]. split; auto. exact I.
  Qed.
  Context (e : C -> T -> T -> res (C * bool)) (HE : forall c x y, J c -> P x -> P y -> sound (pair_of J any) (e c x y)).
  Theorem C107_v_eq : forall N c u v, J c -> vec_of N P u -> vec_of N P v -> sound (pair_of J any) (v_eq_st e c u v).
  Proof. intros N c u v Hc (_ & Hu) (_ & Hv). eapply safe_eq_loop; eauto. Qed.
  Theorem C107_m_eq : forall M N c a b, J c -> mat_of M N P a -> mat_of M N P b -> sound (pair_of J any) (m_eq_st e c a b).
  Proof. intros M N c u v Hc (_ & Hu) (_ & Hv). eapply safe_eq_loop with (Q := vec_of N P); eauto. intros. eapply C107_v_eq; eauto. Qed.
  Theorem C107_c_eq : forall c a b, J c -> cx_of P a -> cx_of P b -> sound (pair_of J any) (c_eq_st e c a b).
  Proof. intros c a b Hc Ha Hb. exact (C107_v_eq Hc (c_vec Ha) (c_vec Hb)). Qed.
  Theorem C107_q_eq : forall c a b, J c -> qt_of P a -> qt_of P b -> sound (pair_of J any) (q_eq_st e c a b).
  Proof. intros c a b Hc Ha Hb. exact (C107_v_eq Hc (q_vec Ha) (q_vec Hb)). Qed.
  Context (d : C -> res (C * T)) (HD : forall c, J c -> sound (pair_of J P) (d c)).
  Theorem C107_c_default : forall c, J c -> sound (pair_of J (cx_of P)) (c_default d c) /\ sound (pair_of J (qt_of P)) (q_default d c).
  Proof.
    intros c Hc. unfold c_default, q_default. split; (eapply sound_bind; [apply C107_v_init; eauto|]); intros; unpack; safe.
  Qed.
End Derived.

(* ------------------------------------------------------------------------- *)
(** * Random sampling: any generator, any number of rejections                  *)
Theorem C107_v_distribution : forall G T (I : G -> Prop) (P : T -> Prop) N (d : distr G T), closed_draw I P d -> closed_draw I (vec_of N P) (v_distribution N d).
Proof. intros G T I P N d H g Hg. apply C107_v_init; auto. Qed.
Theorem C107_m_distribution : forall G T (I : G -> Prop) (P : T -> Prop) M N (d : distr G T), closed_draw I P d -> closed_draw I (mat_of M N P) (m_distribution M N d).
Proof. intros G T I P M N d H g Hg. apply C107_m_init; auto. Qed.
Theorem C107_reject_loop : forall G A (I : G -> Prop) (Q : A -> Prop) (d : distr G A) acc, closed_draw I Q d -> (forall x, Q x -> sound any (acc x)) ->
  forall fuel, closed_draw I (fun x => Q x /\ acc x = Ok true) (reject_loop fuel d acc).
Proof.
  intros G A I Q d acc HD HA. induction fuel as [|k IH]; intros g Hg; [exact Logic.I|]. cbn [reject_loop]. eapply sound_bind; [apply HD; auto|].
  intros (g1 & x) (H1 & H2). cbn in H1, H2. specialize (HA x H2). destruct (acc x) as [b| | |] eqn:E; cbn [bind]; try exact HA. destruct b; [|apply IH; auto].
  split; cbn; auto.
Qed.
Section Sampling.
  Context {G T : Type} (I : G -> Prop) (P : T -> Prop) (o : Ops T) (F : FloatOps T) (normal : distr G T)
    (HP : closed P o) (HF : closed_float P F) (HN : closed_draw I P normal).
  Let h2 := cl_sqrt HF. Let h6 := cl_abs HF.
  Hint Resolve h2 h6 : safe.
  Theorem C107_nonzero_v : forall fuel N, closed_draw I (vec_of N P) (nonzero_v o F normal fuel N).
  Proof.
    intros fuel N g Hg. unfold nonzero_v. eapply sound_mono. { eapply C107_reject_loop; eauto. { apply C107_v_distribution; exact HN. }
      cbn. intros x Hx. eapply sound_bind with (P := P); [leaf|]. intros; exact Logic.I. }
    intros (g1 & x) (H1 & (H2 & _)). split; auto.
  Qed.
  Theorem C107_unit_v : forall fuel N, closed_draw I (vec_of N P) (unit_v o F normal fuel N).
  Proof. intros fuel N g Hg. unfold unit_v. eapply sound_bind; [apply C107_nonzero_v; auto|]. intros; unpack. safe. Qed.
  Theorem C107_invertible_m : forall fuel N, closed_draw I (mat_of N N P) (invertible_m o F normal fuel N).
  Proof.
    intros fuel N g Hg. unfold invertible_m. eapply sound_mono. { eapply C107_reject_loop; eauto. { apply C107_m_distribution; exact HN. }
      cbn. intros x Hx. eapply sound_bind with (P := P); [leaf|]. intros; exact Logic.I. }
    intros (g1 & x) (H1 & (H2 & _)). split; auto.
  Qed.
  Theorem C107_invertible_cm : forall crem cnormal fuel N, (forall x y, cx_of P x -> cx_of P y -> sound (cx_of P) (crem x y)) ->
    closed_draw I (cx_of P) cnormal -> closed_draw I (mat_of N N (cx_of P)) (invertible_cm o F crem cnormal fuel N).
  Proof.
    intros crem cnormal fuel N HR HC g Hg. unfold invertible_cm. assert (HO := C107_complex_scalars crem HP HR).
    eapply sound_mono. { eapply C107_reject_loop; eauto. { apply C107_m_distribution; exact HC. }
      cbn. intros x Hx. eapply sound_bind with (P := cx_of P); [leaf|]. intros d Hd. eapply sound_bind with (P := P); [eapply C107_c_norm_l1; eauto|]. intros; exact Logic.I. }
    intros (g1 & x) (H1 & (H2 & _)). split; auto.
  Qed.
  Theorem C107_c_distr : forall d, closed_draw I (vec_of 2 P) d -> closed_draw I (cx_of P) (c_distr d).
  Proof. intros d HD g Hg. unfold c_distr. eapply sound_bind; [apply HD; auto|]. intros; unpack. safe. Qed.
  Theorem C107_q_distr : forall d, closed_draw I (vec_of 4 P) d -> closed_draw I (qt_of P) (q_distr d).
  Proof. intros d HD g Hg. unfold q_distr. eapply sound_bind; [apply HD; auto|]. intros; unpack. safe. Qed.
  Theorem C107_uniform_rot2 : forall ranged, closed_draw I P ranged -> closed_draw I (cx_of P) (uniform_rot2 F ranged).
  Proof. intros d HD g Hg. unfold uniform_rot2. eapply sound_bind; [apply HD; auto|]. intros; unpack. safe. Qed.
  Theorem C107_uniform_rot3 : forall fuel ranged, closed_draw I P ranged -> closed_draw I (qt_of P) (uniform_rot3 o F normal fuel ranged).
  Proof.
    intros fuel d HD g Hg. unfold uniform_rot3. eapply sound_bind; [apply C107_unit_v; auto|]. intros; unpack. eapply sound_bind; [apply HD; auto|]. intros; unpack. safe.
  Qed.
  Theorem C107_affine_distr : forall N lin, closed_draw I (mat_of N N P) lin -> closed_draw I (pair_of (vec_of N P) (mat_of N N P)) (affine_distr normal N lin).
  Proof.
    intros N d HD g Hg. unfold affine_distr. eapply sound_bind; [apply C107_v_distribution; eauto|]. intros; unpack.
    eapply sound_bind; [apply HD; auto|]. intros; unpack. unfold chain_new. safe.
  Qed.
  Theorem C107_normal_float : forall ln unit half_turn, (forall x, P x -> P (ln x)) -> closed_draw I P unit -> closed_draw I P half_turn ->
    closed_draw I P (normal_float o F ln unit half_turn).
  Proof.
    intros ln d1 d2 HL H1 H2 g Hg. assert (h1 := cl_one HP). assert (h3 := cl_two HF). assert (h4 := cl_cos HF). unfold normal_float.
    eapply sound_bind; [apply H1; auto|]. intros; unpack. eapply sound_bind with (P := P); [leaf|]. intros. eapply sound_bind with (P := P); [leaf|]. intros.
    eapply sound_bind with (P := P); [leaf|]. intros. eapply sound_bind; [apply H2; auto|]. intros; unpack. eapply sound_bind with (P := P); [leaf|]. intros. safe.
  Qed.
End Sampling.

(* ------------------------------------------------------------------------- *)
(** * Functions delegated to [num_complex]                                     *)
Section Delegated.
  Context {T Str : Type} (P : T -> Prop) (N : num_complex T Str).
  Let PP : T * T -> Prop := pair_of P P.
  Theorem C107_delegated1 : forall z, cx_of P z ->
    ((forall t, PP t -> sound PP (n_exp N t)) -> sound (cx_of P) (c_exp N z)) /\
    ((forall t, PP t -> sound PP (n_ln N t)) -> sound (cx_of P) (c_ln N z)) /\
    ((forall t, PP t -> sound PP (n_sqrt N t)) -> sound (cx_of P) (c_sqrt N z)) /\
    ((forall t, PP t -> sound PP (n_cbrt N t)) -> sound (cx_of P) (c_cbrt N z)) /\
    ((forall t, PP t -> sound PP (n_sin N t)) -> sound (cx_of P) (c_sin N z)) /\
    ((forall t, PP t -> sound PP (n_cos N t)) -> sound (cx_of P) (c_cos N z)) /\
    ((forall t, PP t -> sound PP (n_tan N t)) -> sound (cx_of P) (c_tan N z)) /\
    ((forall t, PP t -> sound PP (n_asin N t)) -> sound (cx_of P) (c_asin N z)) /\
    ((forall t, PP t -> sound PP (n_acos N t)) -> sound (cx_of P) (c_acos N z)) /\
    ((forall t, PP t -> sound PP (n_atan N t)) -> sound (cx_of P) (c_atan N z)) /\
    ((forall t, PP t -> sound PP (n_sinh N t)) -> sound (cx_of P) (c_sinh N z)) /\
    ((forall t, PP t -> sound PP (n_cosh N t)) -> sound (cx_of P) (c_cosh N z)) /\
    ((forall t, PP t -> sound PP (n_tanh N t)) -> sound (cx_of P) (c_tanh N z)) /\
    ((forall t, PP t -> sound PP (n_asinh N t)) -> sound (cx_of P) (c_asinh N z)) /\
    ((forall t, PP t -> sound PP (n_acosh N t)) -> sound (cx_of P) (c_acosh N z)) /\
    ((forall t, PP t -> sound PP (n_atanh N t)) -> sound (cx_of P) (c_atanh N z)) /\
    ((forall t, PP t -> sound PP (n_finv N t)) -> sound (cx_of P) (c_finv N z)) /\
    ((forall t e, PP t -> sound PP (n_powu N t e)) -> forall e, sound (cx_of P) (c_powu N z e)) /\
    ((forall t e, PP t -> sound PP (n_powi N t e)) -> forall e, sound (cx_of P) (c_powi N z e)).
  Proof.
    intros z Hz. assert (K := C107_c_into_num Hz).
    repeat match goal with |- _ /\ _ => split end; intros HF; intros; (eapply sound_bind; [exact K|]); intros n Hn;
      (eapply sound_bind; [apply HF; exact Hn|]); intros r Hr; apply C107_c_from_num; exact Hr.
  Qed.
  Theorem C107_delegated2 : forall z x, cx_of P z -> P x ->
    ((forall t x, PP t -> P x -> sound PP (n_powf N t x)) -> sound (cx_of P) (c_powf N z x)) /\
    ((forall t x, PP t -> P x -> sound PP (n_log N t x)) -> sound (cx_of P) (c_log N z x)) /\
    ((forall t x, PP t -> P x -> sound PP (n_expf N t x)) -> sound (cx_of P) (c_expf N z x)).
  Proof.
    intros z x Hz Hx. assert (K := C107_c_into_num Hz).
    repeat match goal with |- _ /\ _ => split end; intros HF; (eapply sound_bind; [exact K|]); intros n Hn;
      (eapply sound_bind; [apply HF; [exact Hn|exact Hx]|]); intros r Hr; apply C107_c_from_num; exact Hr.
  Qed.
  Theorem C107_delegated3 : forall z w, cx_of P z -> cx_of P w ->
    ((forall t u, PP t -> PP u -> sound PP (n_powc N t u)) -> sound (cx_of P) (c_powc N z w)) /\
    ((forall t u, PP t -> PP u -> sound PP (n_fdiv N t u)) -> sound (cx_of P) (c_fdiv N z w)) /\
    ((forall t u, PP t -> PP u -> sound PP (n_rem N t u)) -> sound (cx_of P) (c_rem N z w)).
  Proof.
    intros z w Hz Hw. assert (K := C107_c_into_num Hz). assert (K2 := C107_c_into_num Hw).
    repeat match goal with |- _ /\ _ => split end; intros HF; (eapply sound_bind; [exact K|]); intros n Hn;
      (eapply sound_bind; [exact K2|]); intros k Hk; (eapply sound_bind; [apply HF; [exact Hn|exact Hk]|]); intros r Hr; apply C107_c_from_num; exact Hr.
  Qed.
  Theorem C107_from_str_radix : forall s radix, (forall t, n_from_str_radix N s radix = Some t -> PP t) ->
    sound (opt_of (cx_of P)) (c_from_str_radix N s radix).
  Proof.
    intros s radix H. unfold c_from_str_radix. destruct (n_from_str_radix N s radix) as [t|]; [|exact I].
    eapply sound_bind; [apply C107_c_from_num; apply H; reflexivity|]. intros z Hz. exact Hz.
  Qed.
End Delegated.

(* ------------------------------------------------------------------------- *)
(** * Scalars that meet the hypotheses                                         *)
(** Any scalar type whose operations have no undefined behaviour (they may panic): [P] is then no restriction. *)
Theorem C107_any_scalars : forall T (o : Ops T), (forall x y, o_add o x y <> UB) -> (forall x y, o_sub o x y <> UB) -> (forall x y, o_mul o x y <> UB) ->
  (forall x y, o_div o x y <> UB) -> (forall x y, o_rem o x y <> UB) -> (forall x, o_neg o x <> UB) -> closed any o.
Proof.
  assert (K : forall A (r : res A), r <> UB -> sound any r) by (intros A [] H; cbn; auto; exact I).
  intros. split; try exact I; intros; apply K; auto.
Qed.
(** Machine integers of any width, in debug and in release builds: the results are machine integers again. *)
Lemma wrap_word : forall s w x, width s w -> in_word s w (wrap s w x).
Proof.
  intros s w x W. unfold in_word, wrap, int_min, int_max, width in *. destruct s.
  - assert (0 < 2 ^ w)%Z by (apply Z.pow_pos_nonneg; lia). assert (2 ^ w = 2 * 2 ^ (w - 1))%Z by (rewrite <- Z.pow_succ_r by lia; f_equal; lia).
    assert (B := Z.mod_pos_bound (x + 2 ^ (w - 1)) (2 ^ w) H). lia.
  - assert (0 < 2 ^ w)%Z by (apply Z.pow_pos_nonneg; lia). assert (B := Z.mod_pos_bound x (2 ^ w) H). lia.
Qed.
Lemma check_word : forall s w x, sound (in_word s w) (check s w x).
Proof. intros. unfold check, in_wordb. destruct (_ && _) eqn:E; [|exact I]. apply andb_prop in E. destruct E as (E1 & E2). apply Z.leb_le in E1, E2. split; auto. Qed.
Lemma zero_word : forall s w, width s w -> in_word s w 0 /\ in_word s w 1.
Proof.
  intros [] w W; unfold in_word, int_min, int_max, width in *.
  - assert (2 ^ 1 <= 2 ^ (w - 1))%Z by (apply Z.pow_le_mono_r; lia). lia.
  - assert (2 ^ 1 <= 2 ^ w)%Z by (apply Z.pow_le_mono_r; lia). lia.
Qed.
Lemma rem_word : forall s w x y, in_word s w x -> in_word s w y -> y <> 0%Z -> in_word s w (Z.rem x y).
Proof.
  intros s w x y Hx Hy Hz. assert (H0 : in_word s w 0 \/ s = false).
  { destruct s; auto. left. unfold in_word, int_min, int_max in *. destruct (Z.le_gt_cases 1 w); [|exfalso].
    - assert (0 < 2 ^ (w - 1))%Z by (apply Z.pow_pos_nonneg; lia). lia.
    - rewrite (Z.pow_neg_r 2 (w - 1)) in Hx by lia. lia. }
  assert (A : (Z.abs (Z.rem x y) <= Z.abs x)%Z).
  { rewrite <- Z.rem_abs by auto. assert (0 <= Z.rem (Z.abs x) (Z.abs y))%Z by (apply Z.rem_nonneg; lia).
    rewrite Z.rem_mod_nonneg by lia. apply Z.mod_le; lia. }
  assert (S := Z.rem_sign_nz x y Hz). unfold in_word in *. destruct (Z.eq_dec (Z.rem x y) 0) as [E|E].
  { rewrite E. destruct H0 as [H0| ->]; [exact H0|]. unfold int_min, int_max in *. lia. }
  specialize (S E). destruct s; unfold int_min, int_max in *; [|lia].
  destruct H0 as [H0|]; [|discriminate]. destruct (Z.sgn_spec x) as [(L & R)|[(L & R)|(L & R)]]; rewrite R in S; lia.
Qed.
Theorem C107_machine_integers : forall s w, width s w -> closed (in_word s w) (checked_ops s w) /\ closed (in_word s w) (wrapping_ops s w).
Proof.
  intros s w W. destruct (zero_word s w W) as (Z0 & Z1).
  split; split; cbn [checked_ops wrapping_ops o_zero o_one o_add o_sub o_mul o_div o_rem o_neg]; intros; auto; try apply check_word; try (apply wrap_word; auto);
    destruct (Z.eqb_spec y 0); try exact I; try apply check_word; destruct (in_wordb s w (Z.quot x y)); try exact I; apply rem_word; auto.
Qed.
(** IEEE floats of any format: the results are floats of that format again ([rem] is the float remainder). *)
Theorem C107_floats : forall prec emax rem, (0 < prec)%Z -> (prec < emax)%Z ->
  (forall x y, valid_binary prec emax x = true -> valid_binary prec emax y = true -> valid_binary prec emax (rem x y) = true) ->
  closed (fun x => valid_binary prec emax x = true) (sf_ops prec emax rem).
Proof.
  intros prec emax rem Hp He HR. split; cbn [sf_ops o_zero o_one o_add o_sub o_mul o_div o_rem o_neg ok1 ok2 sound]; intros; auto.
  - assert (E : SFone prec emax = BinarySingleNaN.B2SF (@BinarySingleNaN.Bone prec emax Hp He)).
    { unfold BinarySingleNaN.Bone. rewrite BinarySingleNaN.B2SF_SF2B. apply round_equiv. }
    rewrite E. apply BinarySingleNaN.valid_binary_B2SF.
  - apply add_valid; auto.
  - apply sub_valid; auto.
  - apply mul_valid; auto.
  - apply div_valid; auto.
  - eapply opp_valid; eauto.
Qed.
(** So, for example, no arithmetic on [i32] or [u8] vectors, matrices, quaternions has undefined behaviour, also when
    it overflows or divides by zero. *)
Theorem C107_no_undefined_behaviour : forall A (P : A -> Prop) r, sound P r -> r <> UB /\ (forall a, r = Ok a -> P a).
Proof. intros A P [a| | |] H; cbn in H; split; try discriminate; try contradiction; intros b E; inversion E; subst; exact H. Qed.
Example C107_inv_i32 : forall m, mat_of 3 3 (in_word true 32) m -> m_inv (checked_ops true 32) 3 m <> UB /\ q_div (checked_ops true 32) (Qt 1%Z 2%Z 3%Z 4%Z) (Qt 0%Z 0%Z 0%Z 0%Z) <> UB.
Proof.
  intros m H. destruct (@C107_machine_integers true 32 ltac:(cbn; lia)) as (K & _). split.
  - apply (@C107_no_undefined_behaviour _ _ _ (C107_m_inv K H)).
  - apply (@C107_no_undefined_behaviour _ (qt_of (in_word true 32))). apply C107_q_div; auto; repeat split; cbn; lia.
Qed.
(** A matrix of bytes; its determinant overflows and panics in a debug build, and wraps to a byte in a release build. *)
Example C107_bytes : mat_of 2 2 (in_word false 8) [[200; 3]; [7; 200]]%Z /\ m_det (checked_ops false 8) 2 [[200; 3]; [7; 200]]%Z = Panic /\
  exists d, m_det (wrapping_ops false 8) 2 [[200; 3]; [7; 200]]%Z = Ok d /\ in_word false 8 d.
Proof.
  split; [|split; [vm_compute; reflexivity|]].
  - repeat split; auto; repeat constructor; cbn; lia.
  - eexists. split; [vm_compute; reflexivity|]. cbv. split; discriminate.
Qed.
(** The conditions of the unsafe accessors are needed. *)
Example C107_unchecked : v_get_unchecked [1; 2; 3] 3 = UB /\ m_get_unchecked [[1; 2]; [3; 4]] 0 2 = UB.
Proof. split; reflexivity. Qed.

Print Assumptions C107_v_init.
Print Assumptions C107_v_fill.
Print Assumptions C107_v_default.
Print Assumptions C107_v_index.
Print Assumptions C107_v_index_set.
Print Assumptions C107_v_get_unchecked.
Print Assumptions C107_v_set_unchecked.
Print Assumptions C107_v_try_from_slice.
Print Assumptions C107_v_try_from_iter.
Print Assumptions C107_v_indices.
Print Assumptions C107_v_for_each.
Print Assumptions C107_v_map_st.
Print Assumptions C107_v_map.
Print Assumptions C107_v_zip.
Print Assumptions C107_v_enumerate.
Print Assumptions C107_v_unzip.
Print Assumptions C107_v_fold.
Print Assumptions C107_v_fold_first.
Print Assumptions C107_v_scan_st.
Print Assumptions C107_group_next.
Print Assumptions C107_v_assign.
Print Assumptions C107_v_assign_scalar.
Print Assumptions C107_v_not.
Print Assumptions C107_v_bitop.
Print Assumptions C107_v_div_mod_floor.
Print Assumptions C107_m_init.
Print Assumptions C107_m_fill.
Print Assumptions C107_m_index.
Print Assumptions C107_m_index_set.
Print Assumptions C107_m_row.
Print Assumptions C107_m_row_set.
Print Assumptions C107_m_col.
Print Assumptions C107_m_get_unchecked.
Print Assumptions C107_m_set_unchecked.
Print Assumptions C107_m_for_each.
Print Assumptions C107_m_map_st.
Print Assumptions C107_m_map.
Print Assumptions C107_m_zip.
Print Assumptions C107_m_unzip.
Print Assumptions C107_m_fold.
Print Assumptions C107_m_fold_first.
Print Assumptions C107_m_scan_st.
Print Assumptions C107_m_iter.
Print Assumptions C107_m_iter_next.
Print Assumptions C107_m_try_from_iter_of_vectors.
Print Assumptions C107_m_try_from_iter.
Print Assumptions C107_m_try_from_slice_of_vectors.
Print Assumptions C107_m_try_from_slice.
Print Assumptions C107_m_indices.
Print Assumptions C107_m_transpose.
Print Assumptions C107_m_assign.
Print Assumptions C107_m_assign_scalar.
Print Assumptions C107_m_not.
Print Assumptions C107_m_bitop.
Print Assumptions C107_m_div_mod_floor.
Print Assumptions C107_m_any.
Print Assumptions C107_array_of_arrays.
Print Assumptions C107_v_x.
Print Assumptions C107_v_x_set.
Print Assumptions C107_v_y.
Print Assumptions C107_v_y_set.
Print Assumptions C107_v_z.
Print Assumptions C107_v_z_set.
Print Assumptions C107_v_w.
Print Assumptions C107_v_w_set.
Print Assumptions C107_v_into_tuple2.
Print Assumptions C107_v_into_tuple3.
Print Assumptions C107_v_into_tuple4.
Print Assumptions C107_v_from_tuple.
Print Assumptions C107_c_from_vector.
Print Assumptions C107_q_from_vector.
Print Assumptions C107_c_from_array.
Print Assumptions C107_c_from_tuple.
Print Assumptions C107_c_into_tuple.
Print Assumptions C107_c_new.
Print Assumptions C107_c_re.
Print Assumptions C107_c_im.
Print Assumptions C107_c_re_set.
Print Assumptions C107_c_im_set.
Print Assumptions C107_q_from_array.
Print Assumptions C107_q_from_tuple.
Print Assumptions C107_q_into_tuple.
Print Assumptions C107_q_new.
Print Assumptions C107_q_from_scalar_and_vector3.
Print Assumptions C107_q_into_scalar_and_vector3.
Print Assumptions C107_q_w.
Print Assumptions C107_q_x.
Print Assumptions C107_q_y.
Print Assumptions C107_q_z.
Print Assumptions C107_q_w_set.
Print Assumptions C107_q_x_set.
Print Assumptions C107_q_y_set.
Print Assumptions C107_q_z_set.
Print Assumptions C107_q_xyz.
Print Assumptions C107_mo_new.
Print Assumptions C107_mo_from_tuple.
Print Assumptions C107_mo_into_tuple.
Print Assumptions C107_mo_a.
Print Assumptions C107_mo_b.
Print Assumptions C107_mo_c.
Print Assumptions C107_mo_d.
Print Assumptions C107_mo_a_ref.
Print Assumptions C107_mo_b_ref.
Print Assumptions C107_mo_c_ref.
Print Assumptions C107_mo_d_ref.
Print Assumptions C107_mo_a_set.
Print Assumptions C107_mo_b_set.
Print Assumptions C107_mo_c_set.
Print Assumptions C107_mo_d_set.
Print Assumptions C107_mo_from_array.
Print Assumptions C107_mo_into_array.
Print Assumptions C107_v_bc_self.
Print Assumptions C107_m_bc_self.
Print Assumptions C107_v_bc_scalar.
Print Assumptions C107_m_bc_vector.
Print Assumptions C107_m_bc_scalar.
Print Assumptions C107_c_from_num.
Print Assumptions C107_c_into_num.
Print Assumptions C107_v_neg.
Print Assumptions C107_v_add.
Print Assumptions C107_v_sub.
Print Assumptions C107_v_mul.
Print Assumptions C107_v_div.
Print Assumptions C107_v_rem.
Print Assumptions C107_v_smul.
Print Assumptions C107_v_sdiv.
Print Assumptions C107_v_srem.
Print Assumptions C107_v_rsmul.
Print Assumptions C107_v_zero.
Print Assumptions C107_v_sum.
Print Assumptions C107_v_max.
Print Assumptions C107_v_min.
Print Assumptions C107_v_iter_sum.
Print Assumptions C107_v_iter_product.
Print Assumptions C107_v_dot.
Print Assumptions C107_v_square_length.
Print Assumptions C107_v_norm_l2_sqr.
Print Assumptions C107_v_veq.
Print Assumptions C107_v_vne.
Print Assumptions C107_v_vlt.
Print Assumptions C107_v_vle.
Print Assumptions C107_v_vgt.
Print Assumptions C107_v_vge.
Print Assumptions C107_v_cross2.
Print Assumptions C107_v_cross3.
Print Assumptions C107_v_cross4.
Print Assumptions C107_m_neg.
Print Assumptions C107_m_add.
Print Assumptions C107_m_sub.
Print Assumptions C107_m_mul.
Print Assumptions C107_m_div.
Print Assumptions C107_m_rem.
Print Assumptions C107_m_smul.
Print Assumptions C107_m_sdiv.
Print Assumptions C107_m_srem.
Print Assumptions C107_m_zero.
Print Assumptions C107_m_is_zero.
Print Assumptions C107_m_sum.
Print Assumptions C107_m_max.
Print Assumptions C107_m_min.
Print Assumptions C107_m_iter_sum.
Print Assumptions C107_m_iter_product.
Print Assumptions C107_m_norm_l2_sqr.
Print Assumptions C107_m_veq.
Print Assumptions C107_m_vne.
Print Assumptions C107_m_vlt.
Print Assumptions C107_m_vle.
Print Assumptions C107_m_vgt.
Print Assumptions C107_m_vge.
Print Assumptions C107_m_outer.
Print Assumptions C107_m_dot_v.
Print Assumptions C107_v_dot_m.
Print Assumptions C107_m_dot.
Print Assumptions C107_m_det.
Print Assumptions C107_m_cofactor.
Print Assumptions C107_m_adj.
Print Assumptions C107_m_inv.
Print Assumptions C107_m_Inv_inv.
Print Assumptions C107_m_diagonal.
Print Assumptions C107_m_one.
Print Assumptions C107_v_set_zero.
Print Assumptions C107_m_set_zero.
Print Assumptions C107_m_set_one.
Print Assumptions C107_m_is_one.
Print Assumptions C107_c_into_matrix.
Print Assumptions C107_c_neg.
Print Assumptions C107_c_conj.
Print Assumptions C107_c_add.
Print Assumptions C107_c_sub.
Print Assumptions C107_c_add_s.
Print Assumptions C107_c_sub_s.
Print Assumptions C107_s_add_c.
Print Assumptions C107_s_sub_c.
Print Assumptions C107_c_zero.
Print Assumptions C107_c_mul.
Print Assumptions C107_c_mul_s.
Print Assumptions C107_s_mul_c.
Print Assumptions C107_c_one.
Print Assumptions C107_c_i.
Print Assumptions C107_c_norm_sqr.
Print Assumptions C107_c_div_s.
Print Assumptions C107_c_inv.
Print Assumptions C107_c_div.
Print Assumptions C107_s_div_c.
Print Assumptions C107_c_dot.
Print Assumptions C107_c_sum.
Print Assumptions C107_c_product.
Print Assumptions C107_c_mul_assign.
Print Assumptions C107_c_mul_assign_s.
Print Assumptions C107_c_div_assign.
Print Assumptions C107_c_div_assign_s.
Print Assumptions C107_c_set_zero.
Print Assumptions C107_c_set_one.
Print Assumptions C107_c_is_one.
Print Assumptions C107_q_into_matrix.
Print Assumptions C107_q_neg.
Print Assumptions C107_q_conj.
Print Assumptions C107_q_add.
Print Assumptions C107_q_sub.
Print Assumptions C107_q_add_c.
Print Assumptions C107_q_sub_c.
Print Assumptions C107_q_add_s.
Print Assumptions C107_q_sub_s.
Print Assumptions C107_s_add_q.
Print Assumptions C107_c_add_q.
Print Assumptions C107_s_sub_q.
Print Assumptions C107_c_sub_q.
Print Assumptions C107_q_zero.
Print Assumptions C107_q_mul.
Print Assumptions C107_q_mul_c.
Print Assumptions C107_c_mul_q.
Print Assumptions C107_q_mul_s.
Print Assumptions C107_s_mul_q.
Print Assumptions C107_q_one.
Print Assumptions C107_q_i.
Print Assumptions C107_q_j.
Print Assumptions C107_q_k.
Print Assumptions C107_q_norm_sqr.
Print Assumptions C107_q_div_s.
Print Assumptions C107_q_inv.
Print Assumptions C107_q_div.
Print Assumptions C107_q_div_c.
Print Assumptions C107_c_div_q.
Print Assumptions C107_s_div_q.
Print Assumptions C107_q_dot.
Print Assumptions C107_q_sum.
Print Assumptions C107_q_product.
Print Assumptions C107_q_mul_assign.
Print Assumptions C107_q_mul_assign_c.
Print Assumptions C107_q_mul_assign_s.
Print Assumptions C107_q_div_assign.
Print Assumptions C107_q_div_assign_c.
Print Assumptions C107_q_div_assign_s.
Print Assumptions C107_q_set_zero.
Print Assumptions C107_q_set_one.
Print Assumptions C107_q_is_one.
Print Assumptions C107_mo_identity.
Print Assumptions C107_mo_chain.
Print Assumptions C107_mo_apply_self.
Print Assumptions C107_mo_apply_q.
Print Assumptions C107_mo_det.
Print Assumptions C107_mo_normalize.
Print Assumptions C107_mo_inv.
Print Assumptions C107_mo_deriv.
Print Assumptions C107_mo_deriv_dir.
Print Assumptions C107_linear_normal_transform.
Print Assumptions C107_rot2_apply.
Print Assumptions C107_rot2_to_linear.
Print Assumptions C107_rot3_apply.
Print Assumptions C107_v_length.
Print Assumptions C107_v_normalize.
Print Assumptions C107_v_norm_l2.
Print Assumptions C107_m_norm_l2.
Print Assumptions C107_v_norm_l1.
Print Assumptions C107_v_norm_l_inf.
Print Assumptions C107_m_norm_l1.
Print Assumptions C107_m_norm_l_inf.
Print Assumptions C107_c_norm_l1.
Print Assumptions C107_q_norm_l1.
Print Assumptions C107_c_norm.
Print Assumptions C107_c_arg.
Print Assumptions C107_c_to_polar.
Print Assumptions C107_c_from_polar.
Print Assumptions C107_c_normalize.
Print Assumptions C107_q_norm.
Print Assumptions C107_q_normalize.
Print Assumptions C107_look_at.
Print Assumptions C107_look_at_any.
Print Assumptions C107_rot2_new.
Print Assumptions C107_rot2_angle.
Print Assumptions C107_rot3_to_linear.
Print Assumptions C107_rot3_new.
Print Assumptions C107_rot3_axis.
Print Assumptions C107_rot3_angle.
Print Assumptions C107_rot3_flip.
Print Assumptions C107_c_assign.
Print Assumptions C107_q_assign.
Print Assumptions C107_c_assign_s.
Print Assumptions C107_q_assign_s.
Print Assumptions C107_q_assign_c.
Print Assumptions C107_complex_scalars.
Print Assumptions C107_quaternion_scalars.
Print Assumptions C107_mo_apply.
Print Assumptions C107_shift.
Print Assumptions C107_shift_directional.
Print Assumptions C107_linear.
Print Assumptions C107_linear_reorder.
Print Assumptions C107_rotation2.
Print Assumptions C107_rotation2_reorder.
Print Assumptions C107_rotation3.
Print Assumptions C107_rotation3_reorder.
Print Assumptions C107_scale.
Print Assumptions C107_chain.
Print Assumptions C107_chain_directional.
Print Assumptions C107_affine.
Print Assumptions C107_linear_shift.
Print Assumptions C107_rigid2.
Print Assumptions C107_rigid3.
Print Assumptions C107_shift_scale.
Print Assumptions C107_linear_directional.
Print Assumptions C107_affine_directional.
Print Assumptions C107_moebius_c.
Print Assumptions C107_moebius_q.
Print Assumptions C107_rot3_look_at_any.
Print Assumptions C107_v_fun1.
Print Assumptions C107_m_fun1.
Print Assumptions C107_v_fun2.
Print Assumptions C107_m_fun2.
Print Assumptions C107_v_fun3.
Print Assumptions C107_m_fun3.
Print Assumptions C107_v_clamp.
Print Assumptions C107_m_clamp.
Print Assumptions C107_v_sin_cos.
Print Assumptions C107_m_sin_cos.
Print Assumptions C107_v_abs_diff_eq.
Print Assumptions C107_m_abs_diff_eq.
Print Assumptions C107_c_abs_diff_eq.
Print Assumptions C107_q_abs_diff_eq.
Print Assumptions C107_v_fmt.
Print Assumptions C107_m_fmt.
Print Assumptions C107_c_fmt.
Print Assumptions C107_q_fmt.
Print Assumptions C107_v_write.
Print Assumptions C107_m_write.
Print Assumptions C107_c_write.
Print Assumptions C107_q_write.
Print Assumptions C107_debug.
Print Assumptions C107_v_clone.
Print Assumptions C107_m_clone.
Print Assumptions C107_c_clone.
Print Assumptions C107_q_clone.
Print Assumptions C107_v_eq.
Print Assumptions C107_m_eq.
Print Assumptions C107_c_eq.
Print Assumptions C107_q_eq.
Print Assumptions C107_c_default.
Print Assumptions C107_v_distribution.
Print Assumptions C107_m_distribution.
Print Assumptions C107_reject_loop.
Print Assumptions C107_nonzero_v.
Print Assumptions C107_unit_v.
Print Assumptions C107_invertible_m.
Print Assumptions C107_invertible_cm.
Print Assumptions C107_c_distr.
Print Assumptions C107_q_distr.
Print Assumptions C107_uniform_rot2.
Print Assumptions C107_uniform_rot3.
Print Assumptions C107_affine_distr.
Print Assumptions C107_normal_float.
Print Assumptions C107_delegated1.
Print Assumptions C107_delegated2.
Print Assumptions C107_delegated3.
Print Assumptions C107_from_str_radix.
Print Assumptions C107_any_scalars.
Print Assumptions C107_machine_integers.
Print Assumptions C107_floats.
Print Assumptions C107_no_undefined_behaviour.
