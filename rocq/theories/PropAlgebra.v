(** Properties C13, C14, C16, C26-C29: vector and matrix algebra over exact scalars, and what of it
    needs no exactness. *)
From Coq Require Import ZArith Ring.
From Verif Require Import SpecFacts VecProofs MatProofs AlgFacts Instances.
Set Implicit Arguments.
Local Open Scope nat_scope.
Local Open Scope list_scope.

(* ------------------------------------------------------------------------- *)
(** * C13: vectors form a module                                               *)

Section C13.
  Context {T : Type} {o : Ops T} (R : CRing o).
  Add Ring R13 : (CRing_theory R).
  Ltac go := intros; asfun o; ops R; same; apply vk_ext; intros; ring.

  Theorem C13_add_comm : forall N a b, length a = N -> length b = N ->
    v_add o N a b =! v_add o N b a.
  Proof. go. Qed.
  Theorem C13_add_assoc : forall N a b c, length a = N -> length b = N -> length c = N ->
    (let! ab := v_add o N a b in v_add o N ab c) =! (let! bc := v_add o N b c in v_add o N a bc).
  Proof. go. Qed.
  Theorem C13_add_zero : forall N a, length a = N -> (let! z := v_zero o N in v_add o N a z) = Ok a.
  Proof. intros; asfun o; ops R. f_equal. apply vk_ext. intros. ring. Qed.
  Theorem C13_add_neg : forall N a, length a = N ->
    (let! n := v_neg o a in v_add o N a n) =! v_zero o N.
  Proof. go. Qed.
  Theorem C13_sub : forall N a b, length a = N -> length b = N ->
    v_sub o N a b =! (let! n := v_neg o b in v_add o N a n).
  Proof. go. Qed.
  Theorem C13_scale_add : forall N a b s, length a = N -> length b = N ->
    (let! ab := v_add o N a b in v_smul o ab s) =!
    (let! x := v_smul o a s in let! y := v_smul o b s in v_add o N x y).
  Proof. go. Qed.
  Theorem C13_add_scale : forall N a s t, length a = N ->
    (let! st := o_add o s t in v_smul o a st) =!
    (let! x := v_smul o a s in let! y := v_smul o a t in v_add o N x y).
  Proof. go. Qed.
  Theorem C13_scale_scale : forall N a s t, length a = N ->
    (let! st := o_mul o s t in v_smul o a st) =! (let! x := v_smul o a t in v_smul o x s).
  Proof. go. Qed.
  Theorem C13_scale_one : forall a, v_smul o a (o_one o) = Ok a.
  Proof.
    intros. remember (length a) as N eqn:H. symmetry in H. asfun o. ops R. f_equal. apply vk_ext. intros. ring.
  Qed.
  (** The same operations on matrices. *)
  Ltac gom := intros; asfun o; ops R; same; apply mk_ext; intros; ring.
  Theorem C13_matrix_add_comm : forall M N a b, rect M N a -> rect M N b ->
    m_add o M N a b =! m_add o M N b a.
  Proof. gom. Qed.
  Theorem C13_matrix_add_assoc : forall M N a b c, rect M N a -> rect M N b -> rect M N c ->
    (let! ab := m_add o M N a b in m_add o M N ab c) =! (let! bc := m_add o M N b c in m_add o M N a bc).
  Proof. gom. Qed.
  Theorem C13_matrix_add_zero : forall M N a, rect M N a ->
    (let! z := m_zero o M N in m_add o M N a z) = Ok a.
  Proof. intros; asfun o; ops R. f_equal. apply mk_ext. intros. ring. Qed.
  Theorem C13_matrix_sub_neg : forall M N a b, rect M N a -> rect M N b ->
    m_sub o M N a b =! (let! n := m_neg o b in m_add o M N a n) /\
    (let! n := m_neg o a in m_add o M N a n) =! m_zero o M N.
  Proof. split; gom. Qed.
  Theorem C13_matrix_scale : forall M N a b s t, rect M N a -> rect M N b ->
    (let! ab := m_add o M N a b in m_smul o ab s) =!
      (let! x := m_smul o a s in let! y := m_smul o b s in m_add o M N x y) /\
    (let! st := o_add o s t in m_smul o a st) =!
      (let! x := m_smul o a s in let! y := m_smul o a t in m_add o M N x y) /\
    (let! st := o_mul o s t in m_smul o a st) =! (let! x := m_smul o a t in m_smul o x s) /\
    m_smul o a (o_one o) =! Ok a.
  Proof. intros. repeat split; gom. Qed.
End C13.

(* ------------------------------------------------------------------------- *)
(** * C14: the dot product                                                     *)

(** Symmetry for any scalar type with commutative multiplication: floats, wrapping or checked integers;
    both orders fail alike if a scalar operation fails. *)
Theorem C14_symmetric : forall T (o : Ops T) N a b,
  (forall x y, o_mul o x y = o_mul o y x) -> length a = N -> length b = N ->
  v_dot o N a b = v_dot o N b a.
Proof.
  intros T o N a b C La Lb. unfold v_dot. rewrite !v_zip_map_res by auto. f_equal.
  clear La Lb. revert b. induction a; intros [|y b]; auto. cbn [map2_res]. rewrite C.
  apply bind_ext. intros. rewrite IHa. reflexivity.
Qed.

Theorem C14_empty : forall T (o : Ops T) a b, v_dot o 0 a b = Panic.
Proof. exact v_dot_0. Qed.

Section C14.
  Context {T : Type} {o : Ops T} (R : Ring o).
  (** The value, left to right order included: for exact scalars any order gives the same. *)
  Theorem C14_value : forall N a b, length a = N -> length b = N -> 0 < N ->
    v_dot o N a b = Ok (bigsum R N (fun i => r_mul R (vget o a i) (vget o b i))).
  Proof.
    intros. asfun o. ops R. f_equal. apply bigsum_ext. intros. rewrite !vget_vk by auto. reflexivity.
  Qed.
  Theorem C14_square_length : forall N a, length a = N -> 0 < N ->
    v_dot o N a a =! v_square_length o a.
  Proof. intros. asfun o. ops R. same. Qed.
  Theorem C14_additive : forall N a b c, length a = N -> length b = N -> length c = N -> 0 < N ->
    (let! ab := v_add o N a b in v_dot o N ab c) =!
      (let! x := v_dot o N a c in let! y := v_dot o N b c in o_add o x y) /\
    (let! bc := v_add o N b c in v_dot o N a bc) =!
      (let! x := v_dot o N a b in let! y := v_dot o N a c in o_add o x y).
  Proof.
    intros. asfun o. split; ops R; same; rewrite <- bigsum_add; apply bigsum_ext; intros; symmetry;
      [apply (r_distr_l R)|apply (r_distr_r R)].
  Qed.
End C14.

Section C14_homogeneous.
  Context {T : Type} {o : Ops T} (R : CRing o).
  Add Ring R14 : (CRing_theory R).
  Theorem C14_homogeneous : forall N a b s, length a = N -> length b = N -> 0 < N ->
    (let! x := v_smul o a s in v_dot o N x b) =! (let! d := v_dot o N a b in o_mul o s d) /\
    (let! y := v_smul o b s in v_dot o N a y) =! (let! d := v_dot o N a b in o_mul o s d).
  Proof.
    intros. asfun o. split; ops R; same; rewrite <- bigsum_mul_l; apply bigsum_ext; intros; ring.
  Qed.
End C14_homogeneous.

(* ------------------------------------------------------------------------- *)
(** * C16: cross products                                                      *)

Section C16.
  Context {T : Type} {o : Ops T} (R : CRing o).
  Add Ring R16 : (CRing_theory R).
  Ltac comps :=
    repeat match goal with
    | H : length ?v = 3 |- _ => is_var v; destruct v as [|? [|? [|? [|? ?]]]]; try discriminate H; clear H
    | H : length ?v = 2 |- _ => is_var v; destruct v as [|? [|? [|? ?]]]; try discriminate H; clear H
    | H : length ?v = 4 |- _ => is_var v; destruct v as [|? [|? [|? [|? [|? ?]]]]]; try discriminate H; clear H
    end.
  Lemma cross3_ok : forall x y z x' y' z', v_cross3 o [x; y; z] [x'; y'; z'] =
    Ok [r_sub R (r_mul R y z') (r_mul R z y'); r_sub R (r_mul R z x') (r_mul R x z');
        r_sub R (r_mul R x y') (r_mul R y x')].
  Proof.
    intros. unfold v_cross3, v_x, v_y, v_z, v_get_unchecked, index_unchecked. cbn [nth_error lift2 bind].
    repeat (first [rewrite (r_mul_ok R)|rewrite (r_sub_ok R)]; cbn [lift2 bind]). reflexivity.
  Qed.
  Lemma dot3_ok : forall x y z x' y' z', v_dot o 3 [x; y; z] [x'; y'; z'] =
    Ok (r_add R (r_add R (r_mul R x x') (r_mul R y y')) (r_mul R z z')).
  Proof.
    intros. unfold v_dot. rewrite v_zip_map_res by reflexivity. cbn [map2_res].
    repeat (rewrite (r_mul_ok R); cbn [bind]). unfold v_sum. rewrite v_fold_first_cons. cbn [fold_res].
    repeat (rewrite (r_add_ok R); cbn [bind]). reflexivity.
  Qed.
  Lemma add3_ok : forall x y z x' y' z', v_add o 3 [x; y; z] [x'; y'; z'] =
    Ok [r_add R x x'; r_add R y y'; r_add R z z'].
  Proof.
    intros. unfold v_add. rewrite v_zip_map_res by reflexivity. cbn [map2_res].
    repeat (rewrite (r_add_ok R); cbn [bind]). reflexivity.
  Qed.
  Lemma smul3_ok : forall x y z s, v_smul o [x; y; z] s = Ok [r_mul R x s; r_mul R y s; r_mul R z s].
  Proof.
    intros. unfold v_smul. rewrite v_map_res. cbn [map_res].
    repeat (rewrite (r_mul_ok R); cbn [bind]). reflexivity.
  Qed.
  Lemma neg3_ok : forall x y z, v_neg o [x; y; z] = Ok [r_opp R x; r_opp R y; r_opp R z].
  Proof.
    intros. unfold v_neg. rewrite v_map_res. cbn [map_res].
    repeat (rewrite (r_neg_ok R); cbn [bind]). reflexivity.
  Qed.
  Lemma zero3_ok : v_zero o 3 = Ok [o_zero o; o_zero o; o_zero o].
  Proof. rewrite v_zero_vk. reflexivity. Qed.
  Ltac vals := repeat (first [rewrite cross3_ok|rewrite dot3_ok|rewrite add3_ok|rewrite smul3_ok
     |rewrite neg3_ok|rewrite zero3_ok|rewrite (r_mul_ok R)|rewrite (r_sub_ok R)|rewrite (r_add_ok R)];
     cbn [bind lift2]).
  Ltac go := comps; vals; eexists; split; [reflexivity|]; listeq; ring.

  (** The three components. *)
  Theorem C16_components : forall a b, length a = 3 -> length b = 3 ->
    v_cross3 o a b = Ok
      [r_sub R (r_mul R (vget o a 1) (vget o b 2)) (r_mul R (vget o a 2) (vget o b 1));
       r_sub R (r_mul R (vget o a 2) (vget o b 0)) (r_mul R (vget o a 0) (vget o b 2));
       r_sub R (r_mul R (vget o a 0) (vget o b 1)) (r_mul R (vget o a 1) (vget o b 0))].
  Proof. intros. comps. apply cross3_ok. Qed.
  Theorem C16_anticommutative : forall a b, length a = 3 -> length b = 3 ->
    v_cross3 o a b =! (let! c := v_cross3 o b a in v_neg o c) /\
    v_cross3 o a a =! v_zero o 3.
  Proof. intros. split; go. Qed.
  Theorem C16_bilinear : forall a b c s, length a = 3 -> length b = 3 -> length c = 3 ->
    (let! ab := v_add o 3 a b in v_cross3 o ab c) =!
      (let! x := v_cross3 o a c in let! y := v_cross3 o b c in v_add o 3 x y) /\
    (let! bc := v_add o 3 b c in v_cross3 o a bc) =!
      (let! x := v_cross3 o a b in let! y := v_cross3 o a c in v_add o 3 x y) /\
    (let! x := v_smul o a s in v_cross3 o x b) =! (let! x := v_cross3 o a b in v_smul o x s) /\
    (let! x := v_smul o b s in v_cross3 o a x) =! (let! x := v_cross3 o a b in v_smul o x s).
  Proof. intros. repeat split; go. Qed.
  Theorem C16_orthogonal : forall a b, length a = 3 -> length b = 3 ->
    (let! c := v_cross3 o a b in v_dot o 3 a c) = Ok (o_zero o) /\
    (let! c := v_cross3 o a b in v_dot o 3 b c) = Ok (o_zero o).
  Proof. intros. comps. split; vals; f_equal; ring. Qed.
  (** |a x b|^2 = |a|^2 |b|^2 - (a.b)^2 *)
  Theorem C16_lagrange : forall a b, length a = 3 -> length b = 3 ->
    (let! c := v_cross3 o a b in v_dot o 3 c c) =!
    (let! aa := v_dot o 3 a a in let! bb := v_dot o 3 b b in let! ab := v_dot o 3 a b in
     lift2 (o_sub o) (o_mul o aa bb) (o_mul o ab ab)).
  Proof. intros. go. Qed.
  (** a x (b x c) + b x (c x a) + c x (a x b) = 0 *)
  Theorem C16_jacobi : forall a b c, length a = 3 -> length b = 3 -> length c = 3 ->
    (let! bc := v_cross3 o b c in let! x := v_cross3 o a bc in
     let! ca := v_cross3 o c a in let! y := v_cross3 o b ca in
     let! ab := v_cross3 o a b in let! z := v_cross3 o c ab in
     let! xy := v_add o 3 x y in v_add o 3 xy z) =! v_zero o 3.
  Proof. intros. go. Qed.
  Theorem C16_4d : forall a b, length a = 4 -> length b = 4 ->
    v_cross4 o a b =! (let! c := v_cross3 o (firstn 3 a) (firstn 3 b) in Ok (c ++ [o_zero o])).
  Proof.
    intros. comps. cbn [firstn]. rewrite cross3_ok. cbn [bind app]. eexists. split; [|reflexivity].
    unfold v_cross4, v_x, v_y, v_z, v_get_unchecked, index_unchecked. cbn [nth_error lift2 bind].
    repeat (first [rewrite (r_mul_ok R)|rewrite (r_sub_ok R)]; cbn [lift2 bind]). reflexivity.
  Qed.
  (** The determinant of the matrix with rows [a] and [b]. *)
  Theorem C16_2d : forall a b, length a = 2 -> length b = 2 ->
    v_cross2 o a b = Ok (r_sub R (r_mul R (vget o a 0) (vget o b 1)) (r_mul R (vget o a 1) (vget o b 0))) /\
    v_cross2 o a b =! m_det o 2 [a; b].
  Proof.
    intros. comps.
    assert (E : v_cross2 o [t1; t2] [t; t0] =
      Ok (r_sub R (r_mul R (vget o [t1; t2] 0) (vget o [t; t0] 1)) (r_mul R (vget o [t1; t2] 1) (vget o [t; t0] 0)))).
    { unfold v_cross2, v_x, v_y, v_get_unchecked, index_unchecked. cbn [nth_error lift2 bind].
      repeat (first [rewrite (r_mul_ok R)|rewrite (r_sub_ok R)]; cbn [lift2 bind]). reflexivity. }
    split; [exact E|]. rewrite E. eexists. split; [reflexivity|].
    unfold m_det, smask_new, index_mask_new.
    cbn -[o_add o_mul o_neg].
    repeat (first [rewrite (r_mul_ok R)|rewrite (r_add_ok R)|rewrite (r_neg_ok R)]; cbn -[o_add o_mul o_neg]).
    f_equal. unfold vget. cbn. ring.
  Qed.
End C16.

(* ------------------------------------------------------------------------- *)
(** * C26: matrix products (multiplication need not be commutative)            *)

Section C26.
  Context {T : Type} {o : Ops T} (R : Ring o).

  Theorem C26_element : forall L M N a b, rect L M a -> rect M N b -> 0 < M ->
    exists r, m_dot o L M N a b = Ok r /\ rect L N r /\ forall i j, i < L -> j < N ->
        elt r i j = Some (bigsum R M (fun k => r_mul R (mget o a i k) (mget o b k j))).
  Proof.
    intros. asfun o. ops R. eexists. split; [reflexivity|]. split; [apply rect_mk|].
    intros. rewrite elt_mk. replace ((i <? L) && (j <? N)) with true by lia. f_equal. apply bigsum_ext.
    intros. rewrite !mget_mk by auto. reflexivity.
  Qed.
  Theorem C26_assoc : forall L M N P a b c, rect L M a -> rect M N b -> rect N P c -> 0 < M -> 0 < N ->
    (let! ab := m_dot o L M N a b in m_dot o L N P ab c) =!
    (let! bc := m_dot o M N P b c in m_dot o L M P a bc).
  Proof.
    intros. asfun o. ops R. same. apply mk_ext. intros i j Hi Hj.
    rewrite (@bigsum_ext _ _ R M _ (fun k => bigsum R N (fun l => r_mul R (r_mul R (f1 i k) (f0 k l)) (f l j)))).
    - rewrite bigsum_swap. apply bigsum_ext. intros. rewrite <- bigsum_mul_r. reflexivity.
    - intros. rewrite <- bigsum_mul_l. apply bigsum_ext. intros. apply (r_mul_assoc R).
  Qed.
  Theorem C26_distr_left : forall L M N a b c, rect L M a -> rect M N b -> rect M N c -> 0 < M ->
    (let! bc := m_add o M N b c in m_dot o L M N a bc) =!
    (let! ab := m_dot o L M N a b in let! ac := m_dot o L M N a c in m_add o L N ab ac).
  Proof.
    intros. asfun o. ops R. same. apply mk_ext. intros. rewrite <- bigsum_add. apply bigsum_ext.
    intros. symmetry. apply (r_distr_r R).
  Qed.
  Theorem C26_distr_right : forall L M N a b c, rect L M a -> rect L M b -> rect M N c -> 0 < M ->
    (let! ab := m_add o L M a b in m_dot o L M N ab c) =!
    (let! ac := m_dot o L M N a c in let! bc := m_dot o L M N b c in m_add o L N ac bc).
  Proof.
    intros. asfun o. ops R. same. apply mk_ext. intros. rewrite <- bigsum_add. apply bigsum_ext.
    intros. symmetry. apply (r_distr_l R).
  Qed.
  Theorem C26_one_left : forall M N a, rect M N a -> 0 < M ->
    (let! i := m_one o M in m_dot o M M N i a) = Ok a.
  Proof.
    intros. asfun o. ops R. f_equal. apply mk_ext. intros i j Hi Hj.
    rewrite <- (@bigsum_delta _ _ R M i (fun k => f k j) Hi). apply bigsum_ext. intros k Hk.
    rewrite (Nat.eqb_sym i k). destruct (k =? i).
    - apply (r_mul_1_l R).
    - apply (r_mul_0_l R).
  Qed.
  Theorem C26_one_right : forall M N a, rect M N a -> 0 < N ->
    (let! i := m_one o N in m_dot o M N N a i) = Ok a.
  Proof.
    intros. asfun o. ops R. f_equal. apply mk_ext. intros i j Hi Hj.
    rewrite <- (@bigsum_delta _ _ R N j (fun k => f i k) Hj). apply bigsum_ext. intros k Hk.
    destruct (k =? j).
    - apply (r_mul_1_r R).
    - apply (r_mul_0_r R).
  Qed.
  (** A scalar factor on the right operand comes out of the product. *)
  Theorem C26_scale_right : forall L M N a b s, rect L M a -> rect M N b -> 0 < M ->
    (let! x := m_smul o b s in m_dot o L M N a x) =! (let! ab := m_dot o L M N a b in m_smul o ab s).
  Proof.
    intros. asfun o. ops R. same. apply mk_ext. intros. rewrite <- bigsum_mul_r. apply bigsum_ext.
    intros. symmetry. apply (r_mul_assoc R).
  Qed.
End C26.

(** Any scalar type, exact or not: an empty inner dimension panics unless the result has no elements. *)
Theorem C26_empty_inner : forall T (o : Ops T) L N a b, rect L 0 a -> rect 0 N b ->
  (0 < L -> 0 < N -> m_dot o L 0 N a b = Panic) /\
  (L = 0 \/ N = 0 -> m_dot o L 0 N a b = Ok (repeat [] L)).
Proof. exact m_dot_0. Qed.

Section C26c.
  Context {T : Type} {o : Ops T} (R : CRing o).
  Add Ring R26 : (CRing_theory R).
  Theorem C26_scale_left : forall L M N a b s, rect L M a -> rect M N b -> 0 < M ->
    (let! x := m_smul o a s in m_dot o L M N x b) =! (let! ab := m_dot o L M N a b in m_smul o ab s).
  Proof.
    intros. asfun o. ops R. same. apply mk_ext. intros. rewrite <- bigsum_mul_r. apply bigsum_ext.
    intros. ring.
  Qed.
  (** Transposition reverses products. *)
  Theorem C24_transpose_product : forall L M N a b, rect L M a -> rect M N b -> 0 < M ->
    (let! ab := m_dot o L M N a b in m_transpose L N ab) =!
    (let! bt := m_transpose M N b in let! at_ := m_transpose L M a in m_dot o N M L bt at_).
  Proof.
    intros. asfun o. ops R. same. apply mk_ext. intros. apply bigsum_ext. intros. ring.
  Qed.
End C26c.

(* ------------------------------------------------------------------------- *)
(** * C27: matrix-vector products                                              *)

Section C27.
  Context {T : Type} {o : Ops T} (R : Ring o).
  Theorem C27_value : forall M N a v, rect M N a -> length v = N -> 0 < N ->
    exists r, m_dot_v o M N a v = Ok r /\ length r = M /\
      forall i, i < M -> nth_error r i = Some (bigsum R N (fun k => r_mul R (mget o a i k) (vget o v k))).
  Proof.
    intros. asfun o. ops R. eexists. split; [reflexivity|]. split; [apply vk_length|].
    intros. rewrite nth_error_vk. replace (i <? M) with true by lia. f_equal. apply bigsum_ext.
    intros. rewrite mget_mk, vget_vk by auto. reflexivity.
  Qed.
  Theorem C27_value_left : forall M N a v, rect M N a -> length v = M -> 0 < M ->
    exists r, v_dot_m o M N v a = Ok r /\ length r = N /\
      forall j, j < N -> nth_error r j = Some (bigsum R M (fun k => r_mul R (vget o v k) (mget o a k j))).
  Proof.
    intros. asfun o. ops R. eexists. split; [reflexivity|]. split; [apply vk_length|].
    intros. rewrite nth_error_vk. replace (j <? N) with true by lia. f_equal. apply bigsum_ext.
    intros. rewrite mget_mk, vget_vk by auto. reflexivity.
  Qed.
  Theorem C27_compose : forall L M N a b v, rect L M a -> rect M N b -> length v = N -> 0 < M -> 0 < N ->
    (let! ab := m_dot o L M N a b in m_dot_v o L N ab v) =!
    (let! w := m_dot_v o M N b v in m_dot_v o L M a w).
  Proof.
    intros. asfun o. ops R. same. apply vk_ext. intros i Hi.
    rewrite (@bigsum_ext _ _ R M _ (fun k => bigsum R N (fun l => r_mul R (r_mul R (f1 i k) (f0 k l)) (f l)))).
    - rewrite bigsum_swap. apply bigsum_ext. intros. rewrite <- bigsum_mul_r. reflexivity.
    - intros. rewrite <- bigsum_mul_l. apply bigsum_ext. intros. apply (r_mul_assoc R).
  Qed.
  Theorem C27_linear : forall M N a b v w s, rect M N a -> rect M N b -> length v = N -> length w = N -> 0 < N ->
    (let! vw := v_add o N v w in m_dot_v o M N a vw) =!
      (let! x := m_dot_v o M N a v in let! y := m_dot_v o M N a w in v_add o M x y) /\
    (let! ab := m_add o M N a b in m_dot_v o M N ab v) =!
      (let! x := m_dot_v o M N a v in let! y := m_dot_v o M N b v in v_add o M x y) /\
    (let! x := v_smul o v s in m_dot_v o M N a x) =! (let! x := m_dot_v o M N a v in v_smul o x s).
  Proof.
    intros. asfun o. repeat split; ops R; same; apply vk_ext; intros.
    - rewrite <- bigsum_add. apply bigsum_ext. intros. symmetry. apply (r_distr_r R).
    - rewrite <- bigsum_add. apply bigsum_ext. intros. symmetry. apply (r_distr_l R).
    - rewrite <- bigsum_mul_r. apply bigsum_ext. intros. symmetry. apply (r_mul_assoc R).
  Qed.
  Theorem C27_linear_left : forall M N a b v w, rect M N a -> rect M N b -> length v = M -> length w = M -> 0 < M ->
    (let! vw := v_add o M v w in v_dot_m o M N vw a) =!
      (let! x := v_dot_m o M N v a in let! y := v_dot_m o M N w a in v_add o N x y) /\
    (let! ab := m_add o M N a b in v_dot_m o M N v ab) =!
      (let! x := v_dot_m o M N v a in let! y := v_dot_m o M N v b in v_add o N x y).
  Proof.
    intros. asfun o. repeat split; ops R; same; apply vk_ext; intros.
    - rewrite <- bigsum_add. apply bigsum_ext. intros. symmetry. apply (r_distr_l R).
    - rewrite <- bigsum_add. apply bigsum_ext. intros. symmetry. apply (r_distr_r R).
  Qed.
End C27.

Section C27c.
  Context {T : Type} {o : Ops T} (R : CRing o).
  Add Ring R27 : (CRing_theory R).
  Theorem C27_row_vector : forall M N a v, rect M N a -> length v = M -> 0 < M ->
    v_dot_m o M N v a =! (let! t := m_transpose M N a in m_dot_v o N M t v).
  Proof. intros. asfun o. ops R. same. apply vk_ext. intros. apply bigsum_ext. intros. ring. Qed.
  Theorem C27_adjoint : forall M N a v w, rect M N a -> length v = N -> length w = M -> 0 < M -> 0 < N ->
    (let! x := m_dot_v o M N a v in v_dot o M x w) =!
    (let! t := m_transpose M N a in let! y := m_dot_v o N M t w in v_dot o N v y).
  Proof.
    intros. asfun o. ops R. same.
    rewrite (@bigsum_ext _ _ R N _ (fun k => bigsum R M (fun l => r_mul R (f1 l k) (r_mul R (f0 k) (f l))))).
    - rewrite bigsum_swap. apply bigsum_ext. intros. rewrite <- bigsum_mul_r. apply bigsum_ext. intros. ring.
    - intros. rewrite <- bigsum_mul_l. apply bigsum_ext. intros. ring.
  Qed.
End C27c.

Theorem C27_empty_inner : forall T (o : Ops T) M a v,
  (rect M 0 a -> (0 < M -> m_dot_v o M 0 a v = Panic) /\ (M = 0 -> m_dot_v o M 0 a v = Ok [])) /\
  (rect 0 M a -> (0 < M -> v_dot_m o 0 M v a = Panic) /\ (M = 0 -> v_dot_m o 0 M v a = Ok [])).
Proof. intros. split; [apply m_dot_v_0|apply v_dot_m_0]. Qed.

(* ------------------------------------------------------------------------- *)
(** * C28: outer product                                                       *)

(** Each element is one scalar product; nothing is assumed of the scalars. *)
Theorem C28_elements : forall T (o : Ops T) M N u v, length u = M -> length v = N ->
  in_order2 M N (fun i j => lift2 (o_mul o) (index u i) (index v j)) (m_outer o M N u v).
Proof.
  intros T o M N u v Lu Lv. unfold m_outer. rewrite m_indices_mk. cbn [bind].
  set (g := fun p : nat * nat => lift2 (o_mul o) (index u (fst p)) (index v (snd p))).
  assert (E : m_map (fun '(i, j) => lift2 (o_mul o) (v_index u i) (v_index v j)) (mk M N (fun i j => (i, j))) =
              m_map g (mk M N (fun i j => (i, j)))).
  { rewrite !m_map_res. apply map_res_ext. intros. apply map_res_ext. intros [i j] _. reflexivity. }
  rewrite E. pose proof (@m_map_in_order _ _ g M N _ (rect_mk M N (fun i j => (i, j)))) as H.
  assert (X : forall i j, i < M -> j < N -> at1m g (mk M N (fun i j => (i, j))) i j =
     lift2 (o_mul o) (index u i) (index v j)).
  { intros. unfold at1m. rewrite elt_mk. replace ((i <? M) && (j <? N)) with true by lia. reflexivity. }
  destruct H as [(m & Em & Rm & H)|(i & j & Hi & Hj & Hb & Hf)].
  - left. exists m. split; [exact Em|]. split; [exact Rm|]. intros i j Hi Hj.
    destruct (H i j Hi Hj) as (x & Ex & Ey). exists x. rewrite <- X by auto. auto.
  - right. exists i, j. split; auto. split; auto. split.
    + intros. rewrite <- X by auto. auto.
    + rewrite <- X by auto. auto.
Qed.

Section C28.
  Context {T : Type} {o : Ops T} (R : Ring o).
  Theorem C28_value : forall M N u v, length u = M -> length v = N ->
    exists r, m_outer o M N u v = Ok r /\ rect M N r /\
      forall i j, i < M -> j < N -> elt r i j = Some (r_mul R (vget o u i) (vget o v j)).
  Proof.
    intros. asfun o. ops R. eexists. split; [reflexivity|]. split; [apply rect_mk|].
    intros. rewrite elt_mk. replace ((i <? M) && (j <? N)) with true by lia. rewrite !vget_vk by auto.
    reflexivity.
  Qed.
  Theorem C28_apply : forall M N u v w, length u = M -> length v = N -> length w = N -> 0 < N ->
    (let! p := m_outer o M N u v in m_dot_v o M N p w) =!
    (let! d := v_dot o N v w in v_smul o u d).
  Proof.
    intros. asfun o. ops R. same. apply vk_ext. intros. rewrite <- bigsum_mul_l. apply bigsum_ext.
    intros. apply (r_mul_assoc R).
  Qed.
End C28.
Theorem C28_transpose : forall T (o : Ops T) (R : CRing o) M N u v, length u = M -> length v = N ->
  (let! p := m_outer o M N u v in m_transpose M N p) =! m_outer o N M v u.
Proof. intros. asfun o. ops R. same. apply mk_ext. intros. apply (c_mul_comm R). Qed.

(* ------------------------------------------------------------------------- *)
(** * C29: identity and diagonal                                               *)

Theorem C29_one : forall T (o : Ops T) N, exists r, m_one o N = Ok r /\ rect N N r /\
  forall i j, i < N -> j < N -> elt r i j = Some (if i =? j then o_one o else o_zero o).
Proof.
  intros. rewrite m_one_mk. eexists. split; [reflexivity|]. split; [apply rect_mk|].
  intros. rewrite elt_mk. replace ((i <? N) && (j <? N)) with true by lia. reflexivity.
Qed.
Theorem C29_diagonal : forall T (o : Ops T) N d, length d = N ->
  exists r, m_diagonal o N d = Ok r /\ rect N N r /\
    forall i j, i < N -> j < N -> elt r i j = if i =? j then nth_error d i else Some (o_zero o).
Proof.
  intros. asfun o. ops tt. eexists. split; [reflexivity|]. split; [apply rect_mk|].
  intros. rewrite elt_mk. replace ((i <? N) && (j <? N)) with true by lia. rewrite nth_error_vk.
  replace (i <? N) with true by lia. destruct (i =? j); reflexivity.
Qed.
Theorem C29_diagonal_apply : forall T (o : Ops T) (R : Ring o) N d v, length d = N -> length v = N -> 0 < N ->
  (let! m := m_diagonal o N d in m_dot_v o N N m v) =! v_mul o N d v.
Proof.
  intros. asfun o. ops R. same. apply vk_ext. intros i Hi.
  rewrite <- (@bigsum_delta _ _ R N i (fun k => r_mul R (f0 i) (f k)) Hi). apply bigsum_ext. intros k Hk.
  rewrite (Nat.eqb_sym i k). destruct (k =? i).
  - reflexivity.
  - symmetry. apply (r_mul_0_l R).
Qed.
Theorem C29_diagonal_ones : forall T (o : Ops T) N,
  (let! ones := v_fill N (o_one o) in m_diagonal o N ones) =! m_one o N.
Proof.
  intros. unfold v_fill. rewrite v_init_const_repeat, repeat_vk. cbn [bind]. rewrite m_diagonal_mk, m_one_mk.
  same.
Qed.

(* ------------------------------------------------------------------------- *)
(** * Instances over the integers                                              *)

Local Open Scope Z_scope.
Example C13_example :
  v_add z_ops 3 [1; 2; 3] [4; 5; 6] = Ok [5; 7; 9] /\ v_add z_ops 3 [4; 5; 6] [1; 2; 3] = Ok [5; 7; 9] /\
  v_smul z_ops [1; 2; 3] (-2) = Ok [-2; -4; -6] /\ v_sub z_ops 3 [1; 2; 3] [4; 5; 7] = Ok [-3; -3; -4].
Proof. repeat split. Qed.
Example C13_instance : (let! ab := v_add z_ops 3 [1; 2; 3] [4; 5; 6] in v_smul z_ops ab 7) =!
  (let! x := v_smul z_ops [1; 2; 3] 7 in let! y := v_smul z_ops [4; 5; 6] 7 in v_add z_ops 3 x y).
Proof. apply (C13_scale_add z_ring); reflexivity. Qed.
Example C14_example : v_dot z_ops 3 [1; 2; 3] [4; 5; 6] = Ok 32 /\ v_square_length z_ops [1; 2; 3] = Ok 14.
Proof. split; reflexivity. Qed.
Example C16_example :
  v_cross3 z_ops [1; 2; 3] [4; 5; 6] = Ok [-3; 6; -3] /\ v_cross3 z_ops [1; 0; 0] [0; 1; 0] = Ok [0; 0; 1] /\
  v_cross4 z_ops [1; 2; 3; 9] [4; 5; 6; 9] = Ok [-3; 6; -3; 0] /\ v_cross2 z_ops [1; 2] [3; 4] = Ok (-2).
Proof. repeat split. Qed.
Example C26_example :
  m_dot z_ops 2 3 2 [[1; 2; 3]; [4; 5; 6]] [[1; 0]; [0; 1]; [2; 2]] = Ok [[7; 8]; [16; 17]] /\
  m_dot z_ops 2 0 2 [[]; []] [] = Panic /\ m_dot z_ops 0 0 2 [] [] = Ok [].
Proof. repeat split. Qed.
Example C26_instance :
  (let! ab := m_dot z_ops 2 3 2 [[1; 2; 3]; [4; 5; 6]] [[1; 0]; [0; 1]; [2; 2]] in
   m_dot z_ops 2 2 1 ab [[1]; [-1]]) =!
  (let! bc := m_dot z_ops 3 2 1 [[1; 0]; [0; 1]; [2; 2]] [[1]; [-1]] in
   m_dot z_ops 2 3 1 [[1; 2; 3]; [4; 5; 6]] bc).
Proof. apply (C26_assoc z_ring); try lia; split; repeat constructor. Qed.
Example C27_example :
  m_dot_v z_ops 2 3 [[1; 2; 3]; [4; 5; 6]] [1; 0; -1] = Ok [-2; -2] /\
  v_dot_m z_ops 2 3 [1; 2] [[1; 2; 3]; [4; 5; 6]] = Ok [9; 12; 15] /\
  m_dot_v z_ops 1 0 [[]] [] = Panic.
Proof. repeat split. Qed.
Example C28_example : m_outer z_ops 2 3 [1; 2] [3; 4; 5] = Ok [[3; 4; 5]; [6; 8; 10]].
Proof. reflexivity. Qed.
Example C29_example :
  m_one z_ops 3 = Ok [[1; 0; 0]; [0; 1; 0]; [0; 0; 1]] /\
  m_diagonal z_ops 3 [7; 8; 9] = Ok [[7; 0; 0]; [0; 8; 0]; [0; 0; 9]].
Proof. split; reflexivity. Qed.

Print Assumptions C13_add_comm.
Print Assumptions C13_add_assoc.
Print Assumptions C13_add_zero.
Print Assumptions C13_add_neg.
Print Assumptions C13_sub.
Print Assumptions C13_scale_add.
Print Assumptions C13_add_scale.
Print Assumptions C13_scale_scale.
Print Assumptions C13_scale_one.
Print Assumptions C13_matrix_add_comm.
Print Assumptions C13_matrix_add_assoc.
Print Assumptions C13_matrix_add_zero.
Print Assumptions C13_matrix_sub_neg.
Print Assumptions C13_matrix_scale.
Print Assumptions C14_symmetric.
Print Assumptions C14_empty.
Print Assumptions C14_value.
Print Assumptions C14_square_length.
Print Assumptions C14_additive.
Print Assumptions C14_homogeneous.
Print Assumptions C16_components.
Print Assumptions C16_anticommutative.
Print Assumptions C16_bilinear.
Print Assumptions C16_orthogonal.
Print Assumptions C16_lagrange.
Print Assumptions C16_jacobi.
Print Assumptions C16_4d.
Print Assumptions C16_2d.
Print Assumptions C26_element.
Print Assumptions C26_assoc.
Print Assumptions C26_distr_left.
Print Assumptions C26_distr_right.
Print Assumptions C26_one_left.
Print Assumptions C26_one_right.
Print Assumptions C26_scale_right.
Print Assumptions C26_empty_inner.
Print Assumptions C26_scale_left.
Print Assumptions C24_transpose_product.
Print Assumptions C27_value.
Print Assumptions C27_value_left.
Print Assumptions C27_compose.
Print Assumptions C27_linear.
Print Assumptions C27_linear_left.
Print Assumptions C27_row_vector.
Print Assumptions C27_adjoint.
Print Assumptions C27_empty_inner.
Print Assumptions C28_elements.
Print Assumptions C28_value.
Print Assumptions C28_apply.
Print Assumptions C28_transpose.
Print Assumptions C29_one.
Print Assumptions C29_diagonal.
Print Assumptions C29_diagonal_apply.
Print Assumptions C29_diagonal_ones.
