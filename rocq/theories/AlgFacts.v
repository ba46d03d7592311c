(** Vector and matrix operations over exact rings, in terms of functions on indices. *)
From Coq Require Import ZifyBool.
From Verif Require Export SpecRing MFacts.
Set Implicit Arguments.
Local Open Scope nat_scope.
Local Open Scope list_scope.

(* ------------------------------------------------------------------------- *)
(** * Ring lemmas                                                              *)

Section RingFacts.
  Context {T : Type} {o : Ops T} (R : Ring o).
  Local Notation "0" := (o_zero o).
  Local Notation "1" := (o_one o).
  Local Notation "x + y" := (r_add R x y).
  Local Notation "x * y" := (r_mul R x y).
  Local Notation "- x" := (r_opp R x).
  Local Notation "x - y" := (r_sub R x y).

  Lemma r_add_0_r : forall x, x + 0 = x.
  Proof. intros. rewrite (r_add_comm R). apply (r_add_0_l R). Qed.
  Lemma r_opp_l : forall x, (- x) + x = 0.
  Proof. intros. rewrite (r_add_comm R). apply (r_opp_def R). Qed.
  Lemma r_add_cancel_l : forall x y z, x + y = x + z -> y = z.
  Proof.
    intros x y z H. rewrite <- (r_add_0_l R y), <- (r_add_0_l R z), <- (r_opp_l x),
      <- !(r_add_assoc R), H. reflexivity.
  Qed.
  Lemma r_mul_0_l : forall x, 0 * x = 0.
  Proof.
    intros. apply r_add_cancel_l with (0 * x). rewrite <- (r_distr_l R), r_add_0_r, r_add_0_r. reflexivity.
  Qed.
  Lemma r_mul_0_r : forall x, x * 0 = 0.
  Proof.
    intros. apply r_add_cancel_l with (x * 0). rewrite <- (r_distr_r R), r_add_0_r, r_add_0_r. reflexivity.
  Qed.
  Lemma r_opp_mul_l : forall x y, (- x) * y = - (x * y).
  Proof.
    intros. apply r_add_cancel_l with (x * y). rewrite <- (r_distr_l R), (r_opp_def R), (r_opp_def R).
    apply r_mul_0_l.
  Qed.
  Lemma r_opp_mul_r : forall x y, x * (- y) = - (x * y).
  Proof.
    intros. apply r_add_cancel_l with (x * y). rewrite <- (r_distr_r R), (r_opp_def R), (r_opp_def R).
    apply r_mul_0_r.
  Qed.
  Lemma r_opp_opp : forall x, - - x = x.
  Proof. intros. apply r_add_cancel_l with (- x). rewrite (r_opp_def R), r_opp_l. reflexivity. Qed.
  Lemma r_opp_0 : - 0 = 0.
  Proof. apply r_add_cancel_l with 0. rewrite (r_opp_def R), r_add_0_r. reflexivity. Qed.
  Lemma r_opp_add : forall x y, - (x + y) = (- x) + (- y).
  Proof.
    intros. apply r_add_cancel_l with (x + y). rewrite (r_opp_def R).
    rewrite (r_add_comm R x y), <- (r_add_assoc R), (r_add_assoc R x), (r_opp_def R), (r_add_0_l R),
      (r_opp_def R). reflexivity.
  Qed.
  Lemma r_add_swap : forall a b c d, (a + b) + (c + d) = (a + c) + (b + d).
  Proof.
    intros. rewrite <- !(r_add_assoc R). f_equal. rewrite !(r_add_assoc R). f_equal. apply (r_add_comm R).
  Qed.

  (** Finite sums. *)
  Lemma bigsum_ext : forall n f g, (forall i, i < n -> f i = g i) -> bigsum R n f = bigsum R n g.
  Proof. induction n; intros f g H; simpl; auto. rewrite (IHn f g), (H n); auto. Qed.
  Lemma bigsum_zero : forall n, bigsum R n (fun _ => 0) = 0.
  Proof. induction n; simpl; auto. rewrite IHn. apply r_add_0_r. Qed.
  Lemma bigsum_add : forall n f g, bigsum R n (fun i => f i + g i) = bigsum R n f + bigsum R n g.
  Proof. induction n; intros; simpl. { symmetry. apply r_add_0_r. } rewrite IHn. apply r_add_swap. Qed.
  Lemma bigsum_mul_l : forall n c f, bigsum R n (fun i => c * f i) = c * bigsum R n f.
  Proof. induction n; intros; simpl. { symmetry. apply r_mul_0_r. } rewrite IHn, (r_distr_r R). auto. Qed.
  Lemma bigsum_mul_r : forall n c f, bigsum R n (fun i => f i * c) = bigsum R n f * c.
  Proof. induction n; intros; simpl. { symmetry. apply r_mul_0_l. } rewrite IHn, (r_distr_l R). auto. Qed.
  Lemma bigsum_opp : forall n f, bigsum R n (fun i => - f i) = - bigsum R n f.
  Proof. induction n; intros; simpl. { symmetry. apply r_opp_0. } rewrite IHn, r_opp_add. auto. Qed.
  Lemma bigsum_swap : forall n m f,
    bigsum R n (fun i => bigsum R m (fun j => f i j)) = bigsum R m (fun j => bigsum R n (fun i => f i j)).
  Proof.
    induction n; intros m f; simpl. { symmetry. apply bigsum_zero. }
    rewrite IHn, bigsum_add. reflexivity.
  Qed.
  Lemma bigsum_shift : forall n f, bigsum R (S n) f = f 0%nat + bigsum R n (fun i => f (S i)).
  Proof.
    induction n; intros f. { simpl. rewrite r_add_0_r. apply (r_add_0_l R). }
    change (bigsum R (S (S n)) f) with (bigsum R (S n) f + f (S n)). rewrite IHn. simpl.
    symmetry. apply (r_add_assoc R).
  Qed.
  Lemma bigsum_delta : forall n k (f : nat -> T), k < n ->
    bigsum R n (fun i => if i =? k then f i else 0) = f k.
  Proof.
    induction n; intros k f Hk; [lia|]. simpl. destruct (Nat.eq_dec k n) as [->|Hn].
    - rewrite Nat.eqb_refl. rewrite (@bigsum_ext n _ (fun _ => 0)).
      + rewrite bigsum_zero. apply (r_add_0_l R).
      + intros i Hi. replace (i =? n) with false by lia. reflexivity.
    - rewrite IHn by lia. replace (n =? k) with false by lia. apply r_add_0_r.
  Qed.

  (** The crate's sum starts with the first element. *)
  Lemma fold_res_bigsum : forall n f z,
    fold_res (o_add o) z (vk n f) = Ok (z + bigsum R n f).
  Proof.
    induction n; intros f z. { simpl. rewrite r_add_0_r. reflexivity. }
    rewrite vk_S. cbn [fold_res]. rewrite (r_add_ok R). cbn [bind]. rewrite IHn, bigsum_shift.
    rewrite (r_add_assoc R). reflexivity.
  Qed.
  Lemma v_sum_vk : forall n f, 0%nat < n -> v_sum o (vk n f) = Ok (bigsum R n f).
  Proof.
    intros [|n] f H; [lia|]. rewrite vk_S. unfold v_sum. rewrite v_fold_first_cons, fold_res_bigsum.
    rewrite bigsum_shift. reflexivity.
  Qed.
End RingFacts.

(* ------------------------------------------------------------------------- *)
(** * Operations on [vk] and [mk]                                              *)

Section RingOps.
  Context {T : Type} {o : Ops T} (R : Ring o).

  Lemma v_add_vk : forall N f g, v_add o N (vk N f) (vk N g) = Ok (vk N (fun i => r_add R (f i) (g i))).
  Proof. intros. apply v_zip_map_vk. intros. apply (r_add_ok R). Qed.
  Lemma v_sub_vk : forall N f g, v_sub o N (vk N f) (vk N g) = Ok (vk N (fun i => r_sub R (f i) (g i))).
  Proof. intros. apply v_zip_map_vk. intros. apply (r_sub_ok R). Qed.
  Lemma v_mul_vk : forall N f g, v_mul o N (vk N f) (vk N g) = Ok (vk N (fun i => r_mul R (f i) (g i))).
  Proof. intros. apply v_zip_map_vk. intros. apply (r_mul_ok R). Qed.
  Lemma v_neg_vk : forall N f, v_neg o (vk N f) = Ok (vk N (fun i => r_opp R (f i))).
  Proof. intros. apply v_map_vk. intros. apply (r_neg_ok R). Qed.
  Lemma v_smul_vk : forall N f a, v_smul o (vk N f) a = Ok (vk N (fun i => r_mul R (f i) a)).
  Proof. intros. apply v_map_vk. intros. apply (r_mul_ok R). Qed.
  Lemma v_zero_vk : forall N, v_zero o N = Ok (vk N (fun _ => o_zero o)).
  Proof. intros. rewrite v_zero_repeat, repeat_vk. reflexivity. Qed.

  Lemma v_dot_vk : forall N f g, 0 < N ->
    v_dot o N (vk N f) (vk N g) = Ok (bigsum R N (fun i => r_mul R (f i) (g i))).
  Proof.
    intros. unfold v_dot. rewrite (@v_zip_map_vk _ _ _ N (o_mul o) f g (fun i => r_mul R (f i) (g i))).
    - apply v_sum_vk. auto.
    - intros. apply (r_mul_ok R).
  Qed.
  Lemma v_square_length_vk : forall N f, 0 < N ->
    v_square_length o (vk N f) = Ok (bigsum R N (fun i => r_mul R (f i) (f i))).
  Proof.
    intros. unfold v_square_length. rewrite (@v_map_vk _ _ _ (fun i => r_mul R (f i) (f i))).
    - apply v_sum_vk. auto.
    - intros. apply (r_mul_ok R).
  Qed.

  Lemma m_add_mk : forall M N f g, m_add o M N (mk M N f) (mk M N g) = Ok (mk M N (fun i j => r_add R (f i j) (g i j))).
  Proof. intros. apply m_zip_map_mk. intros. apply (r_add_ok R). Qed.
  Lemma m_sub_mk : forall M N f g, m_sub o M N (mk M N f) (mk M N g) = Ok (mk M N (fun i j => r_sub R (f i j) (g i j))).
  Proof. intros. apply m_zip_map_mk. intros. apply (r_sub_ok R). Qed.
  Lemma m_smul_mk : forall M N f a, m_smul o (mk M N f) a = Ok (mk M N (fun i j => r_mul R (f i j) a)).
  Proof. intros. apply m_map_mk. intros. apply (r_mul_ok R). Qed.
  Lemma m_neg_mk : forall M N f, m_neg o (mk M N f) = Ok (mk M N (fun i j => r_opp R (f i j))).
  Proof. intros. apply m_map_mk. intros. apply (r_neg_ok R). Qed.
  Lemma m_zero_mk : forall M N, m_zero o M N = Ok (mk M N (fun _ _ => o_zero o)).
  Proof. intros. apply m_init_const_mk. Qed.

  Lemma m_dot_mk : forall L M N f g, 0 < M ->
    m_dot o L M N (mk L M f) (mk M N g) =
    Ok (mk L N (fun i j => bigsum R M (fun k => r_mul R (f i k) (g k j)))).
  Proof.
    intros. unfold m_dot. rewrite m_indices_mk. cbn [bind]. apply m_map_mk. intros i j Hi Hj.
    rewrite m_row_mk by auto. cbn [bind]. rewrite m_col_mk by auto. cbn [bind]. apply v_dot_vk. auto.
  Qed.
  Lemma m_dot_v_mk : forall M N f g, 0 < N ->
    m_dot_v o M N (mk M N f) (vk N g) = Ok (vk M (fun i => bigsum R N (fun k => r_mul R (f i k) (g k)))).
  Proof.
    intros. unfold m_dot_v. rewrite v_indices_seq. cbn [bind]. rewrite <- vk_seq. apply v_map_vk.
    intros i Hi. rewrite m_row_mk by auto. cbn [bind]. apply v_dot_vk. auto.
  Qed.
  Lemma v_dot_m_mk : forall M N f g, 0 < M ->
    v_dot_m o M N (vk M f) (mk M N g) = Ok (vk N (fun j => bigsum R M (fun k => r_mul R (f k) (g k j)))).
  Proof.
    intros. unfold v_dot_m. rewrite v_indices_seq. cbn [bind]. rewrite <- vk_seq. apply v_map_vk.
    intros j Hj. rewrite m_col_mk by auto. cbn [bind]. apply v_dot_vk. auto.
  Qed.
  Lemma m_outer_mk : forall M N f g,
    m_outer o M N (vk M f) (vk N g) = Ok (mk M N (fun i j => r_mul R (f i) (g j))).
  Proof.
    intros. unfold m_outer. rewrite m_indices_mk. cbn [bind]. apply m_map_mk. intros i j Hi Hj.
    unfold v_index, index. rewrite !nth_error_vk. replace (i <? M) with true by lia.
    replace (j <? N) with true by lia. cbn [lift2 bind]. apply (r_mul_ok R).
  Qed.
End RingOps.

Lemma m_one_mk : forall T (o : Ops T) N,
  m_one o N = Ok (mk N N (fun i j => if i =? j then o_one o else o_zero o)).
Proof.
  intros. unfold m_one. rewrite m_indices_mk. cbn [bind]. apply m_map_mk. reflexivity.
Qed.

(** Dimensions zero. *)
Lemma v_dot_0 : forall T (o : Ops T) u v, v_dot o 0 u v = Panic.
Proof. intros. unfold v_dot, v_zip_map, v_zip, v_from_iter_unwrap. rewrite v_try_from_iter_pull. reflexivity. Qed.

Lemma m_map_empty : forall A B (f : A -> res B) M N m, rect M N m -> M = 0 \/ N = 0 ->
  m_map f m = Ok (repeat [] M).
Proof.
  intros A B f M N m R H. rewrite m_map_res. destruct R as (L & F). destruct H as [->| ->].
  - destruct m; [reflexivity|discriminate].
  - subst M. induction m as [|r m IH]; auto. apply Forall_cons_iff in F as (Lr & F).
    destruct r; [|discriminate]. cbn [map_res]. cbn [bind]. rewrite IH by auto. reflexivity.
Qed.

Lemma m_dot_0 : forall T (o : Ops T) L N a b, rect L 0 a -> rect 0 N b ->
  (0 < L -> 0 < N -> m_dot o L 0 N a b = Panic) /\
  (L = 0 \/ N = 0 -> m_dot o L 0 N a b = Ok (repeat [] L)).
Proof.
  intros T o L N a b Ra Rb. unfold m_dot. rewrite m_indices_mk. cbn [bind]. split.
  - intros HL HN. destruct L; [lia|]. destruct N; [lia|]. unfold mk. rewrite !vk_S.
    rewrite m_map_res. cbn [map_res].
    destruct a as [|r a]; [destruct Ra; discriminate|].
    unfold m_row, v_index, index. cbn [nth_error bind]. unfold m_col. rewrite v_indices_seq. cbn [bind seq].
    rewrite v_map_res. cbn [map_res bind]. rewrite v_dot_0. reflexivity.
  - intros H. apply (@m_map_empty _ _ _ L N); auto. apply rect_mk.
Qed.

Lemma m_dot_v_0 : forall T (o : Ops T) M a v, rect M 0 a ->
  (0 < M -> m_dot_v o M 0 a v = Panic) /\ (M = 0 -> m_dot_v o M 0 a v = Ok []).
Proof.
  intros T o M a v Ra. unfold m_dot_v. rewrite v_indices_seq. cbn [bind]. rewrite v_map_res. split.
  - intros HM. destruct M; [lia|]. cbn [seq map_res]. destruct a as [|r a]; [destruct Ra; discriminate|].
    unfold m_row, v_index, index. cbn [nth_error bind]. rewrite v_dot_0. reflexivity.
  - intros ->. reflexivity.
Qed.

Lemma v_dot_m_0 : forall T (o : Ops T) N v b, rect 0 N b ->
  (0 < N -> v_dot_m o 0 N v b = Panic) /\ (N = 0 -> v_dot_m o 0 N v b = Ok []).
Proof.
  intros T o N v b Rb. unfold v_dot_m. rewrite v_indices_seq. cbn [bind]. rewrite v_map_res. split.
  - intros HN. destruct N; [lia|]. cbn [seq map_res]. unfold m_col. rewrite v_indices_seq. cbn [bind seq].
    rewrite v_map_res. cbn [map_res bind]. rewrite v_dot_0. reflexivity.
  - intros ->. reflexivity.
Qed.

(* ------------------------------------------------------------------------- *)
(** * diagonal                                                                 *)

Lemma diag_row : forall T (z : T) i N j0 (it : list T),
  map_st (fun (it : list T) '(i, j) =>
      if i =? j then let! (it1, x) := list_next it in let! y := unwrap x in Ok (it1, y)
      else Ok (it, z)) it (map (fun j => (i, j)) (seq j0 N)) =
  if (j0 <=? i) && (i <? j0 + N) then
    match it with
    | [] => Panic
    | d :: it1 => Ok (it1, map (fun j => if i =? j then d else z) (seq j0 N))
    end
  else Ok (it, map (fun j => z) (seq j0 N)).
Proof.
  intros T z i. induction N; intros j0 it.
  - cbn [seq map map_st]. replace ((j0 <=? i) && (i <? j0 + 0)) with false by lia. reflexivity.
  - cbn [seq map map_st]. destruct (i =? j0) eqn:E.
    + assert (i = j0) by lia. subst j0. replace ((i <=? i) && (i <? i + S N)) with true by lia.
      destruct it as [|d it]; [reflexivity|]. cbn [list_next bind unwrap]. rewrite IHN.
      replace ((S i <=? i) && (i <? S i + N)) with false by lia. cbn [bind]. f_equal. f_equal. f_equal.
      apply map_ext_in. intros j Hj. apply in_seq in Hj. replace (i =? j) with false by lia. reflexivity.
    + cbn [bind]. rewrite IHN.
      replace ((S j0 <=? i) && (i <? S j0 + N)) with ((j0 <=? i) && (i <? j0 + S N)) by lia.
      destruct ((j0 <=? i) && (i <? j0 + S N)); [|reflexivity].
      destruct it; reflexivity.
Qed.

Lemma m_diagonal_mk : forall T (o : Ops T) N (d : nat -> T),
  m_diagonal o N (vk N d) = Ok (mk N N (fun i j => if i =? j then d i else o_zero o)).
Proof.
  intros T o N d. unfold m_diagonal. rewrite m_indices_mk. cbn [bind].
  unfold m_map_st, v_map_st, mk.
  assert (X : forall n i0, i0 + n <= N ->
    map_st (fun (c : list T) r => map_st (fun (it : list T) '(i, j) =>
      if i =? j then let! (it1, x) := list_next it in let! y := unwrap x in Ok (it1, y)
      else Ok (it, o_zero o)) c r) (map d (seq i0 n))
      (map (fun i => vk N (fun j => (i, j))) (seq i0 n)) =
    Ok ([], map (fun i => vk N (fun j => if i =? j then d i else o_zero o)) (seq i0 n))).
  { induction n; intros i0 Hn; [reflexivity|]. cbn [seq map map_st]. unfold vk at 1. rewrite diag_row.
    replace ((0 <=? i0) && (i0 <? 0 + N)) with true by lia. cbn [bind]. rewrite IHn by lia. reflexivity. }
  unfold vk at 1 2. rewrite (X N 0) by lia. reflexivity.
Qed.

(* ------------------------------------------------------------------------- *)
(** * Tactics                                                                  *)

Lemma vk_ex : forall T (o : Ops T) N (v : list T), length v = N -> exists f, v = vk N f.
Proof. intros. exists (vget o v). apply vk_of. auto. Qed.
Lemma mk_ex : forall T (o : Ops T) M N (m : list (list T)), rect M N m -> exists f, m = mk M N f.
Proof. intros. exists (mget o m). apply mk_of. auto. Qed.

Lemma vget_vk : forall T (o : Ops T) N (f : nat -> T) i, i < N -> vget o (vk N f) i = f i.
Proof. intros. apply nth_vk. auto. Qed.
Lemma mget_mk : forall T (o : Ops T) M N (f : nat -> nat -> T) i j, i < M -> j < N -> mget o (mk M N f) i j = f i j.
Proof. intros. unfold mget, mk. rewrite nth_vk by auto. apply nth_vk. auto. Qed.

Lemma mget_elt : forall T (o : Ops T) (m : list (list T)) i j x, elt m i j = Some x -> mget o m i j = x.
Proof.
  intros T o m i j x H. unfold elt in H. unfold mget. destruct (nth_error m i) as [r|] eqn:E; [|discriminate].
  rewrite (nth_error_nth _ _ _ E). apply nth_error_nth. auto.
Qed.

(** Replace vectors and matrices of known size by functions of their indices. *)
Ltac asfun o :=
  repeat match goal with
  | H : length ?v = ?N |- _ => is_var v;
      let f := fresh "f" in destruct (@vk_ex _ o N v H) as (f & ->); clear H
  | H : rect ?M ?N ?m |- _ => is_var m;
      let f := fresh "f" in destruct (@mk_ex _ o M N m H) as (f & ->); clear H
  end.

Ltac ops_step R :=
  first [ rewrite (v_add_vk R) | rewrite (v_sub_vk R) | rewrite (v_mul_vk R) | rewrite (v_neg_vk R)
        | rewrite (v_smul_vk R) | rewrite v_zero_vk
        | rewrite (v_dot_vk R) by (lia || assumption) | rewrite (v_square_length_vk R) by (lia || assumption)
        | rewrite (m_add_mk R) | rewrite (m_sub_mk R) | rewrite (m_neg_mk R) | rewrite (m_smul_mk R)
        | rewrite m_zero_mk | rewrite m_one_mk | rewrite m_diagonal_mk
        | rewrite (m_dot_mk R) by (lia || assumption) | rewrite (m_dot_v_mk R) by (lia || assumption)
        | rewrite (v_dot_m_mk R) by (lia || assumption) | rewrite (m_outer_mk R)
        | rewrite m_transpose_mk
        | rewrite (r_add_ok R) | rewrite (r_sub_ok R) | rewrite (r_mul_ok R) | rewrite (r_neg_ok R) ];
  cbn [bind lift1 lift2].
Ltac ops R := unfold v_rsmul; cbn [bind lift1 lift2]; repeat ops_step R.
Ltac same := eexists; split; [reflexivity|]; f_equal.
Ltac listeq :=
  repeat match goal with
  | |- Ok _ = Ok _ => f_equal
  | |- _ :: _ = _ :: _ => f_equal
  | |- [] = [] => reflexivity
  end.
