(** Characterisation of the matrix model by ordinary functions on lists of rows. *)
From Coq Require Import ZifyBool.
From Verif Require Export SpecFacts VecProofs.
Set Implicit Arguments.
Local Open Scope nat_scope.
Local Open Scope list_scope.

(* ------------------------------------------------------------------------- *)
(** * Vectors and matrices given by functions                                  *)

Definition vk {A : Type} (N : nat) (f : nat -> A) : list A := map f (seq 0 N).
Definition mk {A : Type} (M N : nat) (f : nat -> nat -> A) : list (list A) :=
  vk M (fun i => vk N (f i)).

Lemma vk_length : forall A N (f : nat -> A), length (vk N f) = N.
Proof. intros. unfold vk. rewrite map_length, seq_length. reflexivity. Qed.

Lemma vk_ext : forall A N (f g : nat -> A), (forall i, i < N -> f i = g i) -> vk N f = vk N g.
Proof. intros. unfold vk. apply map_ext_in. intros i Hi. apply in_seq in Hi. apply H. lia. Qed.

Lemma mk_ext : forall A M N (f g : nat -> nat -> A),
  (forall i j, i < M -> j < N -> f i j = g i j) -> mk M N f = mk M N g.
Proof. intros. unfold mk. apply vk_ext. intros. apply vk_ext. auto. Qed.

Lemma nth_error_vk : forall A N (f : nat -> A) i,
  nth_error (vk N f) i = if i <? N then Some (f i) else None.
Proof.
  intros. unfold vk. destruct (i <? N) eqn:E.
  - apply map_nth_error. apply nth_error_seq0. lia.
  - apply nth_error_None. rewrite map_length, seq_length. lia.
Qed.

Lemma nth_vk : forall A N (f : nat -> A) i d, i < N -> nth i (vk N f) d = f i.
Proof.
  intros. apply nth_error_nth. rewrite nth_error_vk. replace (i <? N) with true by lia. reflexivity.
Qed.

Lemma elt_mk : forall A M N (f : nat -> nat -> A) i j,
  elt (mk M N f) i j = if (i <? M) && (j <? N) then Some (f i j) else None.
Proof.
  intros. unfold elt, mk. rewrite nth_error_vk. destruct (i <? M); auto.
  rewrite nth_error_vk. destruct (j <? N); reflexivity.
Qed.

Lemma rect_mk : forall A M N (f : nat -> nat -> A), rect M N (mk M N f).
Proof.
  intros. split; [apply vk_length|]. unfold mk, vk at 1. apply Forall_forall.
  intros r Hr. apply in_map_iff in Hr as (i & <- & _). apply vk_length.
Qed.

Lemma vk_S : forall A N (f : nat -> A), vk (S N) f = f 0 :: vk N (fun i => f (S i)).
Proof. intros. unfold vk. simpl. f_equal. rewrite <- seq_shift, map_map. reflexivity. Qed.

Lemma vk_snoc : forall A N (f : nat -> A), vk (S N) f = vk N f ++ [f N].
Proof. intros. unfold vk. rewrite seq_S, map_app. reflexivity. Qed.

Lemma map_vk : forall A B (g : A -> B) N f, map g (vk N f) = vk N (fun i => g (f i)).
Proof. intros. unfold vk. apply map_map. Qed.

Lemma vk_seq : forall N, vk N (fun i => i) = seq 0 N.
Proof. intros. unfold vk. apply map_id. Qed.

Lemma map2_vk : forall A B C (op : A -> B -> C) N f g,
  map2 op (vk N f) (vk N g) = vk N (fun i => op (f i) (g i)).
Proof.
  intros A B C op N. induction N; intros f g; auto. rewrite !vk_S. simpl. f_equal. apply IHN.
Qed.

Lemma vk_of : forall A N (v : list A) d, length v = N -> v = vk N (fun i => nth i v d).
Proof.
  intros A N v d H. apply nth_error_ext. intros i. rewrite nth_error_vk.
  destruct (i <? N) eqn:E.
  - apply nth_error_nth'. lia.
  - apply nth_error_None. lia.
Qed.

Lemma nth_error_Forall : forall A (P : A -> Prop) l i x, Forall P l -> nth_error l i = Some x -> P x.
Proof. intros. rewrite Forall_forall in H. apply H. eapply nth_error_In; eauto. Qed.
Arguments nth_error_Forall {A P l i x}.

Lemma elt_Some_lt : forall A M N (m : list (list A)) i j x,
  rect M N m -> elt m i j = Some x -> i < M /\ j < N.
Proof.
  intros A M N m i j x (L & F) H. unfold elt in H. destruct (nth_error m i) as [r|] eqn:E; [|discriminate].
  pose proof (nth_error_Forall F E) as Lr. simpl in Lr. split.
  - rewrite <- L. apply nth_error_Some. congruence.
  - rewrite <- Lr. apply nth_error_Some. congruence.
Qed.

Lemma elt_lt : forall A M N (m : list (list A)) i j,
  rect M N m -> i < M -> j < N -> exists x, elt m i j = Some x.
Proof.
  intros A M N m i j (L & F) Hi Hj. unfold elt. destruct (nth_error m i) as [r|] eqn:E.
  - pose proof (nth_error_Forall F E) as Lr. simpl in Lr. destruct (nth_error r j) eqn:E2; [eauto|].
    apply nth_error_None in E2. lia.
  - apply nth_error_None in E. lia.
Qed.

Arguments elt_lt {A M N m i j}.

Lemma elt_None : forall A M N (m : list (list A)) i j,
  rect M N m -> ~ (i < M /\ j < N) -> elt m i j = None.
Proof.
  intros. destruct (elt m i j) eqn:E; auto. exfalso. apply H0. eapply elt_Some_lt; eauto.
Qed.

Arguments elt_None {A M N m}.

Lemma elt_ext : forall A M N (a b : list (list A)), rect M N a -> rect M N b ->
  (forall i j, elt a i j = elt b i j) -> a = b.
Proof.
  intros A M N a b (La & Fa) (Lb & Fb) H. apply nth_error_ext. intros i.
  destruct (nth_error a i) as [r|] eqn:Ea, (nth_error b i) as [s|] eqn:Eb; auto.
  - f_equal. apply nth_error_ext. intros j. specialize (H i j). unfold elt in H. rewrite Ea, Eb in H. auto.
  - exfalso. apply nth_error_None in Eb. assert (i < length a) by (apply nth_error_Some; congruence). lia.
  - exfalso. apply nth_error_None in Ea. assert (i < length b) by (apply nth_error_Some; congruence). lia.
Qed.

Arguments elt_ext {A M N a b}.

Lemma mk_of : forall A M N (m : list (list A)) d, rect M N m ->
  m = mk M N (fun i j => nth j (nth i m []) d).
Proof.
  intros A M N m d (L & F). rewrite (vk_of m [] L) at 1. unfold mk. apply vk_ext. intros i Hi.
  apply vk_of. rewrite Forall_forall in F. apply F. apply nth_In. lia.
Qed.

Arguments mk_of {A M N m} d.

Lemma rect_cons : forall A M N (r : list A) m, rect (S M) N (r :: m) <-> length r = N /\ rect M N m.
Proof.
  intros. unfold rect. simpl. rewrite Forall_cons_iff. intuition lia.
Qed.

Lemma rect_concat_length : forall A M N (m : list (list A)), rect M N m -> length (concat m) = M * N.
Proof.
  intros A M N m (<- & F). induction m as [|r m IH]; simpl; auto.
  apply Forall_cons_iff in F as (Lr & F). rewrite app_length, IH by auto. lia.
Qed.

Lemma nth_error_concat : forall A M N (m : list (list A)) i j, rect M N m -> j < N ->
  nth_error (concat m) (i * N + j) = elt m i j.
Proof.
  intros A M N m i j (_ & F) Hj. revert m F. induction i as [|i IH]; intros [|r m] F; unfold elt; simpl.
  - destruct j; auto.
  - apply Forall_cons_iff in F as (Lr & F). rewrite nth_error_app1 by lia. reflexivity.
  - destruct (N + i * N + j); auto.
  - apply Forall_cons_iff in F as (Lr & F). rewrite nth_error_app2 by lia.
    replace (N + i * N + j - length r) with (i * N + j) by lia. rewrite IH by auto. reflexivity.
Qed.

(* ------------------------------------------------------------------------- *)
(** * Splitting a list into rows                                               *)

Fixpoint chunk {A : Type} (M N : nat) (l : list A) : list (list A) :=
  match M with
  | O => []
  | S k => firstn N l :: chunk k N (skipn N l)
  end.

Lemma chunk_rect : forall A M N (l : list A), length l = M * N -> rect M N (chunk M N l).
Proof.
  induction M; intros N l H. { split; auto. constructor. }
  cbn [chunk]. apply rect_cons. split.
  - rewrite firstn_length. lia.
  - apply IHM. rewrite skipn_length. lia.
Qed.

Lemma concat_chunk : forall A M N (l : list A), length l = M * N -> concat (chunk M N l) = l.
Proof.
  induction M; intros N l H. { destruct l; [reflexivity|discriminate]. }
  cbn [chunk concat]. rewrite IHM. { apply firstn_skipn. } rewrite skipn_length. lia.
Qed.

Lemma chunk_concat : forall A M N (m : list (list A)), rect M N m -> chunk M N (concat m) = m.
Proof.
  induction M; intros N m H.
  - destruct H as (L & _). destruct m; [reflexivity|discriminate].
  - destruct m as [|r m]; [destruct H; discriminate|]. apply rect_cons in H as (Lr & H).
    cbn [chunk concat]. subst N. rewrite firstn_app, Nat.sub_diag, firstn_all, firstn_O, app_nil_r.
    rewrite skipn_app, Nat.sub_diag, skipn_all. simpl. f_equal. auto.
Qed.

Lemma firstn_vk : forall A a b (f : nat -> A), firstn a (vk (a + b) f) = vk a f.
Proof. induction a; intros; auto. simpl Nat.add. rewrite !vk_S. simpl. f_equal. apply IHa. Qed.
Lemma skipn_vk : forall A a b (f : nat -> A), skipn a (vk (a + b) f) = vk b (fun i => f (a + i)).
Proof. induction a; intros; auto. simpl Nat.add. rewrite !vk_S. simpl. apply IHa. Qed.

Lemma chunk_vk : forall A M N (f : nat -> A),
  chunk M N (vk (M * N) f) = mk M N (fun i j => f (i * N + j)).
Proof.
  induction M; intros N f; auto. unfold mk. rewrite vk_S. cbn [chunk]. simpl Nat.mul.
  rewrite firstn_vk, skipn_vk, IHM. unfold mk. f_equal. apply vk_ext. intros i _.
  apply vk_ext. intros j _. f_equal. lia.
Qed.

(* ------------------------------------------------------------------------- *)
(** * init                                                                     *)

Lemma calls_app : forall C T a b (f : C -> res (C * T)) c,
  calls (a + b) f c =
  let! (c1, l1) := calls a f c in let! (c2, l2) := calls b f c1 in Ok (c2, l1 ++ l2).
Proof.
  induction a; intros b f c; simpl.
  - destruct (calls b f c) as [(c2 & l2)| | |]; reflexivity.
  - destruct (f c) as [(c1 & y)| | |]; simpl; auto. rewrite IHa.
    destruct (calls a f c1) as [(c2 & l2)| | |]; simpl; auto.
    destruct (calls b f c2) as [(c3 & l3)| | |]; simpl; auto.
Qed.

Lemma m_init_calls : forall C T M N (f : C -> res (C * T)) c,
  m_init M N f c = let! (c', l) := calls (M * N) f c in Ok (c', chunk M N l).
Proof.
  intros C T M N f c. unfold m_init. rewrite v_init_calls. revert c.
  induction M; intros c; [reflexivity|]. cbn [calls Nat.mul]. rewrite calls_app, v_init_calls.
  destruct (calls N f c) as [(c1 & l1)| | |] eqn:E; simpl; auto. rewrite IHM.
  destruct (calls (M * N) f c1) as [(c2 & l2)| | |] eqn:E2; simpl; auto.
  apply calls_length in E. subst N.
  rewrite firstn_app, Nat.sub_diag, firstn_all, firstn_O, app_nil_r.
  rewrite skipn_app, Nat.sub_diag, skipn_all. reflexivity.
Qed.

Lemma repeat_vk : forall A N (x : A), repeat x N = vk N (fun _ => x).
Proof. induction N; intros; auto. rewrite vk_S. simpl. f_equal. auto. Qed.

Lemma m_init_const_mk : forall T M N (y : T), m_init_const M N (Ok y) = Ok (mk M N (fun _ _ => y)).
Proof.
  intros. unfold m_init_const. rewrite m_init_calls, calls_const. cbn [bind].
  rewrite repeat_vk, chunk_vk. reflexivity.
Qed.

(* ------------------------------------------------------------------------- *)
(** * try_from_iter, indices                                                   *)

Lemma pull_app : forall S A a b (next : next_fn S A) s,
  pull (a + b) next s =
  let! (s1, l1) := pull a next s in
  if length l1 =? a then let! (s2, l2) := pull b next s1 in Ok (s2, l1 ++ l2) else Ok (s1, l1).
Proof.
  induction a; intros b next s; simpl.
  - destruct (pull b next s) as [(s2 & l2)| | |]; reflexivity.
  - destruct (next s) as [(s1 & [y|])| | |]; simpl; auto. rewrite IHa.
    destruct (pull a next s1) as [(s2 & l2)| | |]; simpl; auto.
    destruct (length l2 =? a); auto.
    destruct (pull b next s2) as [(s3 & l3)| | |]; simpl; auto.
Qed.

Lemma m_try_from_iter_pull : forall S T M N (next : next_fn S T) s,
  m_try_from_iter M N next s =
  let! (s1, l) := pull (M * N) next s in
  Ok (s1, if length l =? M * N then Some (chunk M N l) else None).
Proof.
  intros S T M N next s. unfold m_try_from_iter, m_try_from_iter_of_vectors.
  rewrite v_try_from_iter_pull.
  (* pulling groups *)
  assert (P : forall M s, (let! (s1, g) := pull M (group_next N next) s in
      Ok (s1, if length g =? M then Some g else None)) =
    let! (s1, l) := pull (M * N) next s in
    Ok (s1, if length l =? M * N then Some (chunk M N l) else None)).
  { clear. induction M; intros s; [reflexivity|].
    cbn [pull Nat.mul]. rewrite pull_app. unfold group_next at 1. rewrite v_try_from_iter_pull.
    destruct (pull N next s) as [(s1 & l1)| | |] eqn:E; cbn [bind]; auto.
    destruct (length l1 =? N) eqn:L.
    - specialize (IHM s1).
      destruct (pull M (group_next N next) s1) as [(s2 & g)| | |] eqn:G;
      destruct (pull (M * N) next s1) as [(s3 & l3)| | |] eqn:G3; cbn [bind] in *; try discriminate; auto.
      inversion IHM; subst. apply Nat.eqb_eq in L. cbn [length]. rewrite app_length, L.
      replace (Datatypes.S (length g) =? Datatypes.S M) with (length g =? M) by lia.
      replace (N + length l3 =? N + M * N) with (length l3 =? M * N) by lia.
      destruct (length g =? M), (length l3 =? M * N); try discriminate; auto.
      inversion H1; subst. cbn [chunk].
      rewrite firstn_app, Nat.sub_diag, firstn_all, firstn_O, app_nil_r.
      rewrite skipn_app, Nat.sub_diag, skipn_all. reflexivity.
    - assert (length l1 <= N) by (eapply pull_length; eauto). apply Nat.eqb_neq in L.
      cbn [bind length]. replace (length l1 =? N + M * N) with false by lia. reflexivity. }
  specialize (P M s).
  destruct (pull M (group_next N next) s) as [(s2 & g)| | |];
  destruct (pull (M * N) next s) as [(s3 & l3)| | |]; cbn [bind] in *; try discriminate; auto.
  inversion P; subst. destruct (length g =? M); reflexivity.
Qed.

Lemma pull_map_range : forall A (f : nat -> res A) (g : nat -> A) n lo,
  (forall x, lo <= x < lo + n -> f x = Ok (g x)) ->
  pull n (map_next f range_next) (lo, lo + n) = Ok ((lo + n, lo + n), map g (seq lo n)).
Proof.
  induction n; intros lo H. { simpl. rewrite Nat.add_0_r. reflexivity. }
  cbn [pull]. unfold map_next at 1, range_next at 1.
  replace (lo <? lo + S n) with true by lia.
  cbn [bind]. rewrite H by lia. cbn [bind]. replace (lo + S n) with (S lo + n) by lia.
  rewrite IHn. { reflexivity. } intros. apply H. lia.
Qed.

Lemma m_indices_mk : forall M N, m_indices M N = Ok (mk M N (fun i j => (i, j))).
Proof.
  intros. unfold m_indices. rewrite m_try_from_iter_pull.
  pose proof (@pull_map_range _ (fun x => if N =? 0 then Panic else Ok (x / N, x mod N))
                (fun x => (x / N, x mod N)) (M * N) 0) as P.
  rewrite Nat.add_0_l in P. rewrite P.
  2:{ intros x Hx. destruct (N =? 0) eqn:E; auto. apply Nat.eqb_eq in E. subst. lia. }
  cbn [bind]. rewrite map_length, seq_length, Nat.eqb_refl. cbn [unwrap].
  fold (vk (M * N) (fun x => (x / N, x mod N))). rewrite chunk_vk. f_equal. apply mk_ext.
  intros i j Hi Hj. f_equal.
  - rewrite Nat.div_add_l by lia. rewrite Nat.div_small by lia. lia.
  - rewrite Nat.add_comm, Nat.mod_add by lia. apply Nat.mod_small. lia.
Qed.

(* ------------------------------------------------------------------------- *)
(** * map, zip                                                                 *)

Lemma m_map_res : forall A B (f : A -> res B) m, m_map f m = map_res (map_res f) m.
Proof.
  intros. unfold m_map, m_map_st, v_map_st.
  rewrite <- v_map_res. unfold v_map, v_map_st.
  replace (map_st (fun (c : unit) r => map_st (fun (_ : unit) a => let! b := f a in Ok (tt, b)) c r) tt m)
    with (map_st (fun (_ : unit) a => let! b := map_res f a in Ok (tt, b)) tt m); auto.
  induction m as [|r m IH]; simpl; auto. rewrite map_st_unit.
  destruct (map_res f r); simpl; auto. rewrite IH. reflexivity.
Qed.

Lemma m_map_pure : forall A B (f : A -> B) m, m_map (ok1 f) m = Ok (map (map f) m).
Proof.
  intros. rewrite m_map_res. rewrite <- map_res_ok. apply map_res_ext. intros. apply map_res_ok1.
Qed.

Lemma m_map_mk : forall A B (f : A -> res B) (g : nat -> nat -> B) M N h,
  (forall i j, i < M -> j < N -> f (h i j) = Ok (g i j)) ->
  m_map f (mk M N h) = Ok (mk M N g).
Proof.
  intros. rewrite m_map_res. unfold mk, vk at 1. rewrite map_res_map.
  rewrite (@map_res_ext _ _ _ (fun i => Ok (vk N (g i)))).
  - rewrite map_res_ok. reflexivity.
  - intros i Hi. apply in_seq in Hi. unfold vk. rewrite map_res_map.
    rewrite (@map_res_ext _ _ _ (fun j => Ok (g i j))).
    + apply map_res_ok.
    + intros j Hj. apply in_seq in Hj. apply H; lia.
Qed.

Lemma v_map_vk : forall A B (f : A -> res B) (g : nat -> B) N h,
  (forall i, i < N -> f (h i) = Ok (g i)) -> v_map f (vk N h) = Ok (vk N g).
Proof.
  intros. rewrite v_map_res. unfold vk at 1. rewrite map_res_map.
  rewrite (@map_res_ext _ _ _ (fun i => Ok (g i))).
  - rewrite map_res_ok. reflexivity.
  - intros i Hi. apply in_seq in Hi. apply H; lia.
Qed.

Lemma m_zip_res : forall T U M N (a : list (list T)) (b : list (list U)),
  rect M N a -> rect M N b -> m_zip M N a b = Ok (map2 (@combine T U) a b).
Proof.
  intros T U M N a b (La & Fa) (Lb & Fb). unfold m_zip. rewrite v_zip_combine by auto. cbn [bind].
  rewrite v_map_res, map2_res_combine. clear La Lb. revert b Fb.
  induction Fa as [|r a Lr Fa IH]; intros [|s b] Fb; auto.
  apply Forall_cons_iff in Fb as (Ls & Fb).
  cbn [map2_res map2]. rewrite v_zip_combine by auto. cbn [bind]. rewrite IH; auto.
Qed.

Lemma m_zip_map_res : forall A B C M N (op : A -> B -> res C) a b,
  rect M N a -> rect M N b -> m_zip_map M N op a b = map2_res (map2_res op) a b.
Proof.
  intros A B C M N op a b Ha Hb. unfold m_zip_map. rewrite m_zip_res by auto. cbn [bind].
  rewrite m_map_res. rewrite map2_combine, map_res_map.
  rewrite <- map2_res_combine. apply map_res_ext. intros (r & s) _. cbn [fst snd].
  apply map2_res_combine.
Qed.

Lemma map2_res_vk : forall A B C (op : A -> B -> res C) N f g h,
  (forall i, i < N -> op (f i) (g i) = Ok (h i)) -> map2_res op (vk N f) (vk N g) = Ok (vk N h).
Proof.
  intros A B C op N. induction N; intros f g h H; auto. rewrite !vk_S. cbn [map2_res].
  rewrite H by lia. cbn [bind]. rewrite (IHN _ _ (fun i => h (S i))).
  { reflexivity. } intros. apply H. lia.
Qed.

Lemma m_zip_map_mk : forall A B C M N (op : A -> B -> res C) f g h,
  (forall i j, i < M -> j < N -> op (f i j) (g i j) = Ok (h i j)) ->
  m_zip_map M N op (mk M N f) (mk M N g) = Ok (mk M N h).
Proof.
  intros. rewrite m_zip_map_res by apply rect_mk. unfold mk. apply map2_res_vk. intros i Hi.
  apply map2_res_vk. auto.
Qed.

Lemma v_zip_map_vk : forall A B C N (op : A -> B -> res C) f g h,
  (forall i, i < N -> op (f i) (g i) = Ok (h i)) ->
  v_zip_map N op (vk N f) (vk N g) = Ok (vk N h).
Proof.
  intros. rewrite v_zip_map_res by apply vk_length. apply map2_res_vk. auto.
Qed.

(* ------------------------------------------------------------------------- *)
(** * access                                                                   *)

Lemma m_index_elt : forall T (m : list (list T)) i j,
  m_index m (i, j) = match elt m i j with Some x => Ok x | None => Panic end.
Proof.
  intros. unfold m_index, v_index, index, elt. simpl. destruct (nth_error m i); reflexivity.
Qed.

Lemma m_index_mk : forall T M N (f : nat -> nat -> T) i j, i < M -> j < N ->
  m_index (mk M N f) (i, j) = Ok (f i j).
Proof.
  intros. rewrite m_index_elt, elt_mk. replace ((i <? M) && (j <? N)) with true by lia. reflexivity.
Qed.

Lemma m_row_mk : forall T M N (f : nat -> nat -> T) i, i < M ->
  m_row (mk M N f) i = Ok (vk N (f i)).
Proof.
  intros. unfold m_row, v_index, index, mk. rewrite nth_error_vk. replace (i <? M) with true by lia.
  reflexivity.
Qed.

Lemma m_col_mk : forall T M N (f : nat -> nat -> T) j, j < N ->
  m_col M (mk M N f) j = Ok (vk M (fun i => f i j)).
Proof.
  intros. unfold m_col. rewrite v_indices_seq. cbn [bind]. rewrite <- vk_seq. apply v_map_vk.
  intros. apply m_index_mk; auto.
Qed.

Lemma m_get_unchecked_mk : forall T M N (f : nat -> nat -> T) i j, i < M -> j < N ->
  m_get_unchecked (mk M N f) i j = Ok (f i j).
Proof.
  intros. unfold m_get_unchecked, v_get_unchecked, index_unchecked, mk. rewrite nth_error_vk.
  replace (i <? M) with true by lia. cbn [bind]. rewrite nth_error_vk.
  replace (j <? N) with true by lia. reflexivity.
Qed.

Lemma list_set_vk : forall A N (f : nat -> A) i x,
  list_set (vk N f) i x = vk N (fun a => if a =? i then x else f a).
Proof.
  intros. apply nth_error_ext. intros k. rewrite nth_error_list_set, !nth_error_vk, vk_length.
  destruct (k <? N) eqn:E1, (i =? k) eqn:E2, (i <? N) eqn:E3; cbn [andb]; try lia; auto.
  - replace (k =? i) with true by lia. reflexivity.
  - replace (k =? i) with false by lia. reflexivity.
  - replace (k =? i) with false by lia. reflexivity.
Qed.

Lemma m_set_unchecked_mk : forall T M N (f : nat -> nat -> T) i j x, i < M -> j < N ->
  m_set_unchecked (mk M N f) i j x =
  Ok (mk M N (fun a b => if (a =? i) && (b =? j) then x else f a b)).
Proof.
  intros. unfold m_set_unchecked, v_get_unchecked, v_set_unchecked, index_unchecked,
    index_set_unchecked, mk. rewrite nth_error_vk. replace (i <? M) with true by lia. cbn [bind].
  rewrite vk_length. replace (j <? N) with true by lia. cbn [bind]. rewrite vk_length.
  replace (i <? M) with true by lia. rewrite !list_set_vk. f_equal. apply vk_ext. intros a _.
  destruct (a =? i) eqn:E; cbn [andb]; auto. apply Nat.eqb_eq in E. subst. reflexivity.
Qed.

(* ------------------------------------------------------------------------- *)
(** * transpose                                                                *)

Section Transpose.
  Context {T : Type} (M N : nat) (m : list (list T)).

  (** The cells of source and destination when all positions before [(i, j)] are done. *)
  Let src (i j : nat) : list (cells T) :=
    mk M N (fun a b => if (a <? i) || ((a =? i) && (b <? j)) then None else elt m a b).
  Let dst (i j : nat) : list (cells T) :=
    mk N M (fun b a => if (a <? i) || ((a =? i) && (b <? j)) then elt m a b else None).

  Lemma tr_row_step : forall left i j, i < M -> j + left = N ->
    tr_row left i j (src i j) (dst i j) = Ok (src i N, dst i N).
  Proof.
    induction left; intros i j Hi Hj; cbn [tr_row].
    - rewrite Nat.add_0_r in Hj. subst. reflexivity.
    - unfold src at 1, dst at 1. rewrite m_get_unchecked_mk by lia. cbn [bind].
      rewrite m_get_unchecked_mk by lia. cbn [bind].
      unfold dst at 1. rewrite m_set_unchecked_mk by lia. cbn [bind].
      unfold src at 1. rewrite m_set_unchecked_mk by lia. cbn [bind].
      rewrite <- (IHleft i (S j)) by lia. f_equal.
      + apply mk_ext. intros a b Ha Hb.
        destruct ((a =? i) && (b =? j)) eqn:E.
        * apply andb_prop in E. destruct E as (E1 & E2). apply Nat.eqb_eq in E1, E2. subst.
          replace ((i <? i) || (i =? i) && (j <? S j)) with true by lia.
          replace ((i <? i) || (i =? i) && (j <? j)) with false by lia. reflexivity.
        * replace ((a <? i) || (a =? i) && (b <? S j)) with ((a <? i) || (a =? i) && (b <? j)) by lia.
          reflexivity.
      + apply mk_ext. intros b a Hb Ha.
        destruct ((b =? j) && (a =? i)) eqn:E.
        * apply andb_prop in E. destruct E as (E1 & E2). apply Nat.eqb_eq in E1, E2. subst.
          replace ((i <? i) || (i =? i) && (j <? S j)) with true by lia.
          replace ((i <? i) || (i =? i) && (j <? j)) with false by lia. reflexivity.
        * replace ((a <? i) || (a =? i) && (b <? S j)) with ((a <? i) || (a =? i) && (b <? j)) by lia.
          reflexivity.
  Qed.

  Lemma tr_rows_step : forall left i, i + left = M ->
    tr_rows left N i (src i 0) (dst i 0) = Ok (src M 0, dst M 0).
  Proof.
    induction left; intros i Hi; cbn [tr_rows].
    - rewrite Nat.add_0_r in Hi. subst. reflexivity.
    - rewrite tr_row_step by lia. cbn [bind]. rewrite <- (IHleft (S i)) by lia. f_equal.
      + apply mk_ext. intros a b Ha Hb.
        replace ((a <? S i) || (a =? S i) && (b <? 0)) with ((a <? i) || (a =? i) && (b <? N)) by lia.
        reflexivity.
      + apply mk_ext. intros b a Hb Ha.
        replace ((a <? S i) || (a =? S i) && (b <? 0)) with ((a <? i) || (a =? i) && (b <? N)) by lia.
        reflexivity.
  Qed.

  Lemma tr_rows_all : rect M N m ->
    tr_rows M N 0 (map (map (@Some T)) m) (m_uninit N M) =
    Ok (mk M N (fun _ _ => None), mk N M (fun b a => elt m a b)).
  Proof.
    intros R. assert (R2 : rect M N (map (map (@Some T)) m)).
    { destruct R as (L & F). split; [rewrite map_length; auto|].
      apply Forall_map. eapply Forall_impl; [|exact F]. simpl. intros. rewrite map_length. auto. }
    replace (map (map (@Some T)) m) with (src 0 0).
    2:{ symmetry. rewrite (mk_of None R2). apply mk_ext. intros a b Ha Hb.
        replace ((a <? 0) || (a =? 0) && (b <? 0)) with false by lia.
        destruct (elt_lt R Ha Hb) as (x & E). rewrite E. unfold elt in E.
        destruct (nth_error m a) as [r|] eqn:Er; [|discriminate].
        rewrite (nth_error_nth (map (map (@Some T)) m) a [] (map_nth_error (map (@Some T)) a m Er)).
        apply nth_error_nth. apply map_nth_error. auto. }
    replace (m_uninit N M) with (dst 0 0).
    2:{ unfold m_uninit, v_uninit. rewrite !repeat_vk. apply mk_ext. intros b a Hb Ha.
        replace ((a <? 0) || (a =? 0) && (b <? 0)) with false by lia. reflexivity. }
    rewrite tr_rows_step by lia. f_equal. f_equal.
    - apply mk_ext. intros a b Ha Hb. replace ((a <? M) || (a =? M) && (b <? 0)) with true by lia. auto.
    - apply mk_ext. intros b a Hb Ha. replace ((a <? M) || (a =? M) && (b <? 0)) with true by lia. auto.
  Qed.
End Transpose.

Lemma v_assume_init_vk : forall T N (f : nat -> option T),
  (forall i, i < N -> f i <> None) ->
  exists l, v_assume_init (vk N f) = Ok l /\ length l = N /\
    forall i, i < N -> nth_error l i = f i.
Proof.
  induction N; intros f H.
  - exists []. repeat split. intros; lia.
  - rewrite vk_S. cbn [v_assume_init]. destruct (f 0) as [x|] eqn:E. 2:{ exfalso. apply (H 0); auto; lia. }
    destruct (IHN (fun i => f (S i))) as (l & E1 & L & E2). { intros. apply H. lia. }
    rewrite E1. simpl. exists (x :: l). simpl. repeat split; auto.
    intros [|i] Hi; auto. simpl. apply E2. lia.
Qed.

Lemma m_assume_init_mk : forall T M N (f : nat -> nat -> option T),
  (forall i j, i < M -> j < N -> f i j <> None) ->
  exists m, m_assume_init (mk M N f) = Ok m /\ rect M N m /\
    forall i j, i < M -> j < N -> elt m i j = f i j.
Proof.
  unfold m_assume_init, mk. induction M; intros N f H.
  - exists []. simpl. repeat split; auto. intros; lia.
  - rewrite vk_S. cbn [map seq_res].
    destruct (v_assume_init_vk (N := N) (f 0)) as (r & E1 & L & E2). { intros. apply H; lia. }
    destruct (IHM N (fun i => f (S i))) as (m & E3 & R & E4). { intros. apply H; lia. }
    rewrite E1. cbn [bind]. rewrite E3. cbn [bind]. exists (r :: m). split; auto.
    split; [apply rect_cons; auto|]. intros [|i] j Hi Hj; unfold elt; simpl; auto. apply E4; lia.
Qed.

Lemma m_transpose_full_spec : forall T M N (m : list (list T)), rect M N m ->
  exists r, m_transpose_full M N m = Ok (mk M N (fun _ _ => None), r) /\ rect N M r /\
    forall i j, elt r j i = elt m i j.
Proof.
  intros T M N m R. unfold m_transpose_full. rewrite tr_rows_all by auto. cbn [bind].
  destruct (m_assume_init_mk (M := N) (N := M) (fun b a => elt m a b)) as (r & E & R2 & H).
  { intros b a Hb Ha. destruct (elt_lt R Ha Hb) as (x & ->). discriminate. }
  rewrite E. exists r. split; auto. split; auto. intros i j.
  destruct (lt_dec i M) as [Hi|Hi], (lt_dec j N) as [Hj|Hj]; auto.
  all: rewrite (elt_None _ _ R2) by lia; rewrite (elt_None _ _ R) by lia; reflexivity.
Qed.

Arguments m_transpose_full_spec {T M N m}.
Lemma m_transpose_spec : forall T M N (m : list (list T)), rect M N m ->
  exists r, m_transpose M N m = Ok r /\ rect N M r /\ forall i j, elt r j i = elt m i j.
Proof.
  intros T M N m R. destruct (m_transpose_full_spec R) as (r & E & H). exists r. split; auto.
  unfold m_transpose. rewrite E. reflexivity.
Qed.

Arguments m_transpose_spec {T M N m}.
Lemma m_transpose_mk : forall T M N (f : nat -> nat -> T),
  m_transpose M N (mk M N f) = Ok (mk N M (fun i j => f j i)).
Proof.
  intros. destruct (m_transpose_spec (rect_mk M N f)) as (r & E & R & H). rewrite E. f_equal.
  apply (elt_ext R (rect_mk _ _ _)). intros i j. rewrite H, !elt_mk. rewrite andb_comm. reflexivity.
Qed.

(* ------------------------------------------------------------------------- *)
(** * Row-major iteration                                                      *)

Lemma map_st_app : forall C A B (f : C -> A -> res (C * B)) l1 l2 c,
  map_st f c (l1 ++ l2) =
  let! (c1, r1) := map_st f c l1 in let! (c2, r2) := map_st f c1 l2 in Ok (c2, r1 ++ r2).
Proof.
  induction l1; intros l2 c; simpl.
  - destruct (map_st f c l2) as [(c2 & r2)| | |]; reflexivity.
  - destruct (f c a) as [(c1 & b)| | |]; simpl; auto. rewrite IHl1.
    destruct (map_st f c1 l1) as [(c2 & r2)| | |]; simpl; auto.
    destruct (map_st f c2 l2) as [(c3 & r3)| | |]; simpl; auto.
Qed.

Lemma m_map_st_flat : forall C A B (f : C -> A -> res (C * B)) M N m c, rect M N m ->
  m_map_st f c m = let! (c', l) := map_st f c (concat m) in Ok (c', chunk M N l).
Proof.
  intros C A B f M. unfold m_map_st, v_map_st. induction M; intros N m c H.
  - destruct m; [reflexivity|destruct H; discriminate].
  - destruct m as [|r m]; [destruct H; discriminate|]. apply rect_cons in H as (Lr & H).
    cbn [map_st concat]. rewrite map_st_app.
    destruct (map_st f c r) as [(c1 & r1)| | |] eqn:E1; cbn [bind]; auto. rewrite (IHM N m c1 H).
    destruct (map_st f c1 (concat m)) as [(c2 & r2)| | |]; cbn [bind]; auto.
    cbn [chunk]. apply map_st_length in E1.
    replace N with (length r1) by lia.
    rewrite firstn_app, Nat.sub_diag, firstn_all, firstn_O, app_nil_r.
    rewrite skipn_app, Nat.sub_diag, skipn_all. reflexivity.
Qed.

Arguments m_map_st_flat {C A B} f {M N m} c.
Lemma m_fold_flat : forall S T (f : S -> T -> res S) m s, m_fold f s m = fold_res f s (concat m).
Proof.
  intros S T f m. unfold m_fold, v_fold. induction m; intros s; simpl; auto.
  rewrite fold_res_app. apply bind_ext. auto.
Qed.

Lemma m_fold_first_flat : forall T (f : T -> T -> res T) M N m, rect M N m -> 0 < N ->
  m_fold_first f m = v_fold_first f (concat m).
Proof.
  intros T f M N m (L & F) HN. destruct m as [|r m]; [reflexivity|].
  apply Forall_cons_iff in F as (Lr & F). destruct r as [|x r]; [simpl in Lr; lia|].
  unfold m_fold_first. cbn [list_next bind unwrap]. rewrite v_fold_first_cons. cbn [concat app].
  rewrite v_fold_first_cons, fold_res_app. apply bind_ext. intros s _. apply (m_fold_flat f m s).
Qed.

Lemma m_fold_first_empty : forall T (f : T -> T -> res T) M N m, rect M N m -> M = 0 \/ N = 0 ->
  m_fold_first f m = Panic.
Proof.
  intros T f M N m (L & F) H. destruct m as [|r m]; [reflexivity|].
  destruct H as [H|H]; [subst; discriminate|]. apply Forall_cons_iff in F as (Lr & F).
  destruct r; [reflexivity|]. simpl in Lr. lia.
Qed.

Lemma m_scan_flat : forall C A B (f : C -> A -> res (C * B)) M N m c, rect M N m ->
  m_scan_st M N f c m = let! (c', l) := map_st f c (concat m) in Ok (c', chunk M N l).
Proof.
  intros. unfold m_scan_st. rewrite v_scan_map_st by apply H.
  rewrite <- (m_map_st_flat f c H). unfold m_map_st, v_map_st.
  destruct H as (_ & F). revert c. induction m as [|r m IH]; intros c; simpl; auto.
  apply Forall_cons_iff in F as (Lr & F). rewrite v_scan_map_st by auto.
  apply bind_ext. intros (c1 & r1) _. rewrite IH by auto. reflexivity.
Qed.

(** in_order2 from rows. *)
Lemma in_order2_rows : forall A B (g : A -> res (list B)) (l : list A) N (step : nat -> nat -> res B),
  (forall i a, nth_error l i = Some a -> in_order N (step i) (g a)) ->
  in_order2 (length l) N step (map_res g l).
Proof.
  intros A B g l N. induction l as [|a l IH]; intros step H.
  - left. exists []. simpl. repeat split; auto. intros; lia.
  - pose proof (H 0 a eq_refl) as H0.
    specialize (IH (fun i => step (S i)) (fun i x Hx => H (S i) x Hx)).
    simpl. destruct H0 as [(r & Er & Lr & Hr)|(j & Hj & Hp & Hf)].
    + rewrite Er. cbn [bind]. destruct IH as [(m & Em & Rm & Hm)|(i & j & Hi & Hj & Hp & Hf)].
      * rewrite Em. cbn [bind]. left. exists (r :: m). split; auto. split; [apply rect_cons; auto|].
        intros [|i] j Hi Hj; unfold elt; simpl; [apply Hr; auto|apply Hm; auto; lia].
      * right. exists (S i), j. repeat split; auto; [lia| |].
        -- intros [|i'] j' Hi' Hj' Hlt.
           ++ destruct (Hr j' Hj') as (b & _ & E). exists b. auto.
           ++ apply Hp; auto; lia.
        -- eapply fails_like_trans; [|exact Hf]. apply fails_like_bind. intros x Ex.
           eapply fails_like_not_ok_l; eauto.
    + right. exists 0, j. repeat split; auto; [lia| |].
      * intros i' j' Hi' Hj' Hlt. replace i' with 0 by lia. apply Hp. lia.
      * eapply fails_like_trans; [|exact Hf]. apply fails_like_bind. intros x Ex.
        eapply fails_like_not_ok_l; eauto.
Qed.

Lemma m_map_in_order : forall A B (f : A -> res B) M N m, rect M N m ->
  in_order2 M N (at1m f m) (m_map f m).
Proof.
  intros A B f M N m (L & F). rewrite m_map_res, <- L. apply in_order2_rows. intros i r Hr.
  rewrite <- (nth_error_Forall F Hr). replace (at1m f m i) with (at1 f r) by (unfold at1m, elt, at1; rewrite Hr; reflexivity).
  apply in_order_map_res.
Qed.

Lemma m_zip_map_in_order : forall A B C (op : A -> B -> res C) M N a b, rect M N a -> rect M N b ->
  in_order2 M N (at2m op a b) (m_zip_map M N op a b).
Proof.
  intros A B C op M N a b Ra Rb. rewrite m_zip_map_res by auto. destruct Ra as (La & Fa), Rb as (Lb & Fb).
  rewrite <- map2_res_combine.
  replace M with (length (combine a b)) by (rewrite combine_length; lia). apply in_order2_rows.
  intros i (r & s) H. apply nth_error_combine in H as (Hr & Hs).
  pose proof (nth_error_Forall Fa Hr) as Lr. pose proof (nth_error_Forall Fb Hs) as Ls. simpl in Lr, Ls.
  replace (at2m op a b i) with (at2 op r s).
  2:{ unfold at2m, at2, elt. rewrite Hr, Hs. reflexivity. }
  rewrite <- Lr. apply in_order_map2_res. lia.
Qed.

Lemma in_order2_unique : forall A M N (step : nat -> nat -> res A) r1 r2,
  in_order2 M N step r1 -> in_order2 M N step r2 -> r1 = r2.
Proof.
  intros A M N step r1 r2 [(l1 & -> & L1 & H1)|(i & j & Hi & Hj & Ji & Fi)]
    [(l2 & -> & L2 & H2)|(k & l & Hk & Hl & Jk & Fk)].
  - f_equal. apply (elt_ext L1 L2). intros i j.
    destruct (lt_dec i M) as [Hi|Hi]; [destruct (lt_dec j N) as [Hj|Hj]|].
    + destruct (H1 i j Hi Hj) as (a & E1 & S1), (H2 i j Hi Hj) as (b & E2 & S2). congruence.
    + rewrite (elt_None _ _ L1), (elt_None _ _ L2) by lia. reflexivity.
    + rewrite (elt_None _ _ L1), (elt_None _ _ L2) by lia. reflexivity.
  - exfalso. destruct (H1 k l Hk Hl) as (a & _ & S1). eapply fails_like_not_ok; eauto.
  - exfalso. destruct (H2 i j Hi Hj) as (a & _ & S1). eapply fails_like_not_ok; eauto.
  - assert (i = k /\ j = l) as (<- & <-).
    { destruct (lt_eq_lt_dec i k) as [[L|E]|G].
      - exfalso. destruct (Jk i j Hi Hj (or_introl L)) as (a & Ha). eapply fails_like_not_ok; [exact Fi|exact Ha].
      - subst k. destruct (lt_eq_lt_dec j l) as [[L|E]|G]; auto; exfalso.
        + destruct (Jk i j Hi Hj ltac:(auto)) as (a & Ha). eapply fails_like_not_ok; [exact Fi|exact Ha].
        + destruct (Ji i l Hk Hl ltac:(auto)) as (a & Ha). eapply fails_like_not_ok; [exact Fk|exact Ha].
      - exfalso. destruct (Ji k l Hk Hl (or_introl G)) as (a & Ha). eapply fails_like_not_ok; [exact Fk|exact Ha]. }
    destruct r1, (step i j), r2; simpl in *; tauto.
Qed.
