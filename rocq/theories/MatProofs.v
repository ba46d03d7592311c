(** Proofs of the container properties of matrices (statements in [PropMatrix.v]). *)
From Coq Require Import ZifyBool ZArith String.
From Verif Require Export MFacts MathModel.
Set Implicit Arguments.
Local Open Scope nat_scope.
Local Open Scope list_scope.

(* ------------------------------------------------------------------------- *)
(** * C19                                                                      *)

Lemma m_round_trip : forall T (a : list (list T)),
  m_into_vector_of_vectors (m_from_vector_of_vectors a) = a /\
  m_into_array_of_vectors (m_from_array_of_vectors a) = a /\
  bind (m_from_array_of_arrays a) (@m_into_array_of_arrays T) = Ok a /\
  (forall m, m_from_vector_of_vectors (m_into_vector_of_vectors m) = (m : list (list T)) /\
     m_from_array_of_vectors (m_into_array_of_vectors m) = m /\
     bind (m_into_array_of_arrays m) (@m_from_array_of_arrays T) = Ok m /\
     m_as_array_of_arrays m = m).
Proof.
  assert (X : forall T (m : list (list T)), v_map (fun r => Ok (v_from_array r)) m = Ok m).
  { intros. rewrite v_map_res, map_res_ok. unfold v_from_array. rewrite map_id. reflexivity. }
  assert (Y : forall T (m : list (list T)), v_map (fun r => Ok (v_into_array r)) m = Ok m).
  { intros. rewrite v_map_res, map_res_ok. unfold v_into_array. rewrite map_id. reflexivity. }
  intros T a. unfold m_from_array_of_arrays, m_into_array_of_arrays, m_into_vector_of_vectors,
    m_from_vector_of_vectors, m_into_array_of_vectors, m_from_array_of_vectors,
    m_into_vector_of_vectors, m_from_vector_of_vectors, v_into_array, v_from_array, m_as_array_of_arrays.
  repeat split; auto.
  - rewrite v_map_res, map_res_ok, map_id. cbn [bind]. rewrite v_map_res, map_res_ok, map_id. reflexivity.
  - rewrite v_map_res, map_res_ok, map_id. cbn [bind]. rewrite v_map_res, map_res_ok, map_id. reflexivity.
Qed.

Lemma m_init_spec : forall C T M N (f : C -> res (C * T)) c,
  (forall c' m, m_init M N f c = Ok (c', m) <-> rect M N m /\ drawn f (M * N) c c' (concat m)) /\
  (~ returns (m_init M N f c) ->
     exists k c1 l, k < M * N /\ drawn f k c c1 l /\ fails_like (m_init M N f c) (f c1)).
Proof.
  intros. rewrite m_init_calls. split.
  - intros c' m. split.
    + intros H. apply bind_Ok in H as ((c1 & l) & E & H). inversion H; subst.
      pose proof (calls_length _ _ _ E) as L. split; [apply chunk_rect; auto|].
      rewrite concat_chunk by auto. apply drawn_calls. auto.
    + intros (R & D). apply drawn_calls in D. rewrite D. cbn [bind].
      rewrite chunk_concat by auto. reflexivity.
  - intros H. destruct (calls_fails f (M * N) c) as (k & c1 & l & Hk & D & F).
    { intros a E. apply H. rewrite E. destruct a as (c1 & l). cbn [bind]. eexists. reflexivity. }
    exists k, c1, l. repeat split; auto. eapply fails_like_trans; [|exact F].
    apply fails_like_bind. intros a E. eapply fails_like_not_ok_l; eauto.
Qed.

Lemma m_fill_spec : forall T M N (x : T), exists m,
  m_fill M N x = Ok m /\ m_default M N x = Ok m /\ rect M N m /\
  forall i j, i < M -> j < N -> elt m i j = Some x.
Proof.
  intros. exists (mk M N (fun _ _ => x)). repeat split; try apply m_init_const_mk; try apply rect_mk.
  intros. rewrite elt_mk. replace ((i <? M) && (j <? N)) with true by lia. reflexivity.
Qed.

Lemma m_try_from_iter_spec : forall S A M N (next : next_fn S A) s,
  (forall s' m, m_try_from_iter M N next s = Ok (s', Some m) <->
      rect M N m /\ yields next s s' (concat m)) /\
  (forall s', m_try_from_iter M N next s = Ok (s', None) <->
      exists s1 l, length l < M * N /\ yields next s s1 l /\ next s1 = Ok (s', None)) /\
  (~ returns (m_try_from_iter M N next s) ->
      exists s1 l, length l < M * N /\ yields next s s1 l /\
        fails_like (m_try_from_iter M N next s) (next s1)).
Proof.
  intros S A M N next s.
  destruct (v_try_from_iter_spec (M * N) next s) as (P1 & P2 & P3).
  assert (X : m_try_from_iter M N next s =
    let! (s1, o) := v_try_from_iter (M * N) next s in Ok (s1, option_map (chunk M N) o)).
  { rewrite m_try_from_iter_pull, v_try_from_iter_pull, bind_assoc. apply bind_ext.
    intros (s1 & l) _. cbn [bind]. destruct (length l =? M * N); reflexivity. }
  rewrite X. clear X. split; [|split].
  - intros s' m. split.
    + intros H. apply bind_Ok in H as ((s1 & [l|]) & E & H); cbn [option_map] in H; inversion H; subst.
      apply P1 in E as (L & Y). split; [apply chunk_rect; auto|]. rewrite concat_chunk; auto.
    + intros (R & Y). assert (E : v_try_from_iter (M * N) next s = Ok (s', Some (concat m))).
      { apply P1. split; auto. apply rect_concat_length; auto. }
      rewrite E. cbn [bind option_map]. rewrite chunk_concat; auto.
  - intros s'. rewrite <- P2. split.
    + intros H. apply bind_Ok in H as ((s1 & [l|]) & E & H); cbn [option_map] in H; inversion H; subst. auto.
    + intros ->. reflexivity.
  - intros H. assert (H2 : ~ returns (v_try_from_iter (M * N) next s)).
    { intros ((s1 & o) & E). apply H. rewrite E. eexists. reflexivity. }
    destruct (P3 H2) as (s1 & l & L & Y & F). exists s1, l. repeat split; auto.
    eapply fails_like_trans; [|exact F]. apply fails_like_bind. intros a E. apply H2. exists a. auto.
Qed.

Lemma m_slice_spec : forall T M N (s : list T),
  (length s = M * N -> exists m, m_try_from_slice M N s = Ok (Some m) /\ rect M N m /\ concat m = s) /\
  (length s <> M * N -> m_try_from_slice M N s = Ok None).
Proof.
  intros. unfold m_try_from_slice. split; intros H.
  - rewrite H, Nat.eqb_refl, m_try_from_iter_pull, pull_list. rewrite <- H, firstn_all. cbn [bind].
    rewrite Nat.eqb_refl. cbn [unwrap bind]. exists (chunk M N s). repeat split.
    + apply (chunk_rect M N s H).
    + apply (chunk_rect M N s H).
    + apply concat_chunk. auto.
  - apply Nat.eqb_neq in H. rewrite H. reflexivity.
Qed.

Lemma m_slice_vec_spec : forall T M (s : list (list T)),
  (length s = M -> m_try_from_slice_of_vectors M s = Ok (Some s)) /\
  (length s <> M -> m_try_from_slice_of_vectors M s = Ok None).
Proof.
  intros. unfold m_try_from_slice_of_vectors, m_try_from_iter_of_vectors. split; intros H.
  - rewrite H, Nat.eqb_refl, v_try_from_iter_pull, pull_list. rewrite <- H, firstn_all. cbn [bind].
    rewrite Nat.eqb_refl. reflexivity.
  - apply Nat.eqb_neq in H. rewrite H. reflexivity.
Qed.

Lemma m_indices_spec : forall M N, exists m, m_indices M N = Ok m /\ rect M N m /\
  forall i j, i < M -> j < N -> elt m i j = Some (i, j).
Proof.
  intros. eexists. split; [apply m_indices_mk|]. split; [apply rect_mk|]. intros.
  rewrite elt_mk. replace ((i <? M) && (j <? N)) with true by lia. reflexivity.
Qed.

(* ------------------------------------------------------------------------- *)
(** * C20, C21: iterators as sequences                                         *)

Lemma behaves_cons : forall S A (next : next_fn S A) s a l,
  behaves_like next s (a :: l) <-> exists s1, next s = Ok (s1, Some a) /\ behaves_like next s1 l.
Proof.
  intros. split.
  - intros H. pose proof (H 0) as H0. unfold kth_call in H0. cbn [state_after bind] in H0.
    destruct (next s) as [(s1 & o)| | |] eqn:E; cbn [bind nth_error] in H0; try discriminate.
    inversion H0; subst. exists s1. split; auto. intros k. specialize (H (Datatypes.S k)).
    unfold kth_call in *. cbn [state_after] in H. rewrite E in H. cbn [bind] in H. exact H.
  - intros (s1 & E & H) [|k]; unfold kth_call; cbn [state_after bind]; rewrite E; cbn [bind]; auto.
    apply H.
Qed.

Lemma behaves_nil : forall S A (next : next_fn S A) s,
  behaves_like next s [] <-> exists s1, next s = Ok (s1, None) /\ behaves_like next s1 [].
Proof.
  intros. split.
  - intros H. pose proof (H 0) as H0. unfold kth_call in H0. cbn [state_after bind] in H0.
    destruct (next s) as [(s1 & o)| | |] eqn:E; cbn [bind nth_error] in H0; try discriminate.
    inversion H0; subst. exists s1. split; auto. intros k. specialize (H (Datatypes.S k)).
    unfold kth_call in *. cbn [state_after] in H. rewrite E in H. cbn [bind] in H.
    rewrite H. destruct k; reflexivity.
  - intros (s1 & E & H) [|k]; unfold kth_call; cbn [state_after bind]; rewrite E; cbn [bind]; auto.
    specialize (H k). unfold kth_call in H. rewrite H. destruct k; reflexivity.
Qed.

Lemma behaves_list : forall A (l : list A), behaves_like list_next l l.
Proof.
  induction l as [|a l IH].
  - intros k. assert (E : state_after list_next k (@nil A) = Ok []).
    { induction k; simpl; auto. }
    unfold kth_call. rewrite E. destruct k; reflexivity.
  - apply behaves_cons. exists l. auto.
Qed.

Section Flat.
  Context {SI IT II A : Type} (n : next_fn SI IT) (into : IT -> II) (ni : next_fn II A).

  Lemma flat_rest : forall k s its ls sub l,
    behaves_like n s its -> Forall2 (fun it r => behaves_like ni (into it) r) its ls ->
    Forall (fun r => r <> []) ls -> behaves_like ni sub l ->
    kth_call (flat_next n into ni) k (s, sub) = Ok (nth_error (l ++ concat ls) k).
  Proof.
    induction k as [|k IH]; intros s its ls sub l Hs F2 Fn Hl; unfold kth_call; cbn [state_after bind].
    - destruct l as [|x l].
      + apply behaves_nil in Hl as (sub1 & E1 & Hl). unfold flat_next. rewrite E1. cbn [bind].
        destruct F2 as [|it r its ls Hr F2].
        * apply behaves_nil in Hs as (s1 & E2 & Hs). rewrite E2. reflexivity.
        * apply behaves_cons in Hs as (s1 & E2 & Hs). rewrite E2. cbn [bind].
          apply Forall_cons_iff in Fn as (Rn & Fn). destruct r as [|y r]; [congruence|].
          apply behaves_cons in Hr as (sub2 & E3 & Hr). rewrite E3. reflexivity.
      + apply behaves_cons in Hl as (sub1 & E1 & Hl). unfold flat_next. rewrite E1. reflexivity.
    - destruct l as [|x l].
      + apply behaves_nil in Hl as (sub1 & E1 & Hl). unfold flat_next at 1. rewrite E1. cbn [bind].
        destruct F2 as [|it r its ls Hr F2].
        * apply behaves_nil in Hs as (s1 & E2 & Hs). rewrite E2. cbn [bind].
          pose proof (IH s1 [] [] sub1 [] Hs (Forall2_nil _) (Forall_nil _) Hl) as X.
          unfold kth_call in X. rewrite X. destruct k; reflexivity.
        * apply behaves_cons in Hs as (s1 & E2 & Hs). rewrite E2. cbn [bind].
          apply Forall_cons_iff in Fn as (Rn & Fn). destruct r as [|y r]; [congruence|].
          apply behaves_cons in Hr as (sub2 & E3 & Hr). rewrite E3. cbn [bind].
          pose proof (IH s1 its ls sub2 r Hs F2 Fn Hr) as X. unfold kth_call in X. rewrite X.
          reflexivity.
      + apply behaves_cons in Hl as (sub1 & E1 & Hl). unfold flat_next at 1. rewrite E1. cbn [bind].
        pose proof (IH s its ls sub1 l Hs F2 Fn Hl) as X. unfold kth_call in X. rewrite X. reflexivity.
  Qed.

  Lemma flat_spec : forall s its ls, behaves_like n s its ->
    Forall2 (fun it r => behaves_like ni (into it) r) its ls ->
    (its = [] -> flat_new n into s = Ok None) /\
    (its <> [] -> Forall (fun r => r <> []) (tl ls) ->
       exists st, flat_new n into s = Ok (Some st) /\ behaves_like (flat_next n into ni) st (concat ls)).
  Proof.
    intros s its ls Hs F2. unfold flat_new. split.
    - intros ->. apply behaves_nil in Hs as (s1 & E & _). rewrite E. reflexivity.
    - intros Hn Fn. destruct F2 as [|it r its ls Hr F2]; [congruence|].
      apply behaves_cons in Hs as (s1 & E & Hs). rewrite E. cbn [bind tl] in *.
      eexists. split; [reflexivity|]. intros k. cbn [concat]. eapply flat_rest; eauto.
  Qed.

  (** All sequences empty. *)
  Lemma flat_empty : forall k s its sub, behaves_like n s its ->
    Forall (fun it => behaves_like ni (into it) []) its -> behaves_like ni sub [] ->
    kth_call (flat_next n into ni) k (s, sub) = Ok None.
  Proof.
    assert (step : forall s its sub, behaves_like n s its ->
      Forall (fun it => behaves_like ni (into it) []) its -> behaves_like ni sub [] ->
      exists s1 its1 sub1, flat_next n into ni (s, sub) = Ok ((s1, sub1), None) /\
        behaves_like n s1 its1 /\ Forall (fun it => behaves_like ni (into it) []) its1 /\
        behaves_like ni sub1 []).
    { intros s its sub Hs F Hl. unfold flat_next. apply behaves_nil in Hl as (sub1 & E1 & Hl).
      rewrite E1. cbn [bind]. destruct its as [|it its].
      - apply behaves_nil in Hs as (s1 & E2 & Hs). rewrite E2. cbn [bind].
        exists s1, [], sub1. repeat split; auto.
      - apply behaves_cons in Hs as (s1 & E2 & Hs). rewrite E2. cbn [bind].
        apply Forall_cons_iff in F as (Hr & F). apply behaves_nil in Hr as (sub2 & E3 & Hr).
        rewrite E3. cbn [bind]. exists s1, its, sub2. repeat split; auto. }
    induction k; intros s its sub Hs F Hl;
      destruct (step s its sub Hs F Hl) as (s1 & its1 & sub1 & E & Hs1 & F1 & Hl1);
      unfold kth_call; cbn [state_after bind]; rewrite E; cbn [bind]; auto.
    apply (IHk s1 its1 sub1); auto.
  Qed.
End Flat.

(** An empty inner sequence after the first: the iterator reports the end although elements remain. *)
Lemma flat_stops : forall A (l1 : list (list A)) l2, l1 <> [] -> Forall (fun r => r <> []) (tl l1) ->
  exists st, flat_new list_next (fun r : list A => r) (l1 ++ [] :: l2) = Ok (Some st) /\
    kth_call m_iter_next (length (concat l1)) st = Ok None /\
    forall k, k < length (concat l1) -> kth_call m_iter_next k st = Ok (nth_error (concat l1) k).
Proof.
  intros A l1 l2 Hn Fn. destruct l1 as [|r l1]; [congruence|]. cbn [tl] in Fn. clear Hn.
  unfold flat_new. cbn [app list_next bind]. eexists. split; [reflexivity|].
  cbn [concat]. revert r.
  assert (H : forall k r l1, Forall (fun r => r <> []) l1 ->
    k <= length (r ++ concat l1) ->
    kth_call m_iter_next k (l1 ++ [] :: l2, r) = Ok (nth_error (r ++ concat l1) k)).
  { clear. induction k; intros r l1 Fn L; unfold kth_call; cbn [state_after bind].
    - destruct r as [|x r]; [|reflexivity]. destruct l1 as [|r l1]; [reflexivity|].
      apply Forall_cons_iff in Fn as (Rn & Fn). destruct r; [congruence|]. reflexivity.
    - destruct r as [|x r].
      + destruct l1 as [|r l1]; [simpl in L; lia|].
        apply Forall_cons_iff in Fn as (Rn & Fn). destruct r; [congruence|].
        simpl in L. cbn. specialize (IHk r l1 Fn). unfold kth_call in IHk. rewrite IHk by (simpl in *; lia).
        reflexivity.
      + simpl in L. cbn. specialize (IHk r l1 Fn). unfold kth_call in IHk. rewrite IHk by (simpl in *; lia).
        reflexivity. }
  intros r. split.
  - rewrite H by auto. f_equal. apply nth_error_None. auto.
  - intros k Hk. apply H; auto. lia.
Qed.

Lemma m_iter_spec : forall T M N (m : list (list T)), rect M N m ->
  (M = 0 -> m_iter m = Panic) /\
  (0 < M -> exists it, m_iter m = Ok it /\ behaves_like m_iter_next it (concat m)).
Proof.
  intros T M N m (L & F). split.
  - intros ->. destruct m; [reflexivity|discriminate].
  - intros HM. destruct m as [|r m]; [simpl in L; lia|].
    unfold m_iter, flat_new. cbn [list_next bind unwrap]. eexists. split; [reflexivity|].
    destruct (Nat.eq_dec N 0) as [->|HN].
    + assert (Z : forall l : list T, length l = 0 -> behaves_like list_next l []).
      { intros [|]; [|discriminate]. intros _. apply behaves_list. }
      apply Forall_cons_iff in F as (Lr & F). intros k. destruct r; [|discriminate].
      replace (concat ([] :: m)) with (@nil T).
      2:{ clear - F. simpl. induction F; simpl; auto. destruct x; [simpl; auto|discriminate]. }
      unfold m_iter_next. rewrite flat_empty with (its := m).
      * destruct k; reflexivity.
      * apply behaves_list.
      * eapply Forall_impl; [|exact F]. simpl. auto.
      * apply behaves_list.
    + apply Forall_cons_iff in F as (Lr & F). intros k. cbn [concat]. unfold m_iter_next.
      apply flat_rest with (its := m).
      * apply behaves_list.
      * clear. induction m; constructor; auto. apply behaves_list.
      * eapply Forall_impl; [|exact F]. simpl. intros a La ->. simpl in La. lia.
      * apply behaves_list.
Qed.

(** Consuming an iterator that behaves like a list. *)
Fixpoint each {C A : Type} (f : C -> A -> C * res unit) (c : C) (l : list A) : C * res unit :=
  match l with
  | [] => (c, Ok tt)
  | a :: t => match f c a with (c1, Ok tt) => each f c1 t | (c1, r) => (c1, r) end
  end.

Lemma iter_for_each_spec : forall S C A (n : next_fn S A) (f : C -> A -> C * res unit) l fuel s c,
  behaves_like n s l -> length l < fuel -> iter_for_each fuel n f s c = each f c l.
Proof.
  induction l as [|a l IH]; intros [|fuel] s c H L; simpl in L; try lia; cbn [iter_for_each each].
  - apply behaves_nil in H as (s1 & E & _). rewrite E. reflexivity.
  - apply behaves_cons in H as (s1 & E & H). rewrite E. destruct (f c a) as (c1 & [[]| | |]); auto.
    apply IH; auto. lia.
Qed.

Lemma iter_any_spec : forall S A (n : next_fn S A) (p : A -> bool) l fuel s,
  behaves_like n s l -> length l < fuel -> iter_any fuel n p s = Ok (existsb p l).
Proof.
  induction l as [|a l IH]; intros [|fuel] s H L; simpl in L; try lia; cbn [iter_any].
  - apply behaves_nil in H as (s1 & E & _). rewrite E. reflexivity.
  - apply behaves_cons in H as (s1 & E & H). rewrite E. cbn [bind existsb]. destruct (p a); auto.
    apply IH; auto. lia.
Qed.

Lemma iter_all_spec : forall S A (n : next_fn S A) (p : A -> bool) l fuel s,
  behaves_like n s l -> length l < fuel -> iter_all fuel n p s = Ok (forallb p l).
Proof.
  induction l as [|a l IH]; intros [|fuel] s H L; simpl in L; try lia; cbn [iter_all].
  - apply behaves_nil in H as (s1 & E & _). rewrite E. reflexivity.
  - apply behaves_cons in H as (s1 & E & H). rewrite E. cbn [bind forallb]. destruct (p a); auto.
    apply IH; auto. lia.
Qed.

Lemma behaves_zip : forall SA SB A B (na : next_fn SA A) (nb : next_fn SB B) u v sa sb,
  behaves_like na sa u -> behaves_like nb sb v -> length u = length v ->
  behaves_like (zip_next na nb) (sa, sb) (combine u v).
Proof.
  intros SA SB A B na nb. induction u as [|a u IH]; intros [|b v] sa sb Ha Hb L; try discriminate.
  - clear L. simpl. intros k. revert sa Ha. induction k; intros sa Ha;
      apply behaves_nil in Ha as (s1 & E & Ha); unfold kth_call; cbn [state_after bind];
      unfold zip_next at 1; rewrite E; cbn [bind]; auto.
    specialize (IHk s1 Ha). unfold kth_call in IHk. rewrite IHk. destruct k; reflexivity.
  - apply behaves_cons in Ha as (sa1 & E1 & Ha), Hb as (sb1 & E2 & Hb). simpl.
    apply behaves_cons. exists (sa1, sb1). split.
    + unfold zip_next. rewrite E1. cbn [bind]. rewrite E2. reflexivity.
    + apply IH; auto.
Qed.

Lemma m_any_all_spec : forall M N m, rect M N m ->
  (M = 0 -> m_any M N m = Panic /\ m_all M N m = Panic) /\
  (0 < M -> exists a e, m_all M N m = Ok a /\ m_any M N m = Ok e /\
     (a = true <-> forall i j b, elt m i j = Some b -> b = true) /\
     (e = true <-> exists i j, elt m i j = Some true)).
Proof.
  intros M N m R. unfold m_any, m_all. destruct (m_iter_spec R) as (P0 & P1). split.
  - intros H. rewrite (P0 H). auto.
  - intros H. destruct (P1 H) as (it & E & B). rewrite E. cbn [bind].
    assert (L : length (concat m) < S (M * N)) by (rewrite (rect_concat_length R); lia).
    rewrite (iter_all_spec (fun x => x) B L), (iter_any_spec (fun x => x) B L).
    eexists _, _. repeat split; eauto.
    + rewrite forallb_forall. intros Hf i j b Eb. apply Hf. destruct (elt_Some_lt i j R Eb) as (Hi & Hj).
      rewrite <- (nth_error_concat i R Hj) in Eb. eapply nth_error_In; eauto.
    + intros Hf. apply forallb_forall. intros b Hb. apply In_nth_error in Hb as (k & Hk).
      assert (HN : k < M * N). { rewrite <- (rect_concat_length R). apply nth_error_Some. congruence. }
      assert (HNz : N <> 0) by nia.
      apply (Hf (k / N) (k mod N) b). rewrite <- (nth_error_concat (k / N) R).
      * replace (k / N * N + k mod N) with k; auto. rewrite (Nat.div_mod k N) at 1 by auto. lia.
      * apply Nat.mod_upper_bound. auto.
    + rewrite existsb_exists. intros (b & Hb & ->). apply In_nth_error in Hb as (k & Hk).
      assert (HN : k < M * N). { rewrite <- (rect_concat_length R). apply nth_error_Some. congruence. }
      assert (HNz : N <> 0) by nia.
      exists (k / N), (k mod N). rewrite <- (nth_error_concat (k / N) R).
      * replace (k / N * N + k mod N) with k; auto. rewrite (Nat.div_mod k N) at 1 by auto. lia.
      * apply Nat.mod_upper_bound. auto.
    + intros (i & j & Eb). apply existsb_exists. exists true. split; auto.
      destruct (elt_Some_lt i j R Eb) as (Hi & Hj).
      rewrite <- (nth_error_concat i R Hj) in Eb. eapply nth_error_In; eauto.
Qed.

Lemma elt_In : forall A M N (m : list (list A)) x, rect M N m ->
  In x (concat m) <-> exists i j, elt m i j = Some x.
Proof.
  intros A M N m x R. split.
  - intros Hx. apply In_nth_error in Hx as (k & Hk).
    assert (HN : k < M * N). { rewrite <- (rect_concat_length R). apply nth_error_Some. congruence. }
    assert (HNz : N <> 0) by nia.
    exists (k / N), (k mod N). rewrite <- (nth_error_concat (k / N) R).
    + replace (k / N * N + k mod N) with k; auto. rewrite (Nat.div_mod k N) at 1 by auto. lia.
    + apply Nat.mod_upper_bound. auto.
  - intros (i & j & E). destruct (elt_Some_lt i j R E) as (Hi & Hj).
    rewrite <- (nth_error_concat i R Hj) in E. eapply nth_error_In; eauto.
Qed.

Lemma m_is_zero_spec : forall T (o : Ops T) M N m, rect M N m ->
  (M = 0 -> m_is_zero o M N m = Panic) /\
  (0 < M -> exists b, m_is_zero o M N m = Ok b /\
     (b = true <-> forall i j x, elt m i j = Some x -> o_is_zero o x = true)).
Proof.
  intros T o M N m R. unfold m_is_zero. destruct (m_iter_spec R) as (P0 & P1). split.
  - intros H. rewrite (P0 H). auto.
  - intros H. destruct (P1 H) as (it & E & B). rewrite E. cbn [bind].
    assert (L : length (concat m) < S (M * N)) by (rewrite (rect_concat_length R); lia).
    rewrite (iter_all_spec (o_is_zero o) B L). eexists. split; eauto.
    rewrite forallb_forall. split; intros Hf.
    + intros i j x Ex. apply Hf. apply (elt_In x R). eauto.
    + intros x Hx. apply (elt_In x R) in Hx as (i & j & Hx). eauto.
Qed.

(* ------------------------------------------------------------------------- *)
(** * C22                                                                      *)

Lemma flat_st_spec : forall C A B (f : C -> A -> res (C * B)) M N m c r, rect M N m ->
  r = (let! (c', l) := map_st f c (concat m) in Ok (c', chunk M N l)) ->
  (forall c' w, r = Ok (c', w) <-> rect M N w /\ called f c (concat m) c' (concat w)) /\
  (~ returns r -> exists l1 a l2 c1 bs, concat m = l1 ++ a :: l2 /\
     called f c l1 c1 bs /\ fails_like r (f c1 a)).
Proof.
  intros C A B f M N m c r R ->. split.
  - intros c' w. split.
    + intros H. apply bind_Ok in H as ((c1 & l) & E & H). inversion H; subst.
      pose proof (map_st_length _ _ _ E) as L. rewrite (rect_concat_length R) in L.
      split; [apply chunk_rect; auto|]. rewrite concat_chunk by auto. apply called_map_st. auto.
    + intros (Rw & Hc). apply called_map_st in Hc. rewrite Hc. cbn [bind].
      rewrite chunk_concat by auto. reflexivity.
  - intros H. assert (H2 : ~ returns (map_st f c (concat m))).
    { intros ((c1 & l) & E). apply H. rewrite E. eexists. reflexivity. }
    destruct (map_st_fails f (concat m) c) as (l1 & a & l2 & c1 & bs & E & Hc & F).
    { intros x E. apply H2. exists x. auto. }
    exists l1, a, l2, c1, bs. repeat split; auto.
    eapply fails_like_trans; [|exact F]. apply fails_like_bind. intros x E2. apply H2. exists x. auto.
Qed.

Lemma m_map_st_spec : forall C A B (f : C -> A -> res (C * B)) M N m c, rect M N m ->
  (forall c' w, m_map_st f c m = Ok (c', w) <-> rect M N w /\ called f c (concat m) c' (concat w)) /\
  (~ returns (m_map_st f c m) -> exists l1 a l2 c1 bs, concat m = l1 ++ a :: l2 /\
     called f c l1 c1 bs /\ fails_like (m_map_st f c m) (f c1 a)).
Proof. intros. eapply flat_st_spec; eauto. apply m_map_st_flat. auto. Qed.

Lemma m_scan_spec : forall C A B (f : C -> A -> res (C * B)) M N m c, rect M N m ->
  (forall c' w, m_scan_st M N f c m = Ok (c', w) <->
     rect M N w /\ called f c (concat m) c' (concat w)) /\
  (~ returns (m_scan_st M N f c m) -> exists l1 a l2 c1 bs, concat m = l1 ++ a :: l2 /\
     called f c l1 c1 bs /\ fails_like (m_scan_st M N f c m) (f c1 a)).
Proof. intros. eapply flat_st_spec; eauto. apply m_scan_flat. auto. Qed.

Lemma m_fold_spec : forall C T (f : C -> T -> res C) c m,
  m_for_each_st f c m = m_fold f c m /\
  (forall c', m_fold f c m = Ok c' <->
     called (fun c a => let! c1 := f c a in Ok (c1, tt)) c (concat m) c' (map (fun _ => tt) (concat m))) /\
  (~ returns (m_fold f c m) -> exists l1 a l2 c1 us, concat m = l1 ++ a :: l2 /\
     called (fun c a => let! c1 := f c a in Ok (c1, tt)) c l1 c1 us /\
     fails_like (m_fold f c m) (f c1 a)).
Proof.
  intros. split; [reflexivity|]. rewrite m_fold_flat.
  destruct (v_fold_spec f c (concat m)) as (_ & P). exact P.
Qed.

Lemma m_fold_first_spec : forall T (f : T -> T -> res T) M N m, rect M N m ->
  (M = 0 \/ N = 0 -> m_fold_first f m = Panic) /\
  (forall x l, concat m = x :: l -> m_fold_first f m = fold_res f x l).
Proof.
  intros T f M N m R. split.
  - intros. eapply m_fold_first_empty; eauto.
  - intros x l E. assert (0 < N).
    { apply rect_concat_length in R. rewrite E in R. simpl in R. destruct N; lia. }
    rewrite (m_fold_first_flat f R) by auto. rewrite E, v_fold_first_cons. reflexivity.
Qed.

Lemma rect_map2_combine : forall T U M N (a : list (list T)) (b : list (list U)),
  rect M N a -> rect M N b -> rect M N (map2 (@combine T U) a b).
Proof.
  intros T U M. induction M; intros N a b Ra Rb.
  - destruct a; [|destruct Ra; discriminate]. split; constructor.
  - destruct a as [|r a]; [destruct Ra; discriminate|]. destruct b as [|s b]; [destruct Rb; discriminate|].
    apply rect_cons in Ra as (Lr & Ra), Rb as (Ls & Rb). simpl. apply rect_cons. split; auto.
    rewrite combine_length. lia.
Qed.

Lemma m_zip_spec : forall T U M N (a : list (list T)) (b : list (list U)), rect M N a -> rect M N b ->
  exists z, m_zip M N a b = Ok z /\ rect M N z /\
    forall i j x y, elt z i j = Some (x, y) <-> elt a i j = Some x /\ elt b i j = Some y.
Proof.
  intros T U M N a b Ra Rb. rewrite m_zip_res by auto. eexists. split; eauto. split.
  { apply rect_map2_combine; auto. }
  intros i j x y. unfold elt. rewrite nth_error_map2.
  destruct (nth_error a i) as [r|], (nth_error b i) as [s|].
  - apply nth_error_combine.
  - split; [discriminate|]. intros (_ & H). discriminate.
  - split; [discriminate|]. intros (H & _). discriminate.
  - split; [discriminate|]. intros (H & _). discriminate.
Qed.

Lemma m_unzip_ok : forall T U M N (l : list (list (T * U))), rect M N l ->
  m_unzip M N l = Ok (map (map fst) l, map (map snd) l).
Proof.
  intros T U M N l (L & F). unfold m_unzip. rewrite v_map_res.
  rewrite (@map_res_ext _ _ _ (fun r => Ok (map fst r, map snd r))).
  - rewrite map_res_ok. cbn [bind]. rewrite v_unzip_ok by (rewrite map_length; auto).
    rewrite !map_map. reflexivity.
  - intros r Hr. rewrite Forall_forall in F. apply v_unzip_ok. auto.
Qed.

Lemma map_map2_combine : forall T U M N (a : list (list T)) (b : list (list U)), rect M N a -> rect M N b ->
  map (map fst) (map2 (@combine T U) a b) = a /\ map (map snd) (map2 (@combine T U) a b) = b.
Proof.
  intros T U M. induction M; intros N a b Ra Rb.
  - destruct a; [|destruct Ra; discriminate]. destruct b; [|destruct Rb; discriminate]. auto.
  - destruct a as [|r a]; [destruct Ra; discriminate|]. destruct b as [|s b]; [destruct Rb; discriminate|].
    apply rect_cons in Ra as (Lr & Ra), Rb as (Ls & Rb). simpl.
    destruct (IHM N a b Ra Rb) as (-> & ->). rewrite map_fst_combine, map_snd_combine by lia. auto.
Qed.

Lemma m_unzip_zip : forall T U M N (a : list (list T)) (b : list (list U)), rect M N a -> rect M N b ->
  bind (m_zip M N a b) (m_unzip M N) = Ok (a, b).
Proof.
  intros T U M N a b Ra Rb. rewrite m_zip_res by auto. cbn [bind].
  rewrite m_unzip_ok by (apply rect_map2_combine; auto).
  destruct (map_map2_combine Ra Rb) as (-> & ->). reflexivity.
Qed.

Lemma rect_map : forall A B (f : A -> B) M N m, rect M N m -> rect M N (map (map f) m).
Proof.
  intros A B f M N m (L & F). split; [rewrite map_length; auto|]. apply Forall_map.
  eapply Forall_impl; [|exact F]. simpl. intros. rewrite map_length. auto.
Qed.

Lemma m_zip_unzip : forall T U M N (l : list (list (T * U))), rect M N l ->
  exists a b, m_unzip M N l = Ok (a, b) /\ rect M N a /\ rect M N b /\ m_zip M N a b = Ok l.
Proof.
  intros T U M N l R. exists (map (map fst) l), (map (map snd) l).
  split; [apply m_unzip_ok; auto|]. split; [apply rect_map; auto|]. split; [apply rect_map; auto|].
  rewrite m_zip_res by (apply rect_map; auto). f_equal. clear.
  induction l; simpl; auto. rewrite combine_fst_snd, IHl. reflexivity.
Qed.

(* ------------------------------------------------------------------------- *)
(** * C23                                                                      *)

Lemma m_index_spec : forall T M N (m : list (list T)) i j, rect M N m ->
  (i < M /\ j < N -> exists x, elt m i j = Some x /\ m_index m (i, j) = Ok x /\
     m_get_unchecked m i j = Ok x) /\
  (~ (i < M /\ j < N) -> m_index m (i, j) = Panic).
Proof.
  intros T M N m i j R. rewrite m_index_elt. split.
  - intros (Hi & Hj). destruct (elt_lt R Hi Hj) as (x & E). exists x. rewrite E. repeat split; auto.
    unfold m_get_unchecked, v_get_unchecked, index_unchecked. unfold elt in E.
    destruct (nth_error m i); [|discriminate]. cbn [bind]. rewrite E. reflexivity.
  - intros H. rewrite (elt_None i j R H). reflexivity.
Qed.

Lemma elt_list_set : forall T M N (m : list (list T)) i j x r a b, rect M N m ->
  i < M -> j < N -> nth_error m i = Some r ->
  elt (list_set m i (list_set r j x)) a b =
    if (a =? i) && (b =? j) then Some x else elt m a b.
Proof.
  intros T M N m i j x r a b (L & F) Hi Hj Er. unfold elt. rewrite nth_error_list_set.
  replace (i <? length m) with true by lia. pose proof (nth_error_Forall F Er) as Lr. simpl in Lr.
  destruct (i =? a) eqn:E; cbn [andb].
  - assert (i = a) by lia. subst a. rewrite Nat.eqb_refl. cbn [andb].
    rewrite nth_error_list_set. replace (j <? length r) with true by lia. rewrite Er.
    rewrite andb_true_r. rewrite (Nat.eqb_sym b j). reflexivity.
  - rewrite (Nat.eqb_sym a i), E. reflexivity.
Qed.

Lemma rect_list_set : forall T M N (m : list (list T)) i r, rect M N m -> length r = N ->
  rect M N (list_set m i r).
Proof.
  intros T M N m i r (L & F) Lr. split; [rewrite list_set_length; auto|].
  apply Forall_forall. intros s Hs. apply In_nth_error in Hs as (k & Hk).
  rewrite nth_error_list_set in Hk. destruct ((i =? k) && (i <? length m)).
  - inversion Hk; subst. auto.
  - rewrite Forall_forall in F. apply F. eapply nth_error_In; eauto.
Qed.

Lemma m_index_set_spec : forall T M N (m : list (list T)) i j x, rect M N m ->
  (i < M /\ j < N -> exists w, m_index_set m (i, j) x = Ok w /\ rect M N w /\
     elt w i j = Some x /\ forall a b, (a, b) <> (i, j) -> elt w a b = elt m a b) /\
  (~ (i < M /\ j < N) -> m_index_set m (i, j) x = Panic).
Proof.
  intros T M N m i j x R. unfold m_index_set, v_index, v_index_set, index, index_set. cbn [fst snd]. split.
  - intros (Hi & Hj). destruct (nth_error m i) as [r|] eqn:Er.
    2:{ apply nth_error_None in Er. destruct R. lia. }
    pose proof (nth_error_Forall (proj2 R) Er) as Lr. simpl in Lr. cbn [bind].
    replace (j <? length r) with true by lia. cbn [bind].
    replace (i <? length m) with true by (destruct R; lia).
    eexists. split; [reflexivity|]. split.
    { apply rect_list_set; auto. rewrite list_set_length. auto. }
    split.
    + rewrite (elt_list_set x i j R Hi Hj Er). rewrite !Nat.eqb_refl. reflexivity.
    + intros a b Hab. rewrite (elt_list_set x a b R Hi Hj Er).
      destruct (a =? i) eqn:E1, (b =? j) eqn:E2; auto. exfalso. apply Hab. f_equal; lia.
  - intros H. destruct (nth_error m i) as [r|] eqn:Er; auto.
    pose proof (nth_error_Forall (proj2 R) Er) as Lr. simpl in Lr. cbn [bind].
    assert (i < length m) by (apply nth_error_Some; congruence).
    replace (j <? length r) with false by (destruct R; lia). reflexivity.
Qed.

Lemma m_row_spec : forall T M N (m : list (list T)) i, rect M N m ->
  (i < M -> exists r, m_row m i = Ok r /\ length r = N /\ forall j, nth_error r j = elt m i j) /\
  (M <= i -> m_row m i = Panic).
Proof.
  intros T M N m i (L & F). unfold m_row, v_index, index. split; intros Hi.
  - destruct (nth_error m i) as [r|] eqn:Er. 2:{ apply nth_error_None in Er. lia. }
    exists r. split; auto. split; [apply (nth_error_Forall F Er)|]. intros j. unfold elt. rewrite Er. auto.
  - destruct (nth_error m i) as [r|] eqn:Er; auto.
    assert (i < length m) by (apply nth_error_Some; congruence). lia.
Qed.

Lemma m_col_spec : forall T M N (m : list (list T)) j, rect M N m ->
  (j < N -> exists c, m_col M m j = Ok c /\ length c = M /\ forall i, nth_error c i = elt m i j) /\
  (N <= j -> 0 < M -> m_col M m j = Panic).
Proof.
  intros T M N m j R. split; intros Hj.
  - assert (exists c, m_col M m j = Ok c /\ length c = M /\ forall i, i < M -> nth_error c i = elt m i j).
    { unfold m_col. rewrite v_indices_seq. cbn [bind]. rewrite v_map_res.
      destruct (in_order_map_res (fun i => m_index m (i, j)) (seq 0 M)) as
        [(l & E & L & H)|(i & Hi & _ & Hf)].
      - rewrite seq_length in *. exists l. repeat split; auto. intros i Hi.
        destruct (H i Hi) as (a & Ea & Hs). unfold at1 in Hs. rewrite nth_error_seq0 in Hs by auto.
        rewrite m_index_elt in Hs. rewrite Ea. destruct (elt m i j); congruence.
      - exfalso. rewrite seq_length in Hi. unfold at1 in Hf. rewrite nth_error_seq0 in Hf by auto.
        rewrite m_index_elt in Hf. destruct (elt_lt R Hi Hj) as (x & Ex). rewrite Ex in Hf.
        eapply fails_like_not_ok; eauto. }
    destruct H as (c & E & L & H). exists c. repeat split; auto. intros i.
    destruct (lt_dec i M); auto. rewrite (elt_None i j R) by lia. apply nth_error_None. lia.
  - intros HM. destruct M; [lia|]. unfold m_col. rewrite v_indices_seq. cbn [bind seq].
    rewrite v_map_res. cbn [map_res]. rewrite m_index_elt. rewrite (elt_None 0 j R) by lia. reflexivity.
Qed.

(* ------------------------------------------------------------------------- *)
(** * C24                                                                      *)

Lemma m_transpose_drops : forall T M N (m : list (list T)), rect M N m ->
  exists s r, m_transpose_full M N m = Ok (s, r) /\ m_transpose M N m = Ok r /\
    (forall i j, i < M -> j < N -> elt s i j = Some None) /\ rect M N s /\
    rect N M r /\ forall i j, elt r j i = elt m i j.
Proof.
  intros T M N m R. destruct (m_transpose_full_spec R) as (r & E & Rr & H).
  eexists _, r. split; [exact E|]. split; [unfold m_transpose; rewrite E; reflexivity|].
  split; [|split; [apply rect_mk|split; auto]]. intros. rewrite elt_mk.
  replace ((i <? M) && (j <? N)) with true by lia. reflexivity.
Qed.

Lemma m_transpose_invol : forall T M N (m : list (list T)), rect M N m ->
  bind (m_transpose M N m) (m_transpose N M) = Ok m.
Proof.
  intros T M N m R. destruct (m_transpose_spec R) as (r & E & Rr & H). rewrite E. cbn [bind].
  destruct (m_transpose_spec Rr) as (r2 & E2 & Rr2 & H2). rewrite E2. f_equal.
  apply (elt_ext Rr2 R). intros. rewrite H2, H. reflexivity.
Qed.

Lemma in_order2_ok : forall A M N (step : nat -> nat -> res A) (m : list (list A)),
  rect M N m -> (forall i j x, elt m i j = Some x -> step i j = Ok x) -> in_order2 M N step (Ok m).
Proof.
  intros. left. exists m. repeat split; try apply H. intros i j Hi Hj.
  destruct (elt_lt H Hi Hj) as (x & E). exists x. split; auto.
Qed.

Lemma in_order2_ok_inv : forall A M N (step : nat -> nat -> res A) (m : list (list A)),
  in_order2 M N step (Ok m) -> rect M N m /\ forall i j x, elt m i j = Some x -> step i j = Ok x.
Proof.
  intros A M N step m [(m' & E & R & H)|(i & j & _ & _ & _ & F)].
  - inversion E; subst. split; auto. intros i j x Ex. destruct (elt_Some_lt i j R Ex) as (Hi & Hj).
    destruct (H i j Hi Hj) as (a & Ea & S). congruence.
  - exfalso. eapply fails_like_not_ok_l; eauto.
Qed.

Lemma m_zip_map_ok : forall A B C (op : A -> B -> res C) M N a b w, rect M N a -> rect M N b ->
  m_zip_map M N op a b = Ok w <-> rect M N w /\ forall i j x, elt w i j = Some x -> at2m op a b i j = Ok x.
Proof.
  intros A B C op M N a b w Ra Rb. split.
  - intros E. apply in_order2_ok_inv. rewrite <- E. apply m_zip_map_in_order; auto.
  - intros (Rw & H). eapply in_order2_unique; [apply m_zip_map_in_order; auto|]. apply in_order2_ok; auto.
Qed.

Lemma m_map_ok : forall A B (f : A -> res B) M N m w, rect M N m ->
  m_map f m = Ok w <-> rect M N w /\ forall i j x, elt w i j = Some x -> at1m f m i j = Ok x.
Proof.
  intros A B f M N m w R. split.
  - intros E. apply in_order2_ok_inv. rewrite <- E. apply m_map_in_order; auto.
  - intros (Rw & H). eapply in_order2_unique; [apply m_map_in_order; eauto|]. apply in_order2_ok; auto.
Qed.

Lemma m_transpose_zip : forall A B C (op : A -> B -> res C) M N a b w, rect M N a -> rect M N b ->
  m_zip_map M N op a b = Ok w ->
  exists a' b' w', m_transpose M N a = Ok a' /\ m_transpose M N b = Ok b' /\ m_transpose M N w = Ok w' /\
    m_zip_map N M op a' b' = Ok w'.
Proof.
  intros A B C op M N a b w Ra Rb E.
  apply m_zip_map_ok in E as (Rw & Hw); auto.
  destruct (m_transpose_spec Ra) as (a' & Ea & Ra' & Ha), (m_transpose_spec Rb) as (b' & Eb & Rb' & Hb),
    (m_transpose_spec Rw) as (w' & Ew & Rw' & Hw').
  exists a', b', w'. repeat split; auto. apply m_zip_map_ok; auto. split; auto. intros j i x Ex.
  unfold at2m. rewrite Ha, Hb. apply Hw. rewrite <- Hw'. auto.
Qed.

(* ------------------------------------------------------------------------- *)
(** * C09 for matrices                                                         *)

Lemma m_zip_map_flat : forall A B C M N (op : A -> B -> res C) a b, rect M N a -> rect M N b ->
  m_zip_map M N op a b = let! l := map2_res op (concat a) (concat b) in Ok (chunk M N l).
Proof.
  intros A B C M N op a b Ra Rb. rewrite m_zip_map_res by auto. revert a b Ra Rb.
  induction M; intros a b Ra Rb.
  - destruct a; [|destruct Ra; discriminate]. reflexivity.
  - destruct a as [|r a]; [destruct Ra; discriminate|]. destruct b as [|s b]; [destruct Rb; discriminate|].
    apply rect_cons in Ra as (Lr & Ra), Rb as (Ls & Rb).
    cbn [map2_res concat]. rewrite IHM by auto.
    assert (X : forall u v (u' : list A) (v' : list B), length u = length v ->
      map2_res op (u ++ u') (v ++ v') = let! x := map2_res op u v in let! y := map2_res op u' v' in Ok (x ++ y)).
    { clear. induction u; intros [|b v] u' v' L; try discriminate; cbn [map2_res app bind].
      - destruct (map2_res op u' v'); reflexivity.
      - destruct (op a b); cbn [bind]; auto. rewrite IHu by auto.
        destruct (map2_res op u v); cbn [bind]; auto. destruct (map2_res op u' v'); reflexivity. }
    rewrite X by lia. destruct (map2_res op r s) as [l| | |] eqn:E; cbn [bind]; auto.
    destruct (map2_res op (concat a) (concat b)) as [l2| | |]; cbn [bind]; auto.
    apply map2_res_length in E; [|lia]. cbn [chunk].
    rewrite firstn_app, skipn_app. replace (N - length l) with 0 by lia.
    rewrite firstn_all2, skipn_all2 by lia. rewrite firstn_O, app_nil_r. reflexivity.
Qed.

Lemma chunk_list_set : forall T M N (l : list T) i j x, length l = M * N -> i < M -> j < N ->
  m_get_unchecked (chunk M N l) i j = index_unchecked l (i * N + j) /\
  m_set_unchecked (chunk M N l) i j x = Ok (chunk M N (list_set l (i * N + j) x)).
Proof.
  intros T M N l i j x L Hi Hj. pose proof (chunk_rect M N l L) as R.
  assert (B : i * N + j < length l) by nia. split.
  - unfold m_get_unchecked, v_get_unchecked, index_unchecked.
    rewrite <- (concat_chunk M N l L) at 2. rewrite (nth_error_concat i R Hj).
    unfold elt. destruct (nth_error (chunk M N l) i) eqn:E; cbn [bind]; auto.
  - unfold m_set_unchecked, v_get_unchecked, index_unchecked, v_set_unchecked, index_set_unchecked.
    destruct (nth_error (chunk M N l) i) as [r|] eqn:Er.
    2:{ apply nth_error_None in Er. destruct R. lia. }
    pose proof (nth_error_Forall (proj2 R) Er) as Lr. simpl in Lr. cbn [bind].
    replace (j <? length r) with true by lia. cbn [bind].
    replace (i <? length (chunk M N l)) with true by (destruct R; lia). f_equal.
    assert (L2 : length (list_set l (i * N + j) x) = M * N) by (rewrite list_set_length; auto).
    assert (R2 : rect M N (list_set (chunk M N l) i (list_set r j x))).
    { apply rect_list_set; auto. rewrite list_set_length. auto. }
    pose proof (chunk_rect M N _ L2) as R3.
    apply (elt_ext R2 R3). intros a b. rewrite (elt_list_set x a b R Hi Hj Er).
    destruct (lt_dec a M) as [Ha|Ha]; [destruct (lt_dec b N) as [Hb|Hb]|].
    2,3: rewrite (elt_None a b R3), (elt_None a b R) by lia;
         destruct (a =? i) eqn:E1, (b =? j) eqn:E2; auto; lia.
    rewrite <- (nth_error_concat a R3 Hb), <- (nth_error_concat a R Hb).
    rewrite !concat_chunk by auto. rewrite nth_error_list_set. replace (i * N + j <? length l) with true by lia.
    rewrite andb_true_r.
    assert (X : (i * N + j =? a * N + b) = (a =? i) && (b =? j)).
    { destruct (i * N + j =? a * N + b) eqn:E1.
      - apply Nat.eqb_eq in E1. assert (i = a) by nia. assert (j = b) by nia. subst. rewrite !Nat.eqb_refl. auto.
      - apply Nat.eqb_neq in E1. destruct (a =? i) eqn:E2, (b =? j) eqn:E3; auto.
        exfalso. apply E1. apply Nat.eqb_eq in E2, E3. subst. auto. }
    rewrite X. reflexivity.
Qed.

Lemma refs_flat : forall M N, 0 < N ->
  concat (m_refs M N) = map (fun k => (k / N, k mod N)) (seq 0 (M * N)).
Proof.
  intros M N HN.
  assert (R : rect M N (m_refs M N)). { apply (rect_mk M N (fun i j => (i, j))). }
  apply nth_error_ext. intros k. fold (vk (M * N) (fun k => (k / N, k mod N))).
  rewrite nth_error_vk. destruct (k <? M * N) eqn:E.
  - pose proof (Nat.mod_upper_bound k N ltac:(lia)).
    replace k with (k / N * N + k mod N) at 1.
    2:{ rewrite (Nat.div_mod k N) at 3 by lia. lia. }
    rewrite (nth_error_concat _ R) by auto. unfold m_refs. fold (@vk (list (nat * nat))).
    change (map (fun i => map (fun j => (i, j)) (seq 0 N)) (seq 0 M)) with (mk M N (fun i j => (i, j))).
    rewrite elt_mk. replace (k mod N <? N) with true by lia.
    replace (k / N <? M) with true. 2:{ symmetry. apply Nat.ltb_lt. apply Nat.div_lt_upper_bound; nia. }
    reflexivity.
  - apply nth_error_None. rewrite (rect_concat_length R). lia.
Qed.

(** The references are visited in row-major order: this is the vector assignment on the flat list. *)
Lemma each_assign : forall T U M N (opa : T -> U -> res T) (vec : list U) k (l : list T),
  0 < N -> length l = M * N -> k + length vec = M * N ->
  each (fun m '(p, x) => m_ref_update (fun s => opa s x) m p) (chunk M N l)
    (combine (map (fun k => (k / N, k mod N)) (seq k (length vec))) vec) =
  let (w, r) := v_assign opa (skipn k l) vec in (chunk M N (firstn k l ++ w), r).
Proof.
  intros T U M N opa vec. induction vec as [|x vec IH]; intros k l HN L Hk.
  - simpl. rewrite v_assign_eq_nil || idtac. simpl in Hk. rewrite Nat.add_0_r in Hk.
    replace (v_assign opa (skipn k l) []) with (skipn k l, @Ok unit tt) by (destruct (skipn k l); reflexivity).
    rewrite firstn_skipn. reflexivity.
  - cbn [length seq map combine each]. simpl in Hk.
    pose proof (Nat.mod_upper_bound k N ltac:(lia)) as HB.
    assert (HD : k / N < M) by (apply Nat.div_lt_upper_bound; nia).
    assert (HK : k / N * N + k mod N = k). { rewrite (Nat.div_mod k N) at 3 by lia. lia. }
    unfold m_ref_update at 1. cbn [fst snd].
    destruct (nth_error l k) as [s|] eqn:Es. 2:{ apply nth_error_None in Es. lia. }
    assert (SK : skipn k l = s :: skipn (S k) l).
    { clear - Es. revert l Es. induction k; intros [|y l] Es; try discriminate.
      - inversion Es. reflexivity.
      - simpl. rewrite (IHk l Es). destruct l; reflexivity. }
    rewrite SK. cbn [v_assign].
    destruct (@chunk_list_set T M N l (k / N) (k mod N) s L HD HB) as (-> & _).
    rewrite HK. unfold index_unchecked. rewrite Es.
    destruct (opa s x) as [y| | |].
    + destruct (@chunk_list_set T M N l (k / N) (k mod N) y L HD HB) as (_ & ->). rewrite HK.
      rewrite IH; [|auto|rewrite list_set_length; auto|lia].
      assert (SL : skipn (S k) (list_set l k y) = skipn (S k) l).
      { clear - Es. revert l Es. induction k; intros [|a l] Es; try discriminate; auto.
        simpl list_set. simpl in Es. specialize (IHk l Es). exact IHk. }
      assert (FL : firstn (S k) (list_set l k y) = firstn k l ++ [y]).
      { clear - Es. revert l Es. induction k; intros [|a l] Es; try discriminate; auto.
        simpl list_set. simpl in Es. specialize (IHk l Es). cbn [firstn app] in *. f_equal. exact IHk. }
      rewrite SL, FL. destruct (v_assign opa (skipn (S k) l) vec) as (w & r).
      rewrite <- app_assoc. reflexivity.
    + rewrite <- SK, firstn_skipn. reflexivity.
    + rewrite <- SK, firstn_skipn. reflexivity.
    + rewrite <- SK, firstn_skipn. reflexivity.
Qed.

Lemma m_assign_flat : forall T U M N (opa : T -> U -> res T) a b, rect M N a -> rect M N b -> 0 < M ->
  m_assign M N opa a b = let (w, r) := v_assign opa (concat a) (concat b) in (chunk M N w, r).
Proof.
  intros T U M N opa a b Ra Rb HM. unfold m_assign.
  assert (Rr : rect M N (m_refs M N)). { apply (rect_mk M N (fun i j => (i, j))). }
  destruct (proj2 (m_iter_spec Rr) HM) as (it & E1 & B1), (proj2 (m_iter_spec Rb) HM) as (iv & E2 & B2).
  rewrite E1, E2.
  assert (LL : length (concat (m_refs M N)) = length (concat b))
    by (rewrite (rect_concat_length Rr), (rect_concat_length Rb); auto).
  pose proof (behaves_zip B1 B2 LL) as BZ.
  rewrite (@iter_for_each_spec _ _ _ _ _ _ (S (M * N)) _ a BZ).
  2:{ rewrite combine_length, (rect_concat_length Rr), (rect_concat_length Rb). lia. }
  destruct (Nat.eq_dec N 0) as [->|HN].
  - pose proof (rect_concat_length Ra) as La. pose proof (rect_concat_length Rb) as Lb.
    rewrite Nat.mul_0_r in *. rewrite <- (chunk_concat Ra) at 1.
    destruct (concat a); [|discriminate]. destruct (concat b); [|discriminate].
    simpl. rewrite combine_nil. reflexivity.
  - rewrite <- (chunk_concat Ra) at 1. rewrite refs_flat by lia.
    replace (M * N) with (length (concat b)) by apply (rect_concat_length Rb).
    rewrite (@each_assign T U M N opa (concat b) 0 (concat a)); [|lia|apply (rect_concat_length Ra)|].
    2:{ rewrite (rect_concat_length Rb). lia. }
    simpl. reflexivity.
Qed.

Lemma chunk_inj : forall T M N (u v : list T), length u = M * N -> length v = M * N ->
  chunk M N u = chunk M N v -> u = v.
Proof.
  intros. rewrite <- (concat_chunk M N u), <- (concat_chunk M N v) by auto. congruence.
Qed.

Lemma v_assign_length : forall T U (opa : T -> U -> res T) u v w r,
  v_assign opa u v = (w, r) -> length w = length u.
Proof.
  induction u; intros [|b v] w r H; simpl in H; try (inversion H; reflexivity).
  destruct (opa a b); try (inversion H; reflexivity).
  destruct (v_assign opa u v) as (l & r') eqn:E. inversion H; subst. simpl. f_equal. eauto.
Qed.

Lemma at2_concat : forall A B C (op : A -> B -> res C) M N a b i j, rect M N a -> rect M N b -> j < N ->
  at2 op (concat a) (concat b) (i * N + j) = at2m op a b i j.
Proof.
  intros A B C op M N a b i j Ra Rb Hj. unfold at2, at2m.
  rewrite (nth_error_concat i Ra Hj), (nth_error_concat i Rb Hj). reflexivity.
Qed.

Lemma m_assign_spec : forall T U (op opa : T -> U -> res T) M N a b,
  (forall x y, opa x y = op x y) -> rect M N a -> rect M N b ->
  (M = 0 -> m_assign M N opa a b = (a, Panic)) /\
  (0 < M ->
   (forall w, m_zip_map M N op a b = Ok w <-> m_assign M N opa a b = (w, Ok tt)) /\
   (~ returns (m_zip_map M N op a b) ->
     exists i j w, i < M /\ j < N /\ m_assign M N opa a b = (w, refail (m_zip_map M N op a b)) /\
       rect M N w /\
       (forall i' j', j' < N -> i' < i \/ (i' = i /\ j' < j) ->
          exists z, at2m op a b i' j' = Ok z /\ elt w i' j' = Some z) /\
       (forall i' j', i < i' \/ (i' = i /\ j <= j') -> elt w i' j' = elt a i' j') /\
       fails_like (m_zip_map M N op a b) (at2m op a b i j))).
Proof.
  intros T U op opa M N a b Hop Ra Rb. split.
  - intros ->. unfold m_assign. reflexivity.
  - intros HM. rewrite (m_assign_flat opa Ra Rb HM).
    pose proof (rect_concat_length Ra) as La. pose proof (rect_concat_length Rb) as Lb.
    destruct (@v_assign_spec T U op opa (M * N) (concat a) (concat b) Hop La Lb) as (P & Q).
    rewrite v_zip_map_res in P, Q by auto.
    rewrite (m_zip_map_flat op Ra Rb). split.
    + intros w. split.
      * intros H. apply bind_Ok in H as (l & E & H). inversion H; subst. apply P in E.
        rewrite E. reflexivity.
      * destruct (v_assign opa (concat a) (concat b)) as (l & r) eqn:E. intros H. inversion H; subst.
        rewrite (proj2 (P l) eq_refl). reflexivity.
    + intros H. assert (H2 : ~ returns (map2_res op (concat a) (concat b))).
      { intros (l & E). apply H. rewrite E. eexists. reflexivity. }
      destruct (Q H2) as (k & l & Hk & E & L & B1 & B2 & Fk).
      assert (HN : 0 < N) by nia.
      pose proof (Nat.mod_upper_bound k N ltac:(lia)) as HB.
      assert (HD : k / N < M) by (apply Nat.div_lt_upper_bound; nia).
      assert (HK : k / N * N + k mod N = k). { rewrite (Nat.div_mod k N) at 3 by lia. lia. }
      exists (k / N), (k mod N), (chunk M N l). rewrite E.
      pose proof (chunk_rect M N l L) as R.
      repeat split; auto; try apply R.
      * f_equal. destruct (map2_res op (concat a) (concat b)); auto.
      * intros i' j' Hj' Hlt. destruct (B1 (i' * N + j')) as (z & E1 & E2). { nia. }
        exists z. rewrite <- (nth_error_concat i' R Hj'), (concat_chunk M N l L). split; auto.
        rewrite <- E1. symmetry. apply (at2_concat op i' Ra Rb Hj').
      * intros i' j' Hge. destruct (lt_dec j' N) as [Hj'|Hj'].
        -- rewrite <- (nth_error_concat i' R Hj'), (concat_chunk M N l L), <- (nth_error_concat i' Ra Hj').
           apply B2. nia.
        -- rewrite (elt_None i' j' R), (elt_None i' j' Ra) by lia. reflexivity.
      * rewrite <- (at2_concat op (k / N) Ra Rb HB), HK.
        eapply fails_like_trans; [|exact Fk]. apply fails_like_bind. intros x Ex. apply H2. exists x; auto.
Qed.

Lemma m_assign_scalar_flat : forall T U M N (opa : T -> U -> res T) a x,
  m_assign_scalar M N opa a x = m_assign M N opa a (mk M N (fun _ _ => x)).
Proof.
  intros T U M N opa a x. unfold m_assign, m_assign_scalar.
  assert (Rr : rect M N (m_refs M N)). { apply (rect_mk M N (fun i j => (i, j))). }
  assert (Rb : rect M N (mk M N (fun _ _ => x))) by apply rect_mk.
  destruct M as [|M]; [reflexivity|].
  destruct (proj2 (m_iter_spec Rr) ltac:(lia)) as (it & E1 & B1),
    (proj2 (m_iter_spec Rb) ltac:(lia)) as (iv & E2 & B2).
  rewrite E1, E2.
  assert (LL : length (concat (m_refs (S M) N)) = length (concat (mk (S M) N (fun _ _ => x))))
    by (rewrite (rect_concat_length Rr), (rect_concat_length Rb); auto).
  pose proof (behaves_zip B1 B2 LL) as BZ.
  rewrite (@iter_for_each_spec _ _ _ _ _ _ (S (S M * N)) _ a BZ).
  2:{ rewrite combine_length, (rect_concat_length Rr), (rect_concat_length Rb). lia. }
  rewrite (@iter_for_each_spec _ _ _ _ _ _ (S (S M * N)) _ a B1).
  2:{ rewrite (rect_concat_length Rr). lia. }
  assert (X : forall y, In y (concat (mk (S M) N (fun _ _ => x))) -> y = x).
  { intros y Hy. apply (elt_In y Rb) in Hy as (i & j & Hy). rewrite elt_mk in Hy.
    destruct ((i <? S M) && (j <? N)); congruence. }
  clear - LL X. revert LL X. generalize (concat (m_refs (S M) N)) (concat (mk (S M) N (fun _ _ => x))) a.
  induction l as [|p l IH]; intros [|y l0] a0 LL X; try discriminate; auto.
  cbn [combine each]. rewrite (X y) by (left; auto).
  destruct (m_ref_update (fun s => opa s x) a0 p) as (c1 & [[]| | |]); auto.
  apply IH; auto. intros z Hz. apply X. right. auto.
Qed.

Lemma m_map_as_zip : forall A B C M N (op : A -> B -> res C) a x, rect M N a ->
  m_map (fun s => op s x) a = m_zip_map M N op a (mk M N (fun _ _ => x)).
Proof.
  intros A B C M N op a x R. eapply in_order2_unique; [apply m_map_in_order; eauto|].
  assert (Rb : rect M N (mk M N (fun _ _ => x))) by apply rect_mk.
  pose proof (m_zip_map_in_order op R Rb) as H.
  assert (X : forall i j, i < M -> j < N -> at2m op a (mk M N (fun _ _ => x)) i j = at1m (fun s => op s x) a i j).
  { intros. unfold at2m, at1m. rewrite elt_mk. replace ((i <? M) && (j <? N)) with true by lia.
    destruct (elt a i j); reflexivity. }
  destruct H as [(m & E & Rm & H)|(i & j & Hi & Hj & Hp & Hf)].
  - left. exists m. repeat split; auto; try apply Rm. intros. rewrite <- X by auto. auto.
  - right. exists i, j. rewrite <- X by auto. repeat split; auto.
    intros. rewrite <- X by auto. auto.
Qed.

Lemma m_assign_scalar_spec : forall T U (op opa : T -> U -> res T) M N a x,
  (forall s y, opa s y = op s y) -> rect M N a ->
  (M = 0 -> m_assign_scalar M N opa a x = (a, Panic)) /\
  (0 < M ->
   (forall w, m_map (fun s => op s x) a = Ok w <-> m_assign_scalar M N opa a x = (w, Ok tt)) /\
   (~ returns (m_map (fun s => op s x) a) ->
     exists i j w, i < M /\ j < N /\
       m_assign_scalar M N opa a x = (w, refail (m_map (fun s => op s x) a)) /\ rect M N w /\
       (forall i' j', j' < N -> i' < i \/ (i' = i /\ j' < j) ->
          exists z, at1m (fun s => op s x) a i' j' = Ok z /\ elt w i' j' = Some z) /\
       (forall i' j', i < i' \/ (i' = i /\ j <= j') -> elt w i' j' = elt a i' j') /\
       fails_like (m_map (fun s => op s x) a) (at1m (fun s => op s x) a i j))).
Proof.
  intros T U op opa M N a x Hop R. rewrite m_assign_scalar_flat, (m_map_as_zip op x R).
  assert (Rb : rect M N (mk M N (fun _ _ => x))) by apply rect_mk.
  destruct (m_assign_spec op opa Hop R Rb) as (P & Q). split; auto.
  intros HM. destruct (Q HM) as (Q1 & Q2). split; auto. intros H.
  assert (X : forall i j, i < M -> j < N -> at2m op a (mk M N (fun _ _ => x)) i j = at1m (fun s => op s x) a i j).
  { intros. unfold at2m, at1m. rewrite elt_mk. replace ((i <? M) && (j <? N)) with true by lia.
    destruct (elt a i j); reflexivity. }
  destruct (Q2 H) as (i & j & w & Hi & Hj & E & Rw & B1 & B2 & F).
  exists i, j, w. rewrite <- X by auto. repeat split; auto; try apply Rw.
  intros i' j' Hj' Hlt. rewrite <- X by lia. auto.
Qed.

(* ------------------------------------------------------------------------- *)
(** * C10, C25                                                                 *)

Lemma m_zero_spec : forall T (o : Ops T) M N, exists z, m_zero o M N = Ok z /\ rect M N z /\
  forall i j, i < M -> j < N -> elt z i j = Some (o_zero o).
Proof.
  intros. eexists. split; [apply m_init_const_mk|]. split; [apply rect_mk|]. intros.
  rewrite elt_mk. replace ((i <? M) && (j <? N)) with true by lia. reflexivity.
Qed.

Lemma m_fold_columns : forall T (op : T -> T -> res T) M N ms z r, Forall (rect M N) ms ->
  rect M N z ->
  fold_res (m_zip_map M N op) z ms = Ok r <->
  (rect M N r /\ forall i j x, elt r i j = Some x ->
     exists x0, elt z i j = Some x0 /\
     fold_res (fun s m => bind (m_index m (i, j)) (op s)) x0 ms = Ok x).
Proof.
  intros T op M N ms. induction ms as [|m ms IH]; intros z r F Rz; cbn [fold_res].
  - split.
    + intros H. inversion H; subst. split; auto. intros i j x E. exists x. auto.
    + intros (R & H). f_equal. apply (elt_ext Rz R). intros i j.
      destruct (elt r i j) as [x|] eqn:E.
      * destruct (H i j x E) as (x0 & E0 & H0). congruence.
      * destruct (elt z i j) as [x|] eqn:E0; auto.
        destruct (elt_Some_lt i j Rz E0) as (Hi & Hj). destruct (elt_lt R Hi Hj). congruence.
  - apply Forall_cons_iff in F as (Rm & F). split.
    + intros H. apply bind_Ok in H as (z1 & E & H).
      apply m_zip_map_ok in E as (Rz1 & E); auto. apply IH in H as (R & H); auto. split; auto.
      intros i j x Ex. destruct (H i j x Ex) as (x1 & E1 & H1).
      specialize (E i j x1 E1). unfold at2m in E.
      destruct (elt z i j) as [x0|] eqn:E0; [|discriminate]. exists x0. split; auto.
      rewrite m_index_elt. destruct (elt m i j); [|discriminate]. cbn [bind]. rewrite E. exact H1.
    + intros (R & H).
      assert (exists z1, m_zip_map M N op z m = Ok z1) as (z1 & E).
      { destruct (m_zip_map_in_order op Rz Rm) as [(z1 & E & _)|(i & j & Hi & Hj & _ & Ff)]; eauto.
        exfalso. destruct (elt_lt R Hi Hj) as (x & Ex). destruct (H i j x Ex) as (x0 & E0 & H0).
        unfold at2m in Ff. rewrite E0 in Ff. rewrite m_index_elt in H0.
        destruct (elt_lt Rm Hi Hj) as (y & Ey). rewrite Ey in *. cbn [bind] in H0.
        apply bind_Ok in H0 as (s & Es & _). eapply fails_like_not_ok; eauto. }
      rewrite E. cbn [bind]. apply m_zip_map_ok in E as (Rz1 & E); auto. apply IH; auto. split; auto.
      intros i j x Ex. destruct (H i j x Ex) as (x0 & E0 & H0). rewrite m_index_elt in H0.
      destruct (elt_Some_lt i j R Ex) as (Hi & Hj).
      destruct (elt_lt Rm Hi Hj) as (y & Ey), (elt_lt Rz1 Hi Hj) as (s & Es).
      specialize (E i j s Es). unfold at2m in E. rewrite E0, Ey in E. rewrite Ey in H0. cbn [bind] in H0.
      rewrite E in H0. cbn [bind] in H0. exists s. auto.
Qed.

Lemma m_iter_sum_product_spec : forall T (o : Ops T) M N ms r, Forall (rect M N) ms ->
  (m_iter_sum o M N ms = Ok r <-> rect M N r /\
     forall i j x, elt r i j = Some x ->
       fold_res (fun s m => bind (m_index m (i, j)) (o_add o s)) (o_zero o) ms = Ok x) /\
  (m_iter_product o M N ms = Ok r <-> rect M N r /\
     forall i j x, elt r i j = Some x ->
       fold_res (fun s m => bind (m_index m (i, j)) (o_mul o s)) (o_one o) ms = Ok x).
Proof.
  assert (X : forall T (op : T -> T -> res T) c M N ms r, Forall (rect M N) ms ->
    (let! z := m_init_const M N (Ok c) in fold_res (m_zip_map M N op) z ms) = Ok r <->
    rect M N r /\ forall i j x, elt r i j = Some x ->
      fold_res (fun s m => bind (m_index m (i, j)) (op s)) c ms = Ok x).
  { intros T op c M N ms r F. rewrite m_init_const_mk. cbn [bind].
    rewrite (@m_fold_columns T op M N ms _ r F (rect_mk M N (fun _ _ => c))).
    split; intros (R & H); split; auto; intros i j x E.
    - destruct (H i j x E) as (x0 & E0 & H0). rewrite elt_mk in E0.
      destruct ((i <? M) && (j <? N)); [|discriminate]. inversion E0; subst. auto.
    - exists c. split; auto. rewrite elt_mk. destruct (elt_Some_lt i j R E).
      replace ((i <? M) && (j <? N)) with true by lia. auto. }
  intros. split; apply X; auto.
Qed.

Lemma m_binary_spec : forall T (o : Ops T) M N a b, rect M N a -> rect M N b ->
  in_order2 M N (at2m (o_add o) a b) (m_add o M N a b) /\
  in_order2 M N (at2m (o_sub o) a b) (m_sub o M N a b) /\
  in_order2 M N (at2m (o_mul o) a b) (m_mul o M N a b) /\
  in_order2 M N (at2m (o_div o) a b) (m_div o M N a b) /\
  in_order2 M N (at2m (o_rem o) a b) (m_rem o M N a b).
Proof. intros. repeat split; apply m_zip_map_in_order; auto. Qed.

Lemma m_unary_spec : forall T (o : Ops T) M N m s, rect M N m ->
  in_order2 M N (at1m (o_neg o) m) (m_neg o m) /\
  in_order2 M N (at1m (fun x => o_mul o x s) m) (m_smul o m s) /\
  in_order2 M N (at1m (fun x => o_div o x s) m) (m_sdiv o m s) /\
  in_order2 M N (at1m (fun x => o_rem o x s) m) (m_srem o m s).
Proof. intros. repeat split; apply m_map_in_order; auto. Qed.

Lemma m_bit_spec : forall T (op : T -> T -> res T) (bnot : T -> res T) M N a b, rect M N a -> rect M N b ->
  in_order2 M N (at2m op a b) (m_bitop M N op a b) /\
  in_order2 M N (at1m bnot a) (m_not bnot a).
Proof. intros. split; [apply m_zip_map_in_order|apply m_map_in_order]; auto. Qed.

Lemma m_zip_map_pure : forall A B C (op : A -> B -> C) M N a b, rect M N a -> rect M N b ->
  exists w, m_zip_map M N (ok2 op) a b = Ok w /\ rect M N w /\
    forall i j x y, elt a i j = Some x -> elt b i j = Some y -> elt w i j = Some (op x y).
Proof.
  intros A B C op M N a b Ra Rb.
  destruct (m_zip_map_in_order (ok2 op) Ra Rb) as [(w & E & R & H)|(i & j & Hi & Hj & _ & F)].
  - exists w. repeat split; auto; try apply R. intros i j x y Ex Ey.
    destruct (elt_Some_lt i j Ra Ex) as (Hi & Hj).
    destruct (H i j Hi Hj) as (c & Ec & S). unfold at2m in S. rewrite Ex, Ey in S. inversion S; subst. auto.
  - exfalso. destruct (elt_lt Ra Hi Hj) as (x & Ex), (elt_lt Rb Hi Hj) as (y & Ey).
    unfold at2m in F. rewrite Ex, Ey in F. eapply fails_like_not_ok; [exact F|reflexivity].
Qed.

Lemma m_compare_spec : forall T (o : Ops T) M N a b, rect M N a -> rect M N b ->
  exists e n l le g ge,
    m_veq o M N a b = Ok e /\ m_vne o M N a b = Ok n /\ m_vlt o M N a b = Ok l /\
    m_vle o M N a b = Ok le /\ m_vgt o M N a b = Ok g /\ m_vge o M N a b = Ok ge /\
    rect M N e /\ rect M N n /\ rect M N l /\ rect M N le /\ rect M N g /\ rect M N ge /\
    forall i j x y, elt a i j = Some x -> elt b i j = Some y ->
      elt e i j = Some (o_eq o x y) /\ elt n i j = Some (negb (o_eq o x y)) /\
      elt l i j = Some (o_lt o x y) /\ elt le i j = Some (o_le o x y) /\
      elt g i j = Some (o_lt o y x) /\ elt ge i j = Some (o_le o y x).
Proof.
  intros T o M N a b Ra Rb.
  destruct (m_zip_map_pure (o_eq o) Ra Rb) as (e & E1 & R1 & H1).
  destruct (m_zip_map_pure (fun x y => negb (o_eq o x y)) Ra Rb) as (n & E2 & R2 & H2).
  destruct (m_zip_map_pure (o_lt o) Ra Rb) as (l & E3 & R3 & H3).
  destruct (m_zip_map_pure (o_le o) Ra Rb) as (le & E4 & R4 & H4).
  destruct (m_zip_map_pure (fun x y => o_lt o y x) Ra Rb) as (g & E5 & R5 & H5).
  destruct (m_zip_map_pure (fun x y => o_le o y x) Ra Rb) as (ge & E6 & R6 & H6).
  exists e, n, l, le, g, ge. do 12 (split; [auto|]). intros i j x y Ex Ey. repeat split; auto.
Qed.

Lemma m_eq_spec : forall T (o : Ops T) M N a b, rect M N a -> rect M N b ->
  (m_eq o a b = true <->
   forall i j x y, elt a i j = Some x -> elt b i j = Some y -> o_eq o x y = true).
Proof.
  intros T o M N. induction M; intros a b Ra Rb.
  - destruct a; [|destruct Ra; discriminate]. destruct b; [|destruct Rb; discriminate].
    split; auto. intros _ i j x y E. unfold elt in E. destruct i; discriminate.
  - destruct a as [|r a]; [destruct Ra; discriminate|]. destruct b as [|s b]; [destruct Rb; discriminate|].
    apply rect_cons in Ra as (Lr & Ra), Rb as (Ls & Rb). cbn [m_eq].
    rewrite andb_true_iff. rewrite (IHM a b Ra Rb). rewrite <- v_eq_all_map2 by lia.
    unfold v_all. rewrite forallb_forall. split.
    + intros (H1 & H2) [|i] j x y Ex Ey; unfold elt in *; simpl in *; eauto.
      apply H1. apply nth_error_In with j. rewrite nth_error_map2, Ex, Ey. reflexivity.
    + intros H. split.
      * intros z Hz. apply In_nth_error in Hz as (j & Hz). rewrite nth_error_map2 in Hz.
        destruct (nth_error r j) eqn:E1; [|discriminate]. destruct (nth_error s j) eqn:E2; [|discriminate].
        inversion Hz; subst. apply (H 0 j); auto.
      * intros i j x y Ex Ey. apply (H (S i) j); auto.
Qed.

Lemma m_reduce_spec : forall T (o : Ops T) M N m, rect M N m ->
  (0 < M -> 0 < N -> m_sum o m = v_sum o (concat m) /\ m_max o m = v_max o (concat m) /\
                     m_min o m = v_min o (concat m)) /\
  (M = 0 \/ N = 0 -> m_sum o m = Panic /\ m_max o m = Panic /\ m_min o m = Panic).
Proof.
  intros T o M N m R. split.
  - intros HM HN. repeat split; apply (m_fold_first_flat _ R HN).
  - intros H. repeat split; apply (m_fold_first_empty _ R H).
Qed.

Lemma m_max_min_spec : forall T (o : Ops T) M N m, rect M N m -> strict_weak_order (o_lt o) ->
  0 < M -> 0 < N ->
  (exists x i j, m_max o m = Ok x /\ elt m i j = Some x /\
     forall i' j' y, elt m i' j' = Some y -> o_lt o x y = false) /\
  (exists x i j, m_min o m = Ok x /\ elt m i j = Some x /\
     forall i' j' y, elt m i' j' = Some y -> o_lt o y x = false).
Proof.
  intros T o M N m R W HM HN.
  destruct (proj1 (m_reduce_spec o R) HM HN) as (_ & -> & ->).
  assert (NE : concat m <> []).
  { intros E. pose proof (rect_concat_length R) as L. rewrite E in L. simpl in L. nia. }
  destruct (proj2 (v_max_spec o (concat m) W) NE) as (x & E & I & U).
  destruct (proj2 (v_min_spec o (concat m) W) NE) as (x2 & E2 & I2 & U2).
  apply (elt_In x R) in I as (i & j & I). apply (elt_In x2 R) in I2 as (i2 & j2 & I2). split.
  - exists x, i, j. repeat split; auto. intros i' j' y Ey. apply U. apply (elt_In y R). eauto.
  - exists x2, i2, j2. repeat split; auto. intros i' j' y Ey. apply U2. apply (elt_In y R). eauto.
Qed.

Lemma m_floor_spec : forall M N a b, rect M N a -> rect M N b ->
  (forall i j, elt b i j <> Some 0%Z) ->
  exists d r, m_div_floor M N z_div_floor a b = Ok d /\ m_mod_floor M N z_mod_floor a b = Ok r /\
    m_div_mod_floor M N z_div_mod_floor a b = Ok (d, r) /\ rect M N d /\ rect M N r /\
    forall i j x y, elt a i j = Some x -> elt b i j = Some y -> exists q m,
      elt d i j = Some q /\ elt r i j = Some m /\ (x = q * y + m)%Z /\
      ((0 <= m < y)%Z \/ (y < m <= 0)%Z).
Proof.
  intros M N a b Ra Rb NZ.
  assert (X : forall C (op : Z -> Z -> res C) (g : Z -> Z -> C),
    (forall x y, y <> 0%Z -> op x y = Ok (g x y)) ->
    m_zip_map M N op a b = m_zip_map M N (ok2 g) a b).
  { intros C op g H. destruct (m_zip_map_pure g Ra Rb) as (w & E & R & Hw). rewrite E.
    apply m_zip_map_ok; auto. split; auto. intros i j x Ex.
    destruct (elt_Some_lt i j R Ex) as (Hi & Hj).
    destruct (elt_lt Ra Hi Hj) as (u & Eu), (elt_lt Rb Hi Hj) as (v & Ev).
    unfold at2m. rewrite Eu, Ev. rewrite (Hw i j u v Eu Ev) in Ex. inversion Ex; subst.
    apply H. intros ->. eapply NZ; eauto. }
  unfold m_div_floor, m_mod_floor, m_div_mod_floor.
  rewrite (X _ z_div_floor Z.div).
  2:{ intros x y Hy. unfold z_div_floor. apply Z.eqb_neq in Hy. rewrite Hy. reflexivity. }
  rewrite (X _ z_mod_floor Z.modulo).
  2:{ intros x y Hy. unfold z_mod_floor. apply Z.eqb_neq in Hy. rewrite Hy. reflexivity. }
  rewrite (X _ z_div_mod_floor (fun x y => (Z.div x y, Z.modulo x y))).
  2:{ intros x y Hy. unfold z_div_mod_floor. apply Z.eqb_neq in Hy. rewrite Hy. reflexivity. }
  destruct (m_zip_map_pure Z.div Ra Rb) as (d & Ed & Rd & Hd).
  destruct (m_zip_map_pure Z.modulo Ra Rb) as (r & Er & Rr & Hr).
  destruct (m_zip_map_pure (fun x y => (Z.div x y, Z.modulo x y)) Ra Rb) as (w & Ew & Rw & Hw).
  exists d, r. split; auto. split; auto. split; [|split; auto; split; auto].
  - rewrite Ew. cbn [bind]. rewrite m_unzip_ok by auto. f_equal. f_equal.
    + apply (elt_ext (rect_map fst Rw) Rd). intros i j.
      destruct (lt_dec i M) as [Hi|Hi]; [destruct (lt_dec j N) as [Hj|Hj]|].
      2,3: rewrite (elt_None i j Rd), (elt_None i j (rect_map fst Rw)) by lia; auto.
      destruct (elt_lt Ra Hi Hj) as (u & Eu), (elt_lt Rb Hi Hj) as (v & Ev).
      rewrite (Hd i j u v Eu Ev). specialize (Hw i j u v Eu Ev). unfold elt in *.
      rewrite nth_error_map. destruct (nth_error w i) eqn:E; [|discriminate]. simpl.
      rewrite nth_error_map, Hw. reflexivity.
    + apply (elt_ext (rect_map snd Rw) Rr). intros i j.
      destruct (lt_dec i M) as [Hi|Hi]; [destruct (lt_dec j N) as [Hj|Hj]|].
      2,3: rewrite (elt_None i j Rr), (elt_None i j (rect_map snd Rw)) by lia; auto.
      destruct (elt_lt Ra Hi Hj) as (u & Eu), (elt_lt Rb Hi Hj) as (v & Ev).
      rewrite (Hr i j u v Eu Ev). specialize (Hw i j u v Eu Ev). unfold elt in *.
      rewrite nth_error_map. destruct (nth_error w i) eqn:E; [|discriminate]. simpl.
      rewrite nth_error_map, Hw. reflexivity.
  - intros i j x y Ex Ey. exists (Z.div x y), (Z.modulo x y).
    rewrite (Hd i j x y Ex Ey), (Hr i j x y Ex Ey).
    assert (y <> 0%Z) by (intros ->; eapply NZ; eauto).
    split; auto. split; auto. split.
    + rewrite Z.mul_comm. apply Z.div_mod; auto.
    + destruct (Z_lt_le_dec 0 y); [left; apply Z.mod_pos_bound; lia|right; apply Z.mod_neg_bound; lia].
Qed.

(* ------------------------------------------------------------------------- *)
(** * C36                                                                      *)

Lemma broadcast_spec : forall T M N (s : T) (v : list T) (m : list (list T)),
  length v = N -> rect M N m ->
  v_bc_self v = Ok v /\ m_bc_self m = Ok m /\
  (exists w, v_bc_scalar N s = Ok w /\ length w = N /\ forall i, i < N -> nth_error w i = Some s) /\
  (exists w, m_bc_scalar M N s = Ok w /\ rect M N w /\
     forall i j, i < M -> j < N -> elt w i j = Some s) /\
  (exists w, m_bc_vector M v = Ok w /\ rect M N w /\
     forall i j, i < M -> elt w i j = nth_error v j).
Proof.
  intros T M N s v m L R. split; [reflexivity|]. split; [reflexivity|]. split; [|split].
  - destruct (v_fill_spec N s) as (E & _ & _ & L1 & H). eauto.
  - destruct (m_fill_spec M N s) as (w & E & _ & R1 & H). eauto.
  - unfold m_bc_vector. destruct (v_fill_spec M v) as (E & _ & _ & L1 & H).
    rewrite E. cbn [bind]. exists (repeat v M). repeat split; auto.
    + apply Forall_forall. intros r Hr. apply repeat_spec in Hr. subst. auto.
    + intros i j Hi. unfold elt, m_from_vector_of_vectors. rewrite H by auto. reflexivity.
Qed.

Lemma v_fun_spec : forall T N (f1 : T -> T) (f2 : T -> T -> T) (f3 : T -> T -> T -> T) v a b,
  length v = N -> length a = N -> length b = N ->
  exists r1 r2 r3,
    v_fun1 f1 v = Ok r1 /\ v_fun2 N f2 v (Ok a) = Ok r2 /\ v_fun3 N f3 v (Ok a) (Ok b) = Ok r3 /\
    length r1 = N /\ length r2 = N /\ length r3 = N /\
    forall i s x y, nth_error v i = Some s -> nth_error a i = Some x -> nth_error b i = Some y ->
      nth_error r1 i = Some (f1 s) /\ nth_error r2 i = Some (f2 s x) /\
      nth_error r3 i = Some (f3 s x y).
Proof.
  intros T N f1 f2 f3 v a b Lv La Lb.
  unfold v_fun1, v_fun2, v_fun3. cbn [bind]. rewrite v_map_pure.
  rewrite v_zip_map_pure by auto. rewrite v_zip_combine by auto. cbn [bind].
  assert (Lc : length (combine a b) = N) by (rewrite combine_length; lia).
  rewrite v_zip_map_res by auto.
  assert (E : map2_res (fun s '(x, y) => Ok (f3 s x y)) v (combine a b) =
    Ok (map2 (fun s '(x, y) => f3 s x y) v (combine a b))).
  { rewrite <- map2_res_pure. clear. revert v. generalize (combine a b).
    induction l as [|(x & y) l IH]; intros [|s v]; cbn [map2_res]; auto. cbn [bind ok2]. rewrite IH. reflexivity. }
  rewrite E. eexists _, _, _. split; [reflexivity|]. split; [reflexivity|]. split; [reflexivity|].
  split; [rewrite map_length; auto|]. split; [apply map2_length'; auto|]. split; [apply map2_length'; auto|].
  intros i s x y Hs Hx Hy. rewrite nth_error_map, Hs, !nth_error_map2, Hs, Hx. repeat split.
  assert (C : nth_error (combine a b) i = Some (x, y)) by (apply nth_error_combine; auto).
  rewrite C. reflexivity.
Qed.

Lemma m_fun_spec : forall T M N (f1 : T -> T) (f2 : T -> T -> T) (f3 : T -> T -> T -> T) m a b,
  rect M N m -> rect M N a -> rect M N b ->
  exists r1 r2 r3,
    m_fun1 f1 m = Ok r1 /\ m_fun2 M N f2 m (Ok a) = Ok r2 /\ m_fun3 M N f3 m (Ok a) (Ok b) = Ok r3 /\
    rect M N r1 /\ rect M N r2 /\ rect M N r3 /\
    forall i j s x y, elt m i j = Some s -> elt a i j = Some x -> elt b i j = Some y ->
      elt r1 i j = Some (f1 s) /\ elt r2 i j = Some (f2 s x) /\ elt r3 i j = Some (f3 s x y).
Proof.
  intros T M N f1 f2 f3 m a b Rm Ra Rb. unfold m_fun1, m_fun2, m_fun3. cbn [bind].
  rewrite m_map_pure. destruct (m_zip_map_pure f2 Rm Ra) as (r2 & E2 & R2 & H2). rewrite E2.
  destruct (m_zip_spec Ra Rb) as (z & Ez & Rz & Hz). rewrite Ez. cbn [bind].
  destruct (m_zip_map_pure (fun s (p : T * T) => let '(x, y) := p in f3 s x y) Rm Rz) as (r3 & E3 & R3 & H3).
  exists (map (map f1) m), r2, r3. split; [reflexivity|]. split; [reflexivity|]. split.
  { rewrite <- E3. rewrite !m_zip_map_res by auto. clear. 
    assert (X : forall (r : list T) (s : list (T * T)),
      map2_res (fun s '(x, y) => Ok (f3 s x y)) r s = map2_res (ok2 (fun s (p : T * T) => let '(x, y) := p in f3 s x y)) r s).
    { induction r; intros [|(x & y) s]; cbn [map2_res]; auto. cbn [bind ok2]. rewrite IHr. reflexivity. }
    revert z. induction m; intros [|s z]; cbn [map2_res]; auto. rewrite X, IHm. reflexivity. }
  split; [apply rect_map; auto|]. split; auto. split; auto.
  intros i j s x y Hs Hx Hy. split; [|split].
  - unfold elt in *. rewrite nth_error_map. destruct (nth_error m i); [|discriminate]. simpl.
    rewrite nth_error_map, Hs. reflexivity.
  - apply H2; auto.
  - apply (H3 i j s (x, y)); auto. apply Hz. auto.
Qed.

Lemma sin_cos_spec : forall T M N (sc : T -> T * T) v m, length v = N -> rect M N m ->
  (v_sin_cos N sc v = Ok (map (fun x => fst (sc x)) v, map (fun x => snd (sc x)) v)) /\
  (m_sin_cos M N sc m = Ok (map (map (fun x => fst (sc x))) m, map (map (fun x => snd (sc x))) m)).
Proof.
  intros T M N sc v m L R. unfold v_sin_cos, m_sin_cos. split.
  - rewrite v_map_pure. cbn [bind]. rewrite v_unzip_ok by (rewrite map_length; auto). rewrite !map_map. auto.
  - rewrite m_map_pure. cbn [bind]. rewrite m_unzip_ok by (apply rect_map; auto). rewrite !map_map.
    f_equal. f_equal; apply map_ext; intros; apply map_map.
Qed.

(* ------------------------------------------------------------------------- *)
(** * C35                                                                      *)

Local Open Scope string_scope.

Lemma m_fmt_row_spec : forall T (fmt : T -> string) (m : list (list T)) r j left i,
  nth_error m j = Some r -> i + left = List.length r ->
  m_fmt_row fmt m left j i = Ok (String.concat "" (map (fun x => fmt x ++ ", ") (skipn i r))).
Proof.
  intros T fmt m r j. induction left; intros i Hj Hi.
  - cbn [m_fmt_row]. rewrite skipn_all2 by lia. reflexivity.
  - cbn [m_fmt_row]. rewrite m_index_elt. unfold elt. rewrite Hj.
    destruct (nth_error r i) as [x|] eqn:E. 2:{ apply nth_error_None in E. lia. }
    cbn [bind]. rewrite IHleft by (auto; lia). cbn [bind]. f_equal.
    assert (SK : skipn i r = (x :: skipn (S i) r)%list).
    { clear - E. revert r E. induction i; intros [|y r] E; try discriminate.
      - inversion E. reflexivity.
      - simpl. rewrite (IHi r E). destruct r; reflexivity. }
    rewrite SK. cbn [map]. 
    destruct (skipn (S i) r) as [|y t]; cbn [map String.concat].
    + rewrite append_nil. reflexivity.
    + rewrite append_assoc. simpl. reflexivity.
Qed.

Lemma m_fmt_rows_spec : forall T (fmt : T -> string) (m : list (list T)) M N, rect M N m ->
  forall left j, j + left = M ->
  m_fmt_rows fmt m N left j = Ok (String.concat "" (map (fun r =>
    "  " ++ String.concat "" (map (fun x => fmt x ++ ", ") r) ++ nl) (skipn j m))).
Proof.
  intros T fmt m M N (L & F). induction left; intros j Hj.
  - cbn [m_fmt_rows]. rewrite skipn_all2 by lia. reflexivity.
  - cbn [m_fmt_rows]. destruct (nth_error m j) as [r|] eqn:E. 2:{ apply nth_error_None in E. lia. }
    pose proof (nth_error_Forall F E) as Lr. simpl in Lr.
    rewrite (@m_fmt_row_spec T fmt m r j N 0 E) by lia. cbn [bind]. rewrite IHleft by lia. cbn [bind]. f_equal.
    assert (SK : skipn j m = (r :: skipn (S j) m)%list).
    { clear - E. revert m E. induction j; intros [|y m] E; try discriminate.
      - inversion E. reflexivity.
      - simpl. rewrite (IHj m E). destruct m; reflexivity. }
    rewrite SK. change (skipn 0 r) with r. cbn [map].
    destruct (skipn (S j) m) as [|y t]; cbn [map String.concat].
    + rewrite !append_assoc, append_nil. reflexivity.
    + rewrite !append_assoc, !append_nil. reflexivity.
Qed.

Lemma m_fmt_spec : forall T (fmt : T -> string) (m : list (list T)) M N, rect M N m ->
  m_fmt M N fmt m = Ok (nl ++ "Matrix" ++ nat_str M ++ "x" ++ nat_str N ++ "(" ++ nl ++
    String.concat "" (map (fun r => "  " ++ String.concat "" (map (fun x => fmt x ++ ", ") r) ++ nl) m) ++
    ")" ++ nl).
Proof.
  intros. unfold m_fmt. rewrite (m_fmt_rows_spec fmt H) by lia. reflexivity.
Qed.

Lemma v_clamp_spec : forall N (v a b : list Z), List.length v = N -> List.length a = N -> List.length b = N ->
  (forall i x y, nth_error a i = Some x -> nth_error b i = Some y -> (x <= y)%Z) ->
  exists r, v_clamp N Z.min Z.max v (Ok a) (Ok b) = Ok r /\ List.length r = N /\
    forall i s x y, nth_error v i = Some s -> nth_error a i = Some x -> nth_error b i = Some y ->
      exists z, nth_error r i = Some z /\ (x <= z <= y)%Z /\ ((x <= s <= y)%Z -> z = s).
Proof.
  intros N v a b Lv La Lb H.
  destruct (v_fun_spec (fun x => x) (fun x _ => x) (fun s a b => Z.min (Z.max s a) b) v a b Lv La Lb)
    as (r1 & r2 & r3 & _ & _ & E & _ & _ & L & S).
  exists r3. split; [exact E|]. split; auto. intros i s x y Hs Hx Hy.
  destruct (S i s x y Hs Hx Hy) as (_ & _ & S3). eexists. split; [exact S3|].
  specialize (H i x y Hx Hy). lia.
Qed.

Lemma m_clamp_spec : forall M N (m a b : list (list Z)), rect M N m -> rect M N a -> rect M N b ->
  (forall i j x y, elt a i j = Some x -> elt b i j = Some y -> (x <= y)%Z) ->
  exists r, m_clamp M N Z.min Z.max m (Ok a) (Ok b) = Ok r /\ rect M N r /\
    forall i j s x y, elt m i j = Some s -> elt a i j = Some x -> elt b i j = Some y ->
      exists z, elt r i j = Some z /\ (x <= z <= y)%Z /\ ((x <= s <= y)%Z -> z = s).
Proof.
  intros M N m a b Rm Ra Rb H.
  destruct (m_fun_spec (fun x => x) (fun x _ => x) (fun s a b => Z.min (Z.max s a) b) Rm Ra Rb)
    as (r1 & r2 & r3 & _ & _ & E & _ & _ & L & S).
  exists r3. split; [exact E|]. split; auto. intros i j s x y Hs Hx Hy.
  destruct (S i j s x y Hs Hx Hy) as (_ & _ & S3). eexists. split; [exact S3|].
  specialize (H i j x y Hx Hy). lia.
Qed.
