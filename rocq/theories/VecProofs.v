(** Proofs of the vector properties stated in [PropVector.v]. *)
From Coq Require Import String ZArith ZifyBool.
From Verif Require Import SpecFacts.
Set Implicit Arguments.
Local Open Scope nat_scope.
Local Open Scope list_scope.

Lemma v_init_spec : forall C T N (f : C -> res (C * T)) c,
  (forall c' l, v_init N f c = Ok (c', l) <-> drawn f N c c' l) /\
  (forall c' l, v_init N f c = Ok (c', l) -> length l = N) /\
  (~ returns (v_init N f c) ->
     exists k c1 l, k < N /\ drawn f k c c1 l /\ fails_like (v_init N f c) (f c1)).
Proof.
  intros. rewrite v_init_calls. split; [|split].
  - intros. apply drawn_calls.
  - intros c' l H. eapply calls_length; eauto.
  - intros H. apply calls_fails. intros x E. apply H. exists x. auto.
Qed.

Lemma v_fill_spec : forall T N (x : T),
  v_fill N x = Ok (repeat x N) /\ v_default N x = Ok (repeat x N) /\ v_new N x = Ok (repeat x N) /\
  length (repeat x N) = N /\ forall i, i < N -> nth_error (repeat x N) i = Some x.
Proof.
  intros. unfold v_fill, v_new, v_default. rewrite v_init_const_repeat.
  repeat split; auto. { apply repeat_length. }
  intros. apply nth_error_repeat. auto.
Qed.

Lemma v_index_spec : forall T (v : list T) i,
  (i < length v -> exists x, nth_error v i = Some x /\ v_index v i = Ok x) /\
  (length v <= i -> v_index v i = Panic).
Proof.
  intros. unfold v_index, index. split; intros H.
  - destruct (nth_error v i) eqn:E; [eauto|]. apply nth_error_None in E. lia.
  - rewrite (proj2 (nth_error_None v i)) by lia. reflexivity.
Qed.

Lemma v_index_set_spec : forall T (v : list T) i x,
  (i < length v -> exists w, v_index_set v i x = Ok w /\ length w = length v /\
     nth_error w i = Some x /\ forall j, j <> i -> nth_error w j = nth_error v j) /\
  (length v <= i -> v_index_set v i x = Panic).
Proof.
  intros. unfold v_index_set, index_set. split; intros H.
  - replace (i <? length v) with true by lia. eexists. split; [reflexivity|].
    split; [apply list_set_length|]. split.
    + rewrite nth_error_list_set. replace (i <? length v) with true by lia. rewrite Nat.eqb_refl. reflexivity.
    + intros j Hj. rewrite nth_error_list_set. replace (i =? j) with false by lia. reflexivity.
  - replace (i <? length v) with false by lia. reflexivity.
Qed.

Lemma v_get_unchecked_spec : forall T (v : list T) i,
  i < length v -> v_get_unchecked v i = v_index v i /\
  forall x, v_set_unchecked v i x = v_index_set v i x.
Proof.
  intros. unfold v_get_unchecked, v_index, v_set_unchecked, v_index_set, index_unchecked, index,
    index_set_unchecked, index_set. split.
  - destruct (nth_error v i) eqn:E; auto. apply nth_error_None in E. lia.
  - intros. replace (i <? length v) with true by lia. reflexivity.
Qed.

Lemma v_try_from_slice_spec : forall T N (s : list T),
  (length s = N -> v_try_from_slice N s = Some s) /\ (length s <> N -> v_try_from_slice N s = None).
Proof.
  intros. unfold v_try_from_slice, v_from_array. split; intros H.
  - replace (length s =? N) with true by lia. reflexivity.
  - replace (length s =? N) with false by lia. reflexivity.
Qed.

(* ------------------------------------------------------------------------- *)
Lemma v_try_from_iter_spec : forall S A N (next : next_fn S A) s,
  (forall s' l, v_try_from_iter N next s = Ok (s', Some l) <->
      length l = N /\ yields next s s' l) /\
  (forall s', v_try_from_iter N next s = Ok (s', None) <->
      exists s1 l, length l < N /\ yields next s s1 l /\ next s1 = Ok (s', None)) /\
  (~ returns (v_try_from_iter N next s) ->
      exists s1 l, length l < N /\ yields next s s1 l /\
        fails_like (v_try_from_iter N next s) (next s1)).
Proof.
  intros S A N next s. rewrite v_try_from_iter_pull. split; [|split].
  - intros s' l. split; intros H.
    + apply bind_Ok in H as ((s1 & l1) & P & H). inversion H; subst; clear H.
      destruct (length l1 =? N) eqn:E; [|discriminate]. inversion H2; subst; clear H2.
      apply pull_ok in P. destruct P as [P|(L & _)]; [tauto|]. lia.
    + destruct H as (L & Y). assert (P : pull N next s = Ok (s', l)) by (apply pull_ok; left; auto).
      rewrite P. simpl. replace (length l =? N) with true by lia. reflexivity.
  - intros s'. split; intros H.
    + apply bind_Ok in H as ((s1 & l1) & P & H). inversion H; subst; clear H.
      destruct (length l1 =? N) eqn:E; [discriminate|].
      apply pull_ok in P. destruct P as [(L & _)|(L & s2 & Y & Z)]; [lia|]. eauto.
    + destruct H as (s1 & l & L & Y & Z).
      assert (P : pull N next s = Ok (s', l)) by (apply pull_ok; right; eauto).
      rewrite P. simpl. replace (length l =? N) with false by lia. reflexivity.
  - intros H. destruct (pull_fails next N s) as (s1 & l & L & Y & F).
    { intros (x1 & x2) E. apply H. rewrite E. simpl. eexists. reflexivity. }
    exists s1, l. repeat split; auto. eapply fails_like_trans; [|exact F].
    apply fails_like_bind. intros a E. eapply fails_like_not_ok_l; eauto.
Qed.

Lemma v_try_from_iter_count : forall S A N (next : next_fn S A) s k s' k' o,
  v_try_from_iter N (fun '(s, k) => let! (s1, o) := next s in Ok ((s1, k + 1), o)) (s, k)
    = Ok ((s', k'), o) ->
  k' <= k + N /\ (o <> None -> k' = k + N).
Proof.
  intros S A N next.
  set (cn := fun '(s, k) => let! (s1, o) := next s in Ok ((s1, k + 1), o)).
  assert (Y : forall s k s' k' l, yields cn (s, k) (s', k') l -> k' = k + length l).
  { intros s k s' k' l H. remember (s, k) as x. remember (s', k') as y. revert s k Heqx s' k' Heqy.
    induction H; intros s0 k0 Ex s0' k0' Ey.
    - subst s. inversion Ey; subst. simpl. lia.
    - subst s. cbn in H. apply bind_Ok in H as ((s3 & o3) & E1 & E2). inversion E2; subst.
      specialize (IHyields _ _ eq_refl _ _ eq_refl). simpl. lia. }
  intros s k s' k' o H. destruct o as [l|].
  - apply v_try_from_iter_spec in H. destruct H as (L & H). apply Y in H. split; [lia|]. intros. lia.
  - apply v_try_from_iter_spec in H. destruct H as ((s1 & k1) & l & L & H & E). apply Y in H.
    cbn in E. apply bind_Ok in E as ((s3 & o3) & E1 & E2). inversion E2; subst. split; [lia|]. congruence.
Qed.

Lemma tfi_drops : forall S A N (next : next_fn S A) s dropped r,
  tfi N next s = (dropped, r) ->
  (forall s' l, r = Ok (s', Some l) -> dropped = [] /\ yields next s s' l) /\
  (forall s', r = Ok (s', None) ->
     exists s1, yields next s s1 dropped /\ length dropped < N /\ next s1 = Ok (s', None)) /\
  (~ returns r -> dropped = []).
Proof.
  intros S A N next s dropped r H. rewrite tfi_pull in H.
  destruct (pull N next s) as [(s1 & l1)| | |] eqn:P.
  - apply pull_ok in P. destruct (length l1 =? N) eqn:E; inversion H; subst; clear H.
    + repeat split; auto; intros; try discriminate. inversion H; subst.
      destruct P as [P|(L & _)]; [tauto|lia].
    + repeat split; auto; intros; try discriminate.
      * inversion H; subst. destruct P as [(L & _)|(L & s2 & Y & Z)]; [lia|]. eauto.
      * exfalso. apply H. eexists. reflexivity.
  - inversion H; subst. repeat split; auto; intros; discriminate.
  - inversion H; subst. repeat split; auto; intros; discriminate.
  - inversion H; subst. repeat split; auto; intros; discriminate.
Qed.

Lemma tfi_no_ub : forall S A N (next : next_fn S A) s,
  (forall s', next s' <> UB) -> v_try_from_iter N next s <> UB.
Proof.
  intros S A N next s H E. destruct (v_try_from_iter_spec N next s) as (_ & _ & F).
  destruct F as (s1 & l & _ & _ & F).
  { intros (x & Ex). congruence. }
  rewrite E in F. specialize (H s1). destruct (next s1); simpl in F; tauto.
Qed.

Lemma v_init_no_ub : forall C T N (f : C -> res (C * T)) c,
  (forall c', f c' <> UB) -> v_init N f c <> UB.
Proof.
  intros C T N f c H E. destruct (v_init_spec N f c) as (_ & _ & F).
  destruct F as (k & s1 & l & _ & _ & F).
  { intros (x & Ex). congruence. }
  rewrite E in F. specialize (H s1). destruct (f s1); simpl in F; tauto.
Qed.

(* ------------------------------------------------------------------------- *)
Lemma v_map_st_spec : forall C A B (f : C -> A -> res (C * B)) c v,
  (forall c' w, v_map_st f c v = Ok (c', w) <-> called f c v c' w) /\
  (~ returns (v_map_st f c v) -> exists v1 a v2 c1 bs, v = v1 ++ a :: v2 /\
     called f c v1 c1 bs /\ fails_like (v_map_st f c v) (f c1 a)).
Proof.
  intros. unfold v_map_st. split.
  - intros. apply called_map_st.
  - intros H. apply map_st_fails. intros x E. apply H. exists x. auto.
Qed.

Lemma v_map_in_order : forall A B (f : A -> res B) v, in_order (length v) (at1 f v) (v_map f v).
Proof. intros. rewrite v_map_res. apply in_order_map_res. Qed.

Lemma v_scan_spec : forall C A B N (f : C -> A -> res (C * B)) c v,
  length v = N ->
  (forall c' w, v_scan_st N f c v = Ok (c', w) <-> called f c v c' w) /\
  (~ returns (v_scan_st N f c v) -> exists v1 a v2 c1 bs, v = v1 ++ a :: v2 /\
     called f c v1 c1 bs /\ fails_like (v_scan_st N f c v) (f c1 a)).
Proof. intros. rewrite v_scan_map_st by auto. apply v_map_st_spec. Qed.

Lemma fold_res_map_st : forall C T (f : C -> T -> res C) v c,
  map_st (fun c a => let! c1 := f c a in Ok (c1, tt)) c v =
  let! c' := fold_res f c v in Ok (c', map (fun _ => tt) v).
Proof.
  intros C T f. induction v as [|a v IH]; intros c; simpl; auto.
  destruct (f c a); simpl; auto. rewrite IH. destruct (fold_res f a0 v); reflexivity.
Qed.

Lemma v_fold_spec : forall C T (f : C -> T -> res C) c v,
  v_for_each_st f c v = v_fold f c v /\
  (forall c', v_fold f c v = Ok c' <->
     called (fun c a => let! c1 := f c a in Ok (c1, tt)) c v c' (map (fun _ => tt) v)) /\
  (~ returns (v_fold f c v) -> exists v1 a v2 c1 us, v = v1 ++ a :: v2 /\
     called (fun c a => let! c1 := f c a in Ok (c1, tt)) c v1 c1 us /\
     fails_like (v_fold f c v) (f c1 a)).
Proof.
  intros. unfold v_fold, v_for_each_st. split; [reflexivity|]. split.
  - intros c'. rewrite <- called_map_st, fold_res_map_st. split; intros H.
    + rewrite H. reflexivity.
    + apply bind_Ok in H as (x & E & H). inversion H; subst. auto.
  - intros H. destruct (map_st_fails (fun c a => let! c1 := f c a in Ok (c1, tt)) v c) as
      (v1 & a & v2 & c1 & us & E & Hc & Hf).
    { intros (x1 & x2) E. rewrite fold_res_map_st in E. apply bind_Ok in E as (x & E & _).
      apply H. exists x. auto. }
    exists v1, a, v2, c1, us. repeat split; auto.
    rewrite fold_res_map_st in Hf. destruct (fold_res f c v); simpl in Hf;
      destruct (f c1 a); simpl in *; tauto.
Qed.

Lemma nth_error_combine : forall T U (u : list T) (v : list U) i x y,
  nth_error (combine u v) i = Some (x, y) <-> nth_error u i = Some x /\ nth_error v i = Some y.
Proof.
  induction u as [|a u IH]; intros [|b v] [|i] x y; simpl; try (split; [discriminate|intros (? & ?); discriminate]).
  - split. { intros H; inversion H; auto. } intros (H1 & H2). congruence.
  - apply IH.
Qed.

Lemma v_zip_spec : forall T U N (u : list T) (v : list U),
  length u = N -> length v = N ->
  exists z, v_zip N u v = Ok z /\ length z = N /\
    forall i x y, nth_error z i = Some (x, y) <-> nth_error u i = Some x /\ nth_error v i = Some y.
Proof.
  intros. exists (combine u v). split; [apply v_zip_combine; auto|]. split.
  - rewrite combine_length. lia.
  - intros. apply nth_error_combine.
Qed.

Lemma map_fst_combine : forall T U (u : list T) (v : list U),
  length u = length v -> map fst (combine u v) = u.
Proof. induction u; destruct v; simpl; intros; try discriminate; auto. f_equal. auto. Qed.
Lemma map_snd_combine : forall T U (u : list T) (v : list U),
  length u = length v -> map snd (combine u v) = v.
Proof. induction u; destruct v; simpl; intros; try discriminate; auto. f_equal. auto. Qed.
Lemma combine_fst_snd : forall T U (l : list (T * U)), combine (map fst l) (map snd l) = l.
Proof. induction l as [|(a & b) l IH]; simpl; auto. f_equal. auto. Qed.

Lemma v_unzip_zip : forall T U N (u : list T) (v : list U),
  length u = N -> length v = N ->
  bind (v_zip N u v) (v_unzip N) = Ok (u, v).
Proof.
  intros. rewrite v_zip_combine by auto. simpl. rewrite v_unzip_ok.
  - rewrite map_fst_combine, map_snd_combine by lia. reflexivity.
  - rewrite combine_length. lia.
Qed.

Lemma v_zip_unzip : forall T U N (l : list (T * U)),
  length l = N -> bind (v_unzip N l) (fun '(u, v) => v_zip N u v) = Ok l.
Proof.
  intros. rewrite v_unzip_ok by auto. simpl. rewrite v_zip_combine by (rewrite map_length; auto).
  rewrite combine_fst_snd. reflexivity.
Qed.

Lemma nth_error_seq0 : forall n i, i < n -> nth_error (seq 0 n) i = Some i.
Proof.
  intros n i. assert (forall s, i < n -> nth_error (seq s n) i = Some (s + i)).
  { revert i. induction n; intros i s H; [lia|]. destruct i; simpl; [f_equal; lia|].
    rewrite IHn by lia. f_equal. lia. }
  intros. rewrite H; auto.
Qed.

Lemma v_enumerate_spec : forall T N (v : list T),
  length v = N ->
  exists z, v_enumerate N v = Ok z /\ length z = N /\
    forall i x, nth_error v i = Some x -> nth_error z i = Some (i, x).
Proof.
  intros. exists (combine (seq 0 N) v). split; [apply v_enumerate_combine; auto|]. split.
  - rewrite combine_length, seq_length. lia.
  - intros i x Hx. apply nth_error_combine. split; auto. apply nth_error_seq0.
    rewrite <- H. apply nth_error_Some. congruence.
Qed.

Lemma v_indices_spec : forall N,
  exists z, v_indices N = Ok z /\ length z = N /\ forall i, i < N -> nth_error z i = Some i.
Proof.
  intros. exists (seq 0 N). split; [apply v_indices_seq|]. split; [apply seq_length|apply nth_error_seq0].
Qed.

(* ------------------------------------------------------------------------- *)
Lemma group_next_list : forall A N (l : list A),
  group_next N list_next l =
  Ok (skipn N l, if N <=? length l then Some (firstn N l) else None).
Proof.
  intros. unfold group_next. rewrite v_try_from_iter_pull, pull_list. cbn [bind].
  rewrite firstn_length. destruct (N <=? length l) eqn:E.
  - replace (Nat.min N (length l) =? N) with true by lia. reflexivity.
  - replace (Nat.min N (length l) =? N) with false by lia. reflexivity.
Qed.

Lemma skipn_skipn' : forall A a b (l : list A), skipn a (skipn b l) = skipn (b + a) l.
Proof. intros A a b. induction b; intros l; simpl; auto. destruct l; simpl; auto. apply skipn_nil. Qed.

Lemma state_after_group : forall A N (l : list A) k,
  state_after (group_next N list_next) k l = Ok (skipn (k * N) l).
Proof.
  intros A N l k. revert l. induction k; intros l; simpl; auto.
  rewrite group_next_list. cbn [bind]. rewrite IHk, skipn_skipn'. reflexivity.
Qed.

Lemma group_kth : forall A N (l : list A) k, 0 < N ->
  kth_call (group_next N list_next) k l =
    Ok (if (k + 1) * N <=? length l then Some (firstn N (skipn (k * N) l)) else None).
Proof.
  intros A N l k HN. unfold kth_call. rewrite state_after_group. cbn [bind].
  rewrite group_next_list. cbn [bind]. rewrite skipn_length.
  destruct ((k + 1) * N <=? length l) eqn:E.
  - replace (N <=? length l - k * N) with true by nia. reflexivity.
  - replace (N <=? length l - k * N) with false by nia. reflexivity.
Qed.

Lemma nth_error_firstn_lt : forall A n (l : list A) i, i < n -> nth_error (firstn n l) i = nth_error l i.
Proof. induction n; intros l i H; [lia|]. destruct l; auto. destruct i; simpl; auto. apply IHn. lia. Qed.
Lemma nth_error_skipn : forall A n (l : list A) i, nth_error (skipn n l) i = nth_error l (n + i).
Proof. induction n; intros l i; auto. destruct l; simpl; auto. destruct i; auto. Qed.

Lemma group_kth_elements : forall A N (l : list A) k g, 0 < N ->
  kth_call (group_next N list_next) k l = Ok (Some g) ->
  k < length l / N /\ length g = N /\
  forall i, i < N -> nth_error g i = nth_error l (k * N + i).
Proof.
  intros A N l k g HN H. rewrite group_kth in H by auto.
  destruct ((k + 1) * N <=? length l) eqn:E; inversion H; subst; clear H. split; [|split].
  - assert (k + 1 <= length l / N); [|lia]. apply Nat.div_le_lower_bound; nia.
  - rewrite firstn_length, skipn_length. nia.
  - intros. rewrite nth_error_firstn_lt, nth_error_skipn by auto. reflexivity.
Qed.

Lemma group_count : forall A N (l : list A) k, 0 < N ->
  (k < length l / N -> exists g, kth_call (group_next N list_next) k l = Ok (Some g)) /\
  (length l / N <= k -> kth_call (group_next N list_next) k l = Ok None /\
     state_after (group_next N list_next) (S k) l = Ok []).
Proof.
  intros A N l k HN. rewrite group_kth, state_after_group by auto.
  pose proof (Nat.div_mod (length l) N ltac:(lia)) as D.
  pose proof (Nat.mod_upper_bound (length l) N ltac:(lia)) as U. split; intros H.
  - replace ((k + 1) * N <=? length l) with true by nia. eauto.
  - replace ((k + 1) * N <=? length l) with false by nia. split; auto.
    rewrite skipn_all2 by nia. reflexivity.
Qed.

Lemma group_zero : forall S A (next : next_fn S A) s k,
  kth_call (group_next 0 next) k s = Ok (Some []) /\ state_after (group_next 0 next) k s = Ok s.
Proof.
  intros S A next s k. assert (G : forall s, group_next 0 next s = Ok (s, Some [])) by reflexivity.
  assert (E : state_after (group_next 0 next) k s = Ok s).
  { induction k; simpl; auto. }
  split; auto. unfold kth_call. rewrite E. reflexivity.
Qed.

(* ------------------------------------------------------------------------- *)
Lemma v_sum_spec : forall T (o : Ops T) (v : list T),
  (v = [] -> v_sum o v = Panic) /\
  (forall x t, v = x :: t -> v_sum o v = fold_res (o_add o) x t).
Proof. intros. split; intros; subst; reflexivity. Qed.

(** Strictness helper: [lt a b] and not [lt c b] give [lt a c]. *)
Lemma swo_lt_ge : forall T (lt : T -> T -> bool) a b c, strict_weak_order lt ->
  lt a b = true -> lt c b = false -> lt a c = true.
Proof.
  intros T lt a b c (Irr & Tr & Neg) H1 H2. destruct (lt a c) eqn:E; auto.
  rewrite (Neg a c b E H2) in H1. discriminate.
Qed.
Lemma swo_ge_lt : forall T (lt : T -> T -> bool) a b c, strict_weak_order lt ->
  lt a b = false -> lt a c = true -> lt b c = true.
Proof.
  intros T lt a b c (Irr & Tr & Neg) H1 H2. destruct (lt b c) eqn:E; auto.
  rewrite (Neg a b c H1 E) in H2. discriminate.
Qed.
Lemma swo_asym : forall T (lt : T -> T -> bool) a b, strict_weak_order lt ->
  lt a b = true -> lt b a = false.
Proof.
  intros T lt a b (Irr & Tr & Neg) H. destruct (lt b a) eqn:E; auto.
  specialize (Tr a b a H E). rewrite Irr in Tr. discriminate.
Qed.

Lemma max_fold : forall T (lt : T -> T -> bool), strict_weak_order lt ->
  forall t pre m post,
    (forall y, In y pre -> lt y m = true) -> (forall y, In y post -> lt m y = false) ->
  exists m' pre' post',
    fold_left (fun x y => if lt x y then y else x) t m = m' /\
    pre ++ m :: post ++ t = pre' ++ m' :: post' /\
    (forall y, In y pre' -> lt y m' = true) /\ (forall y, In y post' -> lt m' y = false).
Proof.
  intros T lt W. pose proof W as (Irr & Tr & Neg).
  induction t as [|y t IH]; intros pre m post H1 H2; simpl.
  - exists m, pre, post. rewrite app_nil_r. auto.
  - destruct (lt m y) eqn:E.
    + destruct (IH (pre ++ m :: post) y []) as (m' & pre' & post' & F & L & P1 & P2).
      * intros z Hz. apply in_app_or in Hz. destruct Hz as [Hz|[<-|Hz]]; auto.
        -- eapply Tr; eauto.
        -- apply swo_ge_lt with (a := m); auto.
      * intros z [].
      * exists m', pre', post'. repeat split; auto.
        rewrite <- L. rewrite <- app_assoc. simpl. reflexivity.
    + destruct (IH pre m (post ++ [y])) as (m' & pre' & post' & F & L & P1 & P2); auto.
      * intros z Hz. apply in_app_or in Hz. destruct Hz as [Hz|[<-|[]]]; auto.
      * exists m', pre', post'. repeat split; auto.
        rewrite <- L. rewrite <- app_assoc. reflexivity.
Qed.

Lemma min_fold : forall T (lt : T -> T -> bool), strict_weak_order lt ->
  forall t pre m post,
    (forall y, In y pre -> lt y m = false) -> (forall y, In y post -> lt m y = true) ->
  exists m' pre' post',
    fold_left (fun x y => if lt x y then x else y) t m = m' /\
    pre ++ m :: post ++ t = pre' ++ m' :: post' /\
    (forall y, In y pre' -> lt y m' = false) /\ (forall y, In y post' -> lt m' y = true).
Proof.
  intros T lt W. pose proof W as (Irr & Tr & Neg).
  induction t as [|y t IH]; intros pre m post H1 H2; simpl.
  - exists m, pre, post. rewrite app_nil_r. auto.
  - destruct (lt m y) eqn:E.
    + destruct (IH pre m (post ++ [y])) as (m' & pre' & post' & F & L & P1 & P2); auto.
      * intros z Hz. apply in_app_or in Hz. destruct Hz as [Hz|[<-|[]]]; auto.
      * exists m', pre', post'. repeat split; auto.
        rewrite <- L. rewrite <- app_assoc. reflexivity.
    + destruct (IH (pre ++ m :: post) y []) as (m' & pre' & post' & F & L & P1 & P2).
      * intros z Hz. apply in_app_or in Hz. destruct Hz as [Hz|[<-|Hz]]; auto.
        -- eapply Neg; eauto.
        -- eapply Neg; [|exact E]. apply swo_asym; auto.
      * intros z [].
      * exists m', pre', post'. repeat split; auto.
        rewrite <- L. rewrite <- app_assoc. simpl. reflexivity.
Qed.

Lemma v_max_fold : forall T (o : Ops T) x t,
  v_max o (x :: t) = Ok (fold_left (fun x y => if o_lt o x y then y else x) t x).
Proof. intros. unfold v_max. rewrite v_fold_first_cons, fold_res_ok. reflexivity. Qed.
Lemma v_min_fold : forall T (o : Ops T) x t,
  v_min o (x :: t) = Ok (fold_left (fun x y => if o_lt o x y then x else y) t x).
Proof. intros. unfold v_min. rewrite v_fold_first_cons, fold_res_ok. reflexivity. Qed.

Lemma v_max_split : forall T (o : Ops T) (v : list T), strict_weak_order (o_lt o) -> v <> [] ->
  exists m l1 l2, v_max o v = Ok m /\ v = l1 ++ m :: l2 /\
     (forall y, In y l1 -> o_lt o y m = true) /\ (forall y, In y l2 -> o_lt o m y = false).
Proof.
  intros T o v W Hv. destruct v as [|x t]; [congruence|].
  destruct (max_fold W t [] x []) as (m & l1 & l2 & F & L & H1 & H2); try (intros z []).
  exists m, l1, l2. rewrite v_max_fold, F. auto.
Qed.
Lemma v_min_split : forall T (o : Ops T) (v : list T), strict_weak_order (o_lt o) -> v <> [] ->
  exists m l1 l2, v_min o v = Ok m /\ v = l1 ++ m :: l2 /\
     (forall y, In y l1 -> o_lt o y m = false) /\ (forall y, In y l2 -> o_lt o m y = true).
Proof.
  intros T o v W Hv. destruct v as [|x t]; [congruence|].
  destruct (min_fold W t [] x []) as (m & l1 & l2 & F & L & H1 & H2); try (intros z []).
  exists m, l1, l2. rewrite v_min_fold, F. auto.
Qed.

Lemma v_max_spec : forall T (o : Ops T) (v : list T), strict_weak_order (o_lt o) ->
  (v = [] -> v_max o v = Panic) /\
  (v <> [] -> exists m, v_max o v = Ok m /\ In m v /\ forall y, In y v -> o_lt o m y = false).
Proof.
  intros T o v W. split; [intros ->; reflexivity|]. intros Hv.
  destruct (v_max_split o W Hv) as (m & l1 & l2 & E & -> & H1 & H2).
  exists m. split; auto. split; [apply in_or_app; right; left; auto|].
  intros y Hy. apply in_app_or in Hy. destruct Hy as [Hy|[<-|Hy]]; auto.
  - apply swo_asym; auto.
  - apply W.
Qed.

Lemma v_min_spec : forall T (o : Ops T) (v : list T), strict_weak_order (o_lt o) ->
  (v = [] -> v_min o v = Panic) /\
  (v <> [] -> exists m, v_min o v = Ok m /\ In m v /\ forall y, In y v -> o_lt o y m = false).
Proof.
  intros T o v W. split; [intros ->; reflexivity|]. intros Hv.
  destruct (v_min_split o W Hv) as (m & l1 & l2 & E & -> & H1 & H2).
  exists m. split; auto. split; [apply in_or_app; right; left; auto|].
  intros y Hy. apply in_app_or in Hy. destruct Hy as [Hy|[<-|Hy]]; auto.
  - apply W.
  - apply swo_asym; auto.
Qed.

Lemma v_ties_spec : forall T (o : Ops T) (v : list T), strict_weak_order (o_lt o) -> v <> [] ->
  (exists m l1 l2, v_max o v = Ok m /\ v = l1 ++ m :: l2 /\
     (forall y, In y l1 -> o_lt o y m = true)) /\
  (exists m l1 l2, v_min o v = Ok m /\ v = l1 ++ m :: l2 /\
     (forall y, In y l2 -> o_lt o m y = true)).
Proof.
  intros T o v W Hv. split.
  - destruct (v_max_split o W Hv) as (m & l1 & l2 & E & -> & H1 & H2). exists m, l1, l2. auto.
  - destruct (v_min_split o W Hv) as (m & l1 & l2 & E & -> & H1 & H2). exists m, l1, l2. auto.
Qed.

Lemma swo_nat : strict_weak_order Nat.ltb.
Proof. repeat split; intros; lia. Qed.

(* ------------------------------------------------------------------------- *)
Lemma v_zip_map_in_order : forall A B C N (op : A -> B -> res C) u v,
  length u = N -> length v = N -> in_order N (at2 op u v) (v_zip_map N op u v).
Proof.
  intros. rewrite v_zip_map_res by auto. rewrite <- H. apply in_order_map2_res. lia.
Qed.

Lemma v_binary_spec : forall T (o : Ops T) N u v, length u = N -> length v = N ->
  in_order N (at2 (o_add o) u v) (v_add o N u v) /\
  in_order N (at2 (o_sub o) u v) (v_sub o N u v) /\
  in_order N (at2 (o_mul o) u v) (v_mul o N u v) /\
  in_order N (at2 (o_div o) u v) (v_div o N u v) /\
  in_order N (at2 (o_rem o) u v) (v_rem o N u v).
Proof. intros. repeat split; apply v_zip_map_in_order; auto. Qed.

Lemma v_unary_spec : forall T (o : Ops T) v a,
  in_order (length v) (at1 (o_neg o) v) (v_neg o v) /\
  in_order (length v) (at1 (fun x => o_mul o x a) v) (v_smul o v a) /\
  in_order (length v) (at1 (fun x => o_div o x a) v) (v_sdiv o v a) /\
  in_order (length v) (at1 (fun x => o_rem o x a) v) (v_srem o v a) /\
  v_rsmul o a v = v_smul o v a.
Proof. intros. repeat split; apply v_map_in_order. Qed.

(* ------------------------------------------------------------------------- *)
Lemma v_assign_map2 : forall T U (op opa : T -> U -> res T) u v,
  (forall x y, opa x y = op x y) -> length u = length v ->
  (forall w, map2_res op u v = Ok w <-> v_assign opa u v = (w, Ok tt)) /\
  ((forall w, map2_res op u v <> Ok w) ->
     exists i w, i < length u /\ v_assign opa u v = (w, refail (map2_res op u v)) /\
       length w = length u /\
       (forall j, j < i -> exists z, at2 op u v j = Ok z /\ nth_error w j = Some z) /\
       (forall j, i <= j -> nth_error w j = nth_error u j) /\
       fails_like (map2_res op u v) (at2 op u v i)).
Proof.
  intros T U op opa u v E. revert v. induction u as [|x u IH]; intros [|y v] L; try discriminate L.
  - simpl. split.
    + intros w. split; intros H; inversion H; auto.
    + intros H. exfalso. eapply H. reflexivity.
  - injection L as L. specialize (IH v L). destruct IH as (IH1 & IH2). simpl. rewrite E.
    destruct (ok_or_fails (op x y)) as [(z & Hz)|Hz].
    + rewrite Hz. simpl. split.
      * intros w. split; intros H.
        -- apply bind_Ok in H as (l & H & H'). inversion H'; subst. apply IH1 in H. rewrite H. reflexivity.
        -- destruct (v_assign opa u v) as (l & r) eqn:A. inversion H; subst.
           assert (M : map2_res op u v = Ok l) by (apply IH1; reflexivity). rewrite M. reflexivity.
      * intros H. destruct IH2 as (i & w & Hi & A & Lw & B1 & B2 & F).
        { intros w M. rewrite M in H. eapply H. reflexivity. }
        exists (S i), (z :: w). rewrite A. split; [lia|]. split.
        { destruct (map2_res op u v); reflexivity. }
        split; [simpl; auto|]. split; [|split].
        -- intros [|j] Hj; [exists z; auto|]. apply (B1 j). lia.
        -- intros [|j] Hj; [lia|]. apply (B2 j). lia.
        -- change (at2 op (x :: u) (y :: v) (S i)) with (at2 op u v i).
           destruct (map2_res op u v); simpl in *; auto.
    + split.
      * intros w. split; intros H.
        -- apply bind_Ok in H as (z & H & _). exfalso. eapply Hz; eauto.
        -- exfalso. destruct (op x y); try (inversion H; fail). eapply Hz; reflexivity.
      * intros _. exists 0, (x :: u). split; [simpl; lia|]. split.
        { destruct (op x y); try reflexivity. exfalso. eapply Hz; reflexivity. }
        split; [reflexivity|]. split; [intros; lia|]. split; [auto|].
        unfold at2. simpl. destruct (op x y); simpl; auto. exfalso. eapply Hz; reflexivity.
Qed.

Lemma v_assign_spec : forall T U (op opa : T -> U -> res T) N u v,
  (forall x y, opa x y = op x y) -> length u = N -> length v = N ->
  (forall w, v_zip_map N op u v = Ok w <-> v_assign opa u v = (w, Ok tt)) /\
  (~ returns (v_zip_map N op u v) ->
     exists i w, i < N /\ v_assign opa u v = (w, refail (v_zip_map N op u v)) /\ length w = N /\
       (forall j, j < i -> exists z, at2 op u v j = Ok z /\ nth_error w j = Some z) /\
       (forall j, i <= j -> nth_error w j = nth_error u j) /\
       fails_like (v_zip_map N op u v) (at2 op u v i)).
Proof.
  intros T U op opa N u v E Hu Hv. rewrite v_zip_map_res by auto.
  destruct (@v_assign_map2 T U op opa u v E) as (H1 & H2); [lia|]. rewrite Hu in H2.
  split; auto. intros H. apply H2. intros w M. apply H. exists w. auto.
Qed.

Lemma v_assign_scalar_repeat : forall T U (opa : T -> U -> res T) u a,
  v_assign_scalar opa u a = v_assign opa u (repeat a (length u)).
Proof.
  induction u as [|x u IH]; intros a; simpl; auto. destruct (opa x a); auto. rewrite IH. reflexivity.
Qed.

Lemma map_res_repeat : forall T U V (op : T -> U -> res V) u a,
  map_res (fun x => op x a) u = map2_res op u (repeat a (length u)).
Proof. induction u; intros; simpl; auto. destruct (op a a0); simpl; auto. rewrite IHu. reflexivity. Qed.

Lemma v_assign_scalar_spec : forall T U (op opa : T -> U -> res T) u a,
  (forall x y, opa x y = op x y) ->
  (forall w, v_map (fun x => op x a) u = Ok w <-> v_assign_scalar opa u a = (w, Ok tt)) /\
  (~ returns (v_map (fun x => op x a) u) ->
     exists i w, i < length u /\
       v_assign_scalar opa u a = (w, refail (v_map (fun x => op x a) u)) /\ length w = length u /\
       (forall j, j < i -> exists z, at1 (fun x => op x a) u j = Ok z /\ nth_error w j = Some z) /\
       (forall j, i <= j -> nth_error w j = nth_error u j) /\
       fails_like (v_map (fun x => op x a) u) (at1 (fun x => op x a) u i)).
Proof.
  intros T U op opa u a E.
  assert (A : forall i, i < length u -> at1 (fun x => op x a) u i = at2 op u (repeat a (length u)) i).
  { intros i Hi. unfold at1, at2. rewrite nth_error_repeat by auto. destruct (nth_error u i); auto. }
  rewrite v_map_res, map_res_repeat, v_assign_scalar_repeat.
  destruct (@v_assign_map2 T U op opa u (repeat a (length u)) E) as (H1 & H2).
  { rewrite repeat_length. auto. }
  split; auto. intros H. destruct H2 as (i & w & Hi & B & L & C & D & F).
  { intros w M. apply H. exists w. auto. }
  exists i, w. repeat split; auto.
  - intros j Hj. rewrite A by lia. auto.
  - rewrite A by lia. auto.
Qed.

(* ------------------------------------------------------------------------- *)
Lemma v_zero_spec : forall T (o : Ops T) N,
  exists z, v_zero o N = Ok z /\ length z = N /\ forall i, i < N -> nth_error z i = Some (o_zero o).
Proof.
  intros. exists (repeat (o_zero o) N). split; [apply v_zero_repeat|]. split; [apply repeat_length|].
  intros. apply nth_error_repeat. auto.
Qed.

Lemma v_is_zero_spec : forall T (o : Ops T) v,
  v_is_zero o v = true <-> forall i x, nth_error v i = Some x -> o_is_zero o x = true.
Proof.
  intros. unfold v_is_zero. rewrite forallb_forall. split; intros H.
  - intros i x E. apply H. eapply nth_error_In; eauto.
  - intros x Hx. apply In_nth_error in Hx. destruct Hx as (i & E). eauto.
Qed.

Lemma map2_res_returns : forall A B C (op : A -> B -> res C) u v,
  length u = length v ->
  (forall i x y, nth_error u i = Some x -> nth_error v i = Some y -> exists z, op x y = Ok z) ->
  exists l, map2_res op u v = Ok l.
Proof.
  induction u as [|x u IH]; intros [|y v] L H; try discriminate; [exists []; auto|].
  destruct (H 0 x y eq_refl eq_refl) as (z & Hz). simpl. rewrite Hz. simpl.
  destruct (IH v) as (l & Hl); auto. { intros i a b Ha Hb. exact (H (S i) a b Ha Hb). }
  rewrite Hl. simpl. eauto.
Qed.

Lemma fold_columns : forall T (op : T -> T -> res T) N vs z r, Forall (fun v => length v = N) vs ->
  length z = N ->
  (fold_res (v_zip_map N op) z vs = Ok r <-> length r = N /\
     forall i x z0, nth_error r i = Some x -> nth_error z i = Some z0 ->
       fold_res (fun s v => bind (index v i) (op s)) z0 vs = Ok x).
Proof.
  intros T op N vs. induction vs as [|v vs IH]; intros z r F Hz; simpl.
  - split.
    + intros H; inversion H; subst. split; auto. intros. congruence.
    + intros (L & H). f_equal. apply nth_error_ext. intros i.
      destruct (nth_error z i) eqn:E1, (nth_error r i) eqn:E2; auto.
      * specialize (H i t0 t E2 E1). congruence.
      * exfalso. apply nth_error_None in E2. assert (i < length z) by (apply nth_error_Some; congruence). lia.
      * exfalso. apply nth_error_None in E1. assert (i < length r) by (apply nth_error_Some; congruence). lia.
  - apply Forall_cons_iff in F as (Fv & Fvs). rewrite v_zip_map_res by auto. split.
    + intros H. apply bind_Ok in H as (z1 & Hz1 & H).
      pose proof (map2_res_length op z v (eq_trans Hz (eq_sym Fv)) Hz1) as L1.
      apply IH in H; auto; try lia. destruct H as (L & H). split; auto.
      intros i x z0 Hx Hz0.
      apply map2_res_ok_iff in Hz1; [|lia]. destruct Hz1 as (_ & Hz1).
      destruct (nth_error v i) as [y|] eqn:Hy.
      2:{ exfalso. apply nth_error_None in Hy. assert (i < length z) by (apply nth_error_Some; congruence). lia. }
      destruct (Hz1 i z0 y Hz0 Hy) as (w & Hw & Hn). unfold index. rewrite Hy. simpl. rewrite Hw. simpl.
      eapply H; eauto.
    + intros (L & H).
      assert (C : forall i x y, nth_error z i = Some x -> nth_error v i = Some y ->
                exists w x1, op x y = Ok w /\ nth_error r i = Some x1 /\
                  fold_res (fun s v => bind (index v i) (op s)) w vs = Ok x1).
      { intros i x y Hx Hy. destruct (nth_error r i) as [x1|] eqn:Er.
        2:{ exfalso. apply nth_error_None in Er. assert (i < length z) by (apply nth_error_Some; congruence). lia. }
        specialize (H i x1 x Er Hx). unfold index in H. rewrite Hy in H. simpl in H.
        apply bind_Ok in H as (w & Hw & H). exists w, x1. auto. }
      destruct (@map2_res_returns _ _ _ op z v) as (z1 & Hz1); [lia| |].
      { intros i x y Hx Hy. destruct (C i x y Hx Hy) as (w & _ & Hw & _). eauto. }
      rewrite Hz1. simpl.
      assert (L1 : length z1 = length z) by (eapply map2_res_length; [|eauto]; lia).
      apply IH; auto; [lia|]. split; auto. intros i x z0 Hx Hz0.
      assert (Hi : i < length z) by (rewrite <- L1; apply nth_error_Some; congruence).
      destruct (nth_error z i) as [a|] eqn:Ea; [|apply nth_error_None in Ea; lia].
      destruct (nth_error v i) as [b|] eqn:Eb; [|apply nth_error_None in Eb; lia].
      destruct (C i a b Ea Eb) as (w & x1 & Hw & Hr & Hf).
      apply map2_res_ok_iff in Hz1; [|lia]. destruct Hz1 as (_ & Hz1).
      destruct (Hz1 i a b Ea Eb) as (w' & Hw' & Hn). congruence.
Qed.

Lemma v_iter_sum_product_spec : forall T (o : Ops T) N vs r, Forall (fun v => length v = N) vs ->
  (v_iter_sum o N vs = Ok r <-> length r = N /\
     forall i x, nth_error r i = Some x ->
       fold_res (fun s v => bind (index v i) (o_add o s)) (o_zero o) vs = Ok x) /\
  (v_iter_product o N vs = Ok r <-> length r = N /\
     forall i x, nth_error r i = Some x ->
       fold_res (fun s v => bind (index v i) (o_mul o s)) (o_one o) vs = Ok x).
Proof.
  intros T o N vs r F.
  assert (G : forall op z0, fold_res (v_zip_map N op) (repeat z0 N) vs = Ok r <-> length r = N /\
     forall i x, nth_error r i = Some x ->
       fold_res (fun s v => bind (index v i) (op s)) z0 vs = Ok x).
  { intros op z0. rewrite fold_columns by (auto; apply repeat_length). split; intros (L & H); split; auto.
    - intros i x Hx. apply H; auto. apply nth_error_repeat.
      rewrite <- L. apply nth_error_Some. congruence.
    - intros i x z1 Hx Hz. replace z1 with z0; auto.
      assert (i < N) by (rewrite <- L; apply nth_error_Some; congruence).
      rewrite nth_error_repeat in Hz by auto. congruence. }
  unfold v_iter_sum, v_iter_product. rewrite v_zero_repeat, v_init_const_repeat. split; apply G.
Qed.

Lemma v_iter_empty : forall T (o : Ops T) N,
  v_iter_sum o N [] = Ok (repeat (o_zero o) N) /\ v_iter_product o N [] = Ok (repeat (o_one o) N).
Proof.
  intros. unfold v_iter_sum, v_iter_product. rewrite v_zero_repeat, v_init_const_repeat. auto.
Qed.

(* ------------------------------------------------------------------------- *)
Lemma v_bit_spec : forall T (op : T -> T -> res T) (bnot : T -> res T) N u v,
  length u = N -> length v = N ->
  in_order N (at2 op u v) (v_bitop N op u v) /\ in_order N (at1 bnot u) (v_not bnot u).
Proof.
  intros. split; [apply v_zip_map_in_order; auto|]. rewrite <- H. apply v_map_in_order.
Qed.

Lemma v_any_all_spec : forall v : list bool,
  (v_all v = true <-> forall i b, nth_error v i = Some b -> b = true) /\
  (v_any v = true <-> exists i, nth_error v i = Some true) /\
  v_all [] = true /\ v_any [] = false.
Proof.
  intros v. unfold v_all, v_any. rewrite forallb_forall, existsb_exists. repeat split.
  - intros H i b E. apply H. eapply nth_error_In; eauto.
  - intros H x Hx. apply In_nth_error in Hx. destruct Hx as (i & E). eauto.
  - intros (x & Hx & E). subst x. apply In_nth_error in Hx. auto.
  - intros (i & E). exists true. split; auto. eapply nth_error_In; eauto.
Qed.

Lemma v_compare_spec : forall T (o : Ops T) N u v, length u = N -> length v = N ->
  exists eqs nes lts les gts ges,
    v_veq o N u v = Ok eqs /\ v_vne o N u v = Ok nes /\ v_vlt o N u v = Ok lts /\
    v_vle o N u v = Ok les /\ v_vgt o N u v = Ok gts /\ v_vge o N u v = Ok ges /\
    length eqs = N /\ length nes = N /\ length lts = N /\ length les = N /\
    length gts = N /\ length ges = N /\
    forall i x y, nth_error u i = Some x -> nth_error v i = Some y ->
      nth_error eqs i = Some (o_eq o x y) /\ nth_error nes i = Some (negb (o_eq o x y)) /\
      nth_error lts i = Some (o_lt o x y) /\ nth_error les i = Some (o_le o x y) /\
      nth_error gts i = Some (o_lt o y x) /\ nth_error ges i = Some (o_le o y x).
Proof.
  intros T o N u v Hu Hv. unfold v_veq, v_vne, v_vlt, v_vle, v_vgt, v_vge.
  rewrite !v_zip_map_pure by auto. do 6 eexists. do 6 (split; [reflexivity|]).
  do 6 (split; [apply map2_length'; auto|]).
  intros i x y Hx Hy. rewrite !nth_error_map2, Hx, Hy. repeat split.
Qed.

Lemma v_eq_all_map2 : forall T (o : Ops T) u v, length u = length v ->
  v_all (map2 (o_eq o) u v) = v_eq o u v.
Proof.
  induction u as [|x u IH]; intros [|y v] L; try discriminate; auto. simpl. f_equal. apply IH. auto.
Qed.

Lemma v_eq_spec : forall T (o : Ops T) N u v, length u = N -> length v = N ->
  rmap v_all (v_veq o N u v) = Ok (v_eq o u v) /\
  rmap v_any (v_vne o N u v) = Ok (negb (v_eq o u v)) /\
  (v_eq o u v = true <->
     forall i x y, nth_error u i = Some x -> nth_error v i = Some y -> o_eq o x y = true).
Proof.
  intros T o N u v Hu Hv. unfold v_veq, v_vne. rewrite !v_zip_map_pure by auto. unfold rmap. simpl.
  rewrite v_eq_all_map2 by lia. split; [reflexivity|]. split.
  - f_equal. subst N. revert v Hv. induction u as [|x u IH]; intros [|y v] L; try discriminate; auto.
    simpl. rewrite negb_andb. f_equal. apply IH. auto.
  - rewrite <- v_eq_all_map2 by lia. destruct (v_any_all_spec (map2 (o_eq o) u v)) as (A & _). rewrite A.
    split; intros H.
    + intros i x y Hx Hy. apply (H i). rewrite nth_error_map2, Hx, Hy. reflexivity.
    + intros i b E. rewrite nth_error_map2 in E.
      destruct (nth_error u i) eqn:E1; [|discriminate]. destruct (nth_error v i) eqn:E2; [|discriminate].
      inversion E; subst. eauto.
Qed.

Lemma v_de_morgan : forall v : list bool,
  rmap v_all (v_not (ok1 negb) v) = Ok (negb (v_any v)) /\
  rmap v_any (v_not (ok1 negb) v) = Ok (negb (v_all v)).
Proof.
  intros v. unfold v_not. rewrite v_map_pure. unfold rmap. simpl. split; f_equal.
  - induction v as [|b v IH]; simpl; auto. unfold v_all, v_any in *. rewrite IH. destruct b; reflexivity.
  - induction v as [|b v IH]; simpl; auto. unfold v_all, v_any in *. rewrite IH. destruct b; reflexivity.
Qed.

(* ------------------------------------------------------------------------- *)
Lemma map2_res_ok_on : forall A B C (op : A -> B -> res C) (g : A -> B -> C) u v,
  (forall x y, In y v -> op x y = Ok (g x y)) -> map2_res op u v = Ok (map2 g u v).
Proof.
  induction u as [|x u IH]; intros [|y v] H; auto. simpl. rewrite H by (left; auto). simpl.
  rewrite IH; auto. intros. apply H. right; auto.
Qed.

Lemma v_floor_spec : forall N u v, length u = N -> length v = N -> ~ In 0%Z v ->
  exists d m, v_div_floor N z_div_floor u v = Ok d /\ v_mod_floor N z_mod_floor u v = Ok m /\
    v_div_mod_floor N z_div_mod_floor u v = Ok (d, m) /\ length d = N /\ length m = N /\
    forall i x y, nth_error u i = Some x -> nth_error v i = Some y ->
      exists q r, nth_error d i = Some q /\ nth_error m i = Some r /\
        (x = q * y + r /\ (r = 0 \/ Z.sgn r = Z.sgn y) /\ Z.abs r < Z.abs y)%Z.
Proof.
  intros N u v Hu Hv H0. exists (map2 Z.div u v), (map2 Z.modulo u v).
  assert (NZ : forall y, In y v -> Z.eqb y 0 = false).
  { intros y Hy. apply Z.eqb_neq. intros ->. auto. }
  unfold v_div_floor, v_mod_floor, v_div_mod_floor. rewrite !v_zip_map_res by auto.
  rewrite (@map2_res_ok_on _ _ _ z_div_floor Z.div) by (intros; unfold z_div_floor; rewrite NZ; auto).
  rewrite (@map2_res_ok_on _ _ _ z_mod_floor Z.modulo) by (intros; unfold z_mod_floor; rewrite NZ; auto).
  rewrite (@map2_res_ok_on _ _ _ z_div_mod_floor (fun x y => (Z.div x y, Z.modulo x y)))
    by (intros; unfold z_div_mod_floor; rewrite NZ; auto).
  split; auto. split; auto. split.
  - simpl. rewrite v_unzip_ok by (apply map2_length'; auto). rewrite !map2_combine, !map_map. reflexivity.
  - split; [apply map2_length'; auto|]. split; [apply map2_length'; auto|].
    intros i x y Hx Hy. exists (x / y)%Z, (x mod y)%Z. rewrite !nth_error_map2, Hx, Hy.
    split; auto. split; auto.
    assert (y <> 0)%Z by (intros ->; apply H0; eapply nth_error_In; eauto).
    pose proof (Z.div_mod x y H). split; [lia|].
    destruct (Z.lt_ge_cases 0 y).
    + pose proof (Z.mod_pos_bound x y H2). split; lia.
    + pose proof (Z.mod_neg_bound x y ltac:(lia)). split; lia.
Qed.

Lemma map2_res_panic : forall A B C (op : A -> B -> res C) u v,
  length u = length v -> (forall x y, op x y = Panic \/ exists z, op x y = Ok z) ->
  (exists i x y, nth_error u i = Some x /\ nth_error v i = Some y /\ op x y = Panic) ->
  map2_res op u v = Panic.
Proof.
  induction u as [|x u IH]; intros [|y v] L H (i & a & b & Ha & Hb & E); try discriminate.
  - destruct i; discriminate.
  - simpl. destruct (H x y) as [P|(z & P)]; rewrite P; auto. simpl.
    destruct i as [|i]. { simpl in *. congruence. }
    rewrite IH; auto. exists i, a, b. auto.
Qed.

Lemma v_floor_zero : forall N u v, length u = N -> length v = N -> In 0%Z v ->
  v_div_floor N z_div_floor u v = Panic /\ v_mod_floor N z_mod_floor u v = Panic /\
  v_div_mod_floor N z_div_mod_floor u v = Panic.
Proof.
  intros N u v Hu Hv H0. unfold v_div_floor, v_mod_floor, v_div_mod_floor.
  rewrite !v_zip_map_res by auto. apply In_nth_error in H0. destruct H0 as (i & Hi).
  destruct (nth_error u i) as [x|] eqn:Hx.
  2:{ apply nth_error_None in Hx. assert (i < length v) by (apply nth_error_Some; congruence). lia. }
  repeat split.
  - apply map2_res_panic; [lia| |exists i, x, 0%Z; auto].
    intros a b. unfold z_div_floor. destruct (Z.eqb b 0); eauto.
  - apply map2_res_panic; [lia| |exists i, x, 0%Z; auto].
    intros a b. unfold z_mod_floor. destruct (Z.eqb b 0); eauto.
  - rewrite map2_res_panic; [reflexivity|lia| |exists i, x, 0%Z; auto].
    intros a b. unfold z_div_mod_floor. destruct (Z.eqb b 0); eauto.
Qed.

(* ------------------------------------------------------------------------- *)
Lemma v_accessors : forall T (v : list T),
  (2 <= length v -> v_x v = v_index v 0 /\ v_y v = v_index v 1 /\
     forall a, v_x_set v a = v_index_set v 0 a /\ v_y_set v a = v_index_set v 1 a) /\
  (3 <= length v -> v_z v = v_index v 2 /\ forall a, v_z_set v a = v_index_set v 2 a) /\
  (4 <= length v -> v_w v = v_index v 3 /\ forall a, v_w_set v a = v_index_set v 3 a).
Proof.
  intros T v. repeat split; intros; try (apply v_get_unchecked_spec; lia).
Qed.

Lemma v_tuple_round_trip : forall T (v : list T),
  (length v = 2 -> rmap (@v_from_tuple2 T) (v_into_tuple2 v) = Ok v) /\
  (length v = 3 -> rmap (@v_from_tuple3 T) (v_into_tuple3 v) = Ok v) /\
  (length v = 4 -> rmap (@v_from_tuple4 T) (v_into_tuple4 v) = Ok v).
Proof.
  intros T v. repeat split; intros H.
  - destruct v as [|a [|b [|c v]]]; try discriminate. reflexivity.
  - destruct v as [|a [|b [|c [|d v]]]]; try discriminate. reflexivity.
  - destruct v as [|a [|b [|c [|d [|e v]]]]]; try discriminate. reflexivity.
Qed.

(* ------------------------------------------------------------------------- *)
Local Open Scope string_scope.

Lemma append_assoc : forall a b c : string, a ++ (b ++ c) = (a ++ b) ++ c.
Proof. induction a; intros; simpl; auto. f_equal. auto. Qed.
Lemma append_nil : forall a : string, a ++ "" = a.
Proof. induction a; simpl; auto. f_equal. auto. Qed.

Lemma v_fmt_loop_spec : forall T (fmt : T -> string) (v : list T) left i,
  (i + left <= List.length v)%nat ->
  v_fmt_loop fmt v left i =
  Ok (List.fold_right (fun x s => fmt x ++ ", " ++ s) "" (firstn left (skipn i v))).
Proof.
  intros T fmt v. induction left as [|left IH]; intros i H; simpl; auto.
  unfold v_index, index. destruct (nth_error v i) as [x|] eqn:E.
  2:{ apply nth_error_None in E. lia. }
  simpl. rewrite IH by lia. simpl.
  assert (Sk : skipn i v = x :: skipn (S i) v).
  { clear -E. revert v E. induction i; intros [|y v] E; try discriminate.
    - inversion E; subst. reflexivity.
    - change (skipn (S i) (y :: v)) with (skipn i v). rewrite (IHi v E). reflexivity. }
  rewrite Sk. reflexivity.
Qed.

Lemma concat_snoc : forall T (fmt : T -> string) l x,
  String.concat ", " (map fmt (l ++ [x])%list) =
  List.fold_right (fun x s => fmt x ++ ", " ++ s) "" l ++ fmt x.
Proof.
  intros T fmt l x. induction l as [|y l IH]; [reflexivity|].
  cbn [List.app map List.fold_right].
  assert (E : exists z t, map fmt (l ++ [x])%list = z :: t).
  { destruct l; simpl; eauto. }
  destruct E as (z & t & E).
  replace (String.concat ", " (fmt y :: map fmt (l ++ [x])%list))
    with (fmt y ++ ", " ++ String.concat ", " (map fmt (l ++ [x])%list)).
  2:{ rewrite E. reflexivity. }
  rewrite IH. rewrite !append_assoc. reflexivity.
Qed.

Lemma v_fmt_spec : forall T N (fmt : T -> string) (v : list T), List.length v = N ->
  (0 < N -> v_fmt N fmt v =
     Ok (String.append "Vector" (String.append (nat_str N)
          (String.append "(" (String.append (String.concat ", " (map fmt v)) ")")))))%nat /\
  (N = 0%nat -> v_fmt N fmt v = Panic).
Proof.
  intros T N fmt v L. split; [|intros ->; reflexivity]. intros H.
  destruct N as [|N1]; [lia|].
  assert (E : exists l x, v = (l ++ [x])%list /\ List.length l = N1).
  { destruct (exists_last (l := v)) as (l & x & E). { intros ->. discriminate. }
    exists l, x. split; auto. rewrite E, app_length in L. simpl in L. lia. }
  destruct E as (l & x & -> & Ll).
  unfold v_fmt. rewrite v_fmt_loop_spec by lia.
  unfold v_index, index. rewrite nth_error_app2 by lia. rewrite Ll, Nat.sub_diag. simpl skipn.
  rewrite <- Ll at 1. rewrite firstn_app, Nat.sub_diag, firstn_all, firstn_O, app_nil_r.
  cbn [nth_error bind]. rewrite concat_snoc. rewrite !append_assoc. reflexivity.
Qed.
