(** Lemmas connecting the list functions of [VFacts.v] with the vocabulary of [Spec.v]. *)
From Verif Require Export MathModel VFacts Spec.
Set Implicit Arguments.

Lemma fails_like_refail : forall A B (s : res A), (forall a, s <> Ok a) -> fails_like (@refail A B s) s.
Proof. destruct s; simpl; intros; auto. eapply H; eauto. Qed.

Lemma fails_like_not_ok : forall A B (r : res A) (s : res B) a, fails_like r s -> s <> Ok a.
Proof. destruct r, s; simpl; intros; try contradiction; discriminate. Qed.

Lemma fails_like_not_ok_l : forall A B (r : res A) (s : res B) a, fails_like r s -> r <> Ok a.
Proof. destruct r, s; simpl; intros; try contradiction; discriminate. Qed.

Lemma fails_like_refl : forall A (r : res A), (forall a, r <> Ok a) -> fails_like r r.
Proof. destruct r; simpl; auto. intros H. exfalso. eapply H; eauto. Qed.

Lemma fails_like_bind : forall A B (r : res A) (f : A -> res B),
  (forall a, r <> Ok a) -> fails_like (bind r f) r.
Proof. destruct r; simpl; auto. intros f H. exfalso. eapply H; eauto. Qed.

Lemma fails_like_trans : forall A B C (r : res A) (s : res B) (t : res C),
  fails_like r s -> fails_like s t -> fails_like r t.
Proof. destruct r, s, t; simpl; tauto. Qed.

Lemma ok_or_fails : forall A (r : res A), (exists a, r = Ok a) \/ (forall a, r <> Ok a).
Proof. destruct r; [left; eauto|right; discriminate..]. Qed.

(** [in_order] of a computation by recursion on the list of steps. *)
Lemma in_order_map_res : forall A B (f : A -> res B) l, in_order (length l) (at1 f l) (map_res f l).
Proof.
  intros A B f l. induction l as [|x l IH].
  - left. exists []. simpl. repeat split; auto. intros; lia.
  - simpl. destruct (ok_or_fails (f x)) as [(y & Hy)|Hx].
    + rewrite Hy. simpl. destruct IH as [(r & Hr & Hl & H)|(i & Hi & Hj & Hf)].
      * rewrite Hr. simpl. left. exists (y :: r). simpl. repeat split; auto.
        intros [|i] Hi; [exists y; auto|]. simpl. apply H. lia.
      * right. exists (S i). split; [lia|]. split.
        -- intros [|j] Hjs; [exists y; auto|]. apply (Hj j). lia.
        -- change (at1 f (x :: l) (S i)) with (at1 f l i).
           eapply fails_like_trans; [|exact Hf]. apply fails_like_bind.
           intros a E. eapply fails_like_not_ok_l; eauto.
    + right. exists 0. split; [lia|]. split; [intros; lia|].
      unfold at1. simpl. apply fails_like_bind; auto.
Qed.

Lemma in_order_map2_res : forall A B C (op : A -> B -> res C) u v,
  length u = length v -> in_order (length u) (at2 op u v) (map2_res op u v).
Proof.
  intros A B C op u v H. rewrite <- map2_res_combine.
  assert (E : length u = length (combine u v)).
  { rewrite combine_length. lia. }
  assert (S : forall i, at1 (fun '(x, y) => op x y) (combine u v) i = at2 op u v i).
  { clear. unfold at1, at2. revert v. induction u; intros [|y v] [|i]; simpl; auto.
    destruct (nth_error u i); auto. }
  rewrite E. pose proof (in_order_map_res (fun '(x, y) => op x y) (combine u v)) as P.
  unfold in_order in *. setoid_rewrite S in P. exact P.
Qed.

(** A result determined by [in_order] is unique. *)
Lemma in_order_unique : forall A n (step : nat -> res A) r1 r2,
  in_order n step r1 -> in_order n step r2 -> r1 = r2.
Proof.
  intros A n step r1 r2 [(l1 & -> & L1 & H1)|(i & Hi & Ji & Fi)] [(l2 & -> & L2 & H2)|(k & Hk & Jk & Fk)].
  - f_equal. assert (forall i, nth_error l1 i = nth_error l2 i).
    { intros i. destruct (lt_dec i n) as [Hi|Hi].
      - destruct (H1 i Hi) as (a & E1 & S1), (H2 i Hi) as (b & E2 & S2). congruence.
      - rewrite (proj2 (nth_error_None l1 i)), (proj2 (nth_error_None l2 i)) by lia. reflexivity. }
    clear -H. revert l2 H. induction l1; intros [|b l2] H; auto.
    + specialize (H 0); discriminate.
    + specialize (H 0); discriminate.
    + f_equal. { specialize (H 0). simpl in H. congruence. }
      apply IHl1. intros i. exact (H (S i)).
  - exfalso. destruct (H1 k Hk) as (a & _ & S1). eapply fails_like_not_ok; eauto.
  - exfalso. destruct (H2 i Hi) as (a & _ & S1). eapply fails_like_not_ok; eauto.
  - assert (i = k).
    { destruct (lt_eq_lt_dec i k) as [[L|E]|G]; auto; exfalso.
      - destruct (Jk i L) as (a & Ha). eapply fails_like_not_ok; [exact Fi|exact Ha].
      - destruct (Ji k G) as (a & Ha). eapply fails_like_not_ok; [exact Fk|exact Ha]. }
    subst k. destruct r1, (step i), r2; simpl in *; tauto.
Qed.

(** Closures with state. *)
Lemma called_map_st : forall C A B (f : C -> A -> res (C * B)) l c c' r,
  map_st f c l = Ok (c', r) <-> called f c l c' r.
Proof.
  intros C A B f. induction l as [|a l IH]; intros c c' r; simpl; split; intros H.
  - inversion H; subst. constructor.
  - inversion H; subst. reflexivity.
  - apply bind_Ok in H as ((c1 & b) & E & H). apply bind_Ok in H as ((c2 & bs) & E2 & H).
    inversion H; subst. econstructor; eauto. apply IH. auto.
  - inversion H as [|? ? ? ? ? ? ? E1 E2]; subst. rewrite E1. simpl. apply IH in E2. rewrite E2. reflexivity.
Qed.

Lemma map_st_fails : forall C A B (f : C -> A -> res (C * B)) l c,
  (forall x, map_st f c l <> Ok x) ->
  exists l1 a l2 c1 bs, l = l1 ++ a :: l2 /\ called f c l1 c1 bs /\
    fails_like (map_st f c l) (f c1 a).
Proof.
  intros C A B f. induction l as [|a l IH]; intros c H.
  - exfalso. eapply H. reflexivity.
  - destruct (ok_or_fails (f c a)) as [((c1 & b) & E)|E].
    + simpl in *. rewrite E in *. simpl in *. destruct (IH c1) as (l1 & a' & l2 & c2 & bs & -> & Hc & Hf).
      { intros (x1 & x2) Ex. rewrite Ex in H. simpl in H. eapply H. reflexivity. }
      exists (a :: l1), a', l2, c2, (b :: bs). repeat split; auto. econstructor; eauto.
      eapply fails_like_trans; [|exact Hf]. apply fails_like_bind.
      intros x Ex. eapply fails_like_not_ok_l; eauto.
    + exists [], a, l, c, []. repeat split. constructor. simpl. apply fails_like_bind; auto.
Qed.

Lemma drawn_calls : forall C B (f : C -> res (C * B)) n c c' r,
  calls n f c = Ok (c', r) <-> drawn f n c c' r.
Proof.
  intros C B f. induction n as [|n IH]; intros c c' r; simpl; split; intros H.
  - inversion H; subst. constructor.
  - inversion H; subst. reflexivity.
  - apply bind_Ok in H as ((c1 & b) & E & H). apply bind_Ok in H as ((c2 & bs) & E2 & H).
    inversion H; subst. econstructor; eauto. apply IH. auto.
  - inversion H as [|? ? ? ? ? ? E1 E2]; subst. rewrite E1. simpl. apply IH in E2. rewrite E2. reflexivity.
Qed.

Lemma calls_fails : forall C B (f : C -> res (C * B)) n c,
  (forall x, calls n f c <> Ok x) ->
  exists k c1 bs, k < n /\ drawn f k c c1 bs /\ fails_like (calls n f c) (f c1).
Proof.
  intros C B f. induction n as [|n IH]; intros c H.
  - exfalso. eapply H. reflexivity.
  - destruct (ok_or_fails (f c)) as [((c1 & b) & E)|E].
    + simpl in *. rewrite E in *. simpl in *. destruct (IH c1) as (k & c2 & bs & Hk & Hc & Hf).
      { intros (x1 & x2) Ex. rewrite Ex in H. simpl in H. eapply H. reflexivity. }
      exists (S k), c2, (b :: bs). repeat split; auto; [lia|econstructor; eauto|].
      eapply fails_like_trans; [|exact Hf]. apply fails_like_bind.
      intros x Ex. eapply fails_like_not_ok_l; eauto.
    + exists 0, c, []. repeat split; [lia|constructor|]. simpl. apply fails_like_bind; auto.
Qed.

Lemma drawn_length : forall C B (f : C -> res (C * B)) n c c' r, drawn f n c c' r -> length r = n.
Proof. induction 1; simpl; auto. Qed.

(** [pull] and [yields]. *)
Lemma pull_ok : forall S A (next : next_fn S A) n s s' l,
  pull n next s = Ok (s', l) <->
  (length l = n /\ yields next s s' l) \/
  (length l < n /\ exists s1, yields next s s1 l /\ next s1 = Ok (s', None)).
Proof.
  intros S A next. induction n as [|n IH]; intros s s' l.
  - simpl. split; intros H.
    + inversion H; subst. left. split; auto. constructor.
    + destruct H as [(E & H)|(E & _)]; [|lia]. destruct l; [|discriminate]. inversion H; subst. reflexivity.
  - simpl. destruct (ok_or_fails (next s)) as [((s1 & o) & E)|E].
    + rewrite E. simpl. destruct o as [a|].
      * split; intros H.
        -- apply bind_Ok in H as ((s2 & l') & H1 & H2). inversion H2; subst.
           apply IH in H1. destruct H1 as [(L & Y)|(L & s3 & Y & Z)].
           ++ left. simpl. split; [lia|]. econstructor; eauto.
           ++ right. simpl. split; [lia|]. exists s3. split; auto. econstructor; eauto.
        -- destruct H as [(L & Y)|(L & s3 & Y & Z)].
           ++ inversion Y; subst; [discriminate|]. rewrite E in H. inversion H; subst.
              simpl in L. assert (P : pull n next s2 = Ok (s', l0)) by (apply IH; left; split; auto).
              rewrite P. reflexivity.
           ++ inversion Y; subst.
              { rewrite E in Z. discriminate. }
              rewrite E in H. inversion H; subst. simpl in L.
              assert (P : pull n next s2 = Ok (s', l0)).
              { apply IH. right. split; [lia|]. eauto. }
              rewrite P. reflexivity.
      * split; intros H.
        -- inversion H; subst. right. simpl. split; [lia|]. exists s. split; auto. constructor.
        -- destruct H as [(L & Y)|(L & s3 & Y & Z)].
           ++ inversion Y; subst; [discriminate|]. rewrite E in H. discriminate.
           ++ inversion Y; subst. { rewrite E in Z. inversion Z. reflexivity. }
              rewrite E in H. discriminate.
    + split; intros H.
      * apply bind_Ok in H as (x & Ex & _). exfalso. eapply E; eauto.
      * exfalso. destruct H as [(L & Y)|(L & s3 & Y & Z)].
        -- inversion Y; subst; [discriminate|]. eapply E; eauto.
        -- inversion Y; subst; eapply E; eauto.
Qed.

Lemma pull_fails : forall S A (next : next_fn S A) n s,
  (forall x, pull n next s <> Ok x) ->
  exists s1 l, length l < n /\ yields next s s1 l /\ fails_like (pull n next s) (next s1).
Proof.
  intros S A next. induction n as [|n IH]; intros s H.
  - exfalso. eapply H. reflexivity.
  - simpl in *. destruct (ok_or_fails (next s)) as [((s1 & o) & E)|E].
    + rewrite E in *. simpl in *. destruct o as [a|].
      * destruct (IH s1) as (s2 & l & L & Y & F).
        { intros (x1 & x2) Ex. rewrite Ex in H. simpl in H. eapply H. reflexivity. }
        exists s2, (a :: l). simpl. repeat split; [lia|econstructor; eauto|].
        eapply fails_like_trans; [|exact F]. apply fails_like_bind.
        intros x Ex. eapply fails_like_not_ok_l; eauto.
      * exfalso. eapply H. reflexivity.
    + exists s, []. simpl. repeat split; [lia|constructor|]. apply fails_like_bind; auto.
Qed.

Lemma nth_error_ext : forall A (l1 l2 : list A), (forall i, nth_error l1 i = nth_error l2 i) -> l1 = l2.
Proof.
  induction l1; intros [|b l2] H; auto; try (specialize (H 0); discriminate).
  f_equal. { specialize (H 0). simpl in H. congruence. } apply IHl1. intros i. exact (H (S i)).
Qed.
