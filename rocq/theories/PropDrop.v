(** C03 and C05 for nested containers: what [Matrix::try_from_iter] and [GroupIter] drop. *)
From Coq Require Import Permutation.
From Verif Require Import DropModel VFacts VecProofs Spec.
Set Implicit Arguments.

Lemma yields_app : forall S A (next : next_fn S A) s1 s2 s3 l k, yields next s1 s2 l -> yields next s2 s3 k -> yields next s1 s3 (l ++ k).
Proof. induction 1; intros H2; cbn; auto. econstructor; eauto. Qed.

Section Rows.
  Context {S A : Type} (N : nat) (n : next_fn S A).
  Notation G := (group_next_drops N n).

  (** A call of [GroupIter::next] drops nothing when it yields, and when it does not exactly the items of the incomplete
      group, in order. *)
  Theorem C05_group_drops : forall s dropped r, G s = (dropped, r) ->
    r = group_next N n s /\
    (forall s' l, r = Ok (s', Some l) -> dropped = [] /\ length l = N /\ yields n s s' l) /\
    (forall s', r = Ok (s', None) -> exists s1, yields n s s1 dropped /\ length dropped < N /\ n s1 = Ok (s', None)) /\
    (~ returns r -> dropped = []).
  Proof.
    intros s dropped r E. assert (E' := E). apply tfi_drops in E as (H1 & H2 & H3). split; [|split; [|split]]; auto.
    - unfold group_next, v_try_from_iter. unfold group_next_drops in E'. rewrite E'. reflexivity.
    - intros s' l Hr. destruct (H1 _ _ Hr) as (D & Y). split; [|split]; auto. subst r. unfold group_next_drops in E'. rewrite tfi_pull in E'.
      destruct (pull N n s) as [(s1 & l1)| | |]; try discriminate. destruct (length l1 =? N) eqn:L; [|discriminate]. apply Nat.eqb_eq in L. congruence.
  Qed.

  Lemma rows_spec : forall left s (pre : list (list A)), Forall (fun r => length r = N) pre ->
    let R := rows_loop G left (length pre) (map Some pre ++ repeat None left) s in
    (exists s' rows, R = ([], Ok (s', map Some (pre ++ rows), length pre + left)) /\ length rows = left /\
       Forall (fun r => length r = N) rows /\ yields n s s' (concat rows)) \/
    (exists s' s1 rows tail, R = (tail, Ok (s', map Some (pre ++ rows) ++ repeat None (left - length rows), length pre + length rows)) /\
       length rows < left /\ Forall (fun r => length r = N) rows /\ length tail < N /\ yields n s s1 (concat rows ++ tail) /\ n s1 = Ok (s', None)) \/
    (exists f : res (S * cells (list A) * nat), R = ([], f) /\ ~ returns f).
  Proof.
    induction left as [|left IH]; intros s pre Hp.
    - left. exists s, []. cbn. rewrite !app_nil_r, Nat.add_0_r. repeat split; auto. constructor.
    - cbn [rows_loop]. destruct (G s) as (d, r) eqn:E. destruct (C05_group_drops _ E) as (_ & H1 & H2 & H3).
      destruct r as [(s1 & [y|])| | |].
      + destruct (H1 _ _ eq_refl) as (-> & L & Y).
        assert (X : list_set (map Some pre ++ repeat None (Datatypes.S left)) (length pre) (Some y) = map Some (pre ++ [y]) ++ repeat None left).
        { cbn [repeat]. replace (length pre) with (length (map (@Some (list A)) pre)) by apply map_length. rewrite list_set_app, map_app, <- app_assoc. reflexivity. }
        rewrite X. replace (Datatypes.S (length pre)) with (length (pre ++ [y])) by (rewrite app_length; cbn; lia).
        destruct (IH s1 (pre ++ [y])) as [(s' & rows & E' & L' & F' & Y')|[(s' & s2 & rows & tail & E' & L' & F' & T' & Y' & Z')|(f & E' & F')]].
        { apply Forall_app. auto. }
        * left. exists s', (y :: rows). rewrite E'. cbn [concat length]. rewrite app_length, <- app_assoc. cbn [length app]. repeat split; auto.
          -- do 3 f_equal. lia.
          -- eapply yields_app; eauto.
        * right; left. exists s', s2, (y :: rows), tail. rewrite E'. cbn [concat length app]. rewrite app_length, <- !app_assoc. cbn [length app].
          repeat split; auto; try lia. { do 3 f_equal. lia. } rewrite ?app_assoc_reverse. eapply yields_app; eauto.
        * right; right. exists f. rewrite E'. auto.
      + right; left. destruct (H2 _ eq_refl) as (s2 & Y & L & Z). exists s1, s2, [], d. cbn [concat length app repeat]. rewrite app_nil_r, Nat.add_0_r. repeat split; auto; try lia.
      + right; right. rewrite H3 by (intros (? & ?); discriminate). eexists. split; [reflexivity|]. intros (? & ?); discriminate.
      + right; right. rewrite H3 by (intros (? & ?); discriminate). eexists. split; [reflexivity|]. intros (? & ?); discriminate.
      + right; right. rewrite H3 by (intros (? & ?); discriminate). eexists. split; [reflexivity|]. intros (? & ?); discriminate.
  Qed.

  (** [Matrix::try_from_iter]: on success nothing is dropped and the matrix holds the items taken, row by row; on failure
      every item taken is dropped exactly once (first those of the incomplete row, then the complete rows, each in order);
      when the iterator panics nothing is dropped. *)
  Theorem C03_matrix_drops : forall M s dropped r, m_tfi M N n s = (dropped, r) ->
    (forall s' m, r = Ok (s', Some m) -> dropped = [] /\ rect M N m /\ yields n s s' (concat m)) /\
    (forall s', r = Ok (s', None) ->
       exists s1 taken, yields n s s1 taken /\ n s1 = Ok (s', None) /\ length taken < M * N /\
         Permutation dropped taken /\
         exists k, length taken / N = k /\ dropped = skipn (k * N) taken ++ firstn (k * N) taken) /\
    (~ returns r -> dropped = []).
  Proof.
    intros M s dropped r. unfold m_tfi. destruct (rows_spec M s (Forall_nil _)) as [(s' & rows & E & L & F & Y)|[(s' & s1 & rows & tail & E & L & F & T & Y & Z)|(f & E & F)]];
      unfold v_uninit; cbn [map app length] in E; rewrite E; clear E.
    - cbn [Nat.add]. rewrite Nat.ltb_irrefl, Nat.eqb_refl. intros X. apply pair_equal_spec in X as (<- & <-).
      assert (AI : v_assume_init (map Some rows) = Ok rows) by apply assume_init_some. rewrite AI. cbn [bind option_map]. unfold m_from_vector_of_vectors.
      split; [|split]; try (intros; discriminate); auto. intros s2 m Em. inversion Em; subst. repeat split; auto.
    - cbn [Nat.add]. replace (M <? length rows) with false by (symmetry; apply Nat.ltb_ge; lia). replace (length rows =? M) with false by (symmetry; apply Nat.eqb_neq; lia).
      rewrite tfi_drop_some. intros X. apply pair_equal_spec in X as (<- & <-). split; [|split].
      + intros; discriminate.
      + intros s2 E. inversion E; subst s2. exists s1, (concat rows ++ tail).
        assert (LC : length (concat rows) = length rows * N) by (clear - F; induction F; cbn; rewrite ?app_length; lia).
        repeat split; auto.
        * rewrite app_length, LC. nia.
        * apply Permutation_app_comm.
        * exists (length rows). rewrite app_length, LC. split.
          -- rewrite Nat.add_comm, Nat.div_add by lia. rewrite Nat.div_small by lia. reflexivity.
          -- rewrite <- LC, skipn_app, firstn_app, skipn_all, firstn_all, Nat.sub_diag. cbn. rewrite app_nil_r. reflexivity.
      + intros X. exfalso. apply X. eexists. reflexivity.
    - destruct f as [?| | |]; [exfalso; apply F; eexists; reflexivity|..]; intros X; apply pair_equal_spec in X as (<- & <-); (split; [|split]); auto; intros; discriminate.
  Qed.

  (** The outcome is that of the model without a drop log. *)
  Lemma rows_outcome : forall left pos a s, snd (rows_loop G left pos a s) = tfi_loop (group_next N n) left pos a s.
  Proof.
    induction left as [|left IH]; intros pos a s; [reflexivity|]. cbn [rows_loop tfi_loop]. destruct (G s) as (d, r) eqn:E. destruct (C05_group_drops _ E) as (<- & _).
    destruct r as [(s1 & [y|])| | |]; try reflexivity. specialize (IH (Datatypes.S pos) (list_set a pos (Some y)) s1). destruct (rows_loop G left _ _ s1). exact IH.
  Qed.
  Theorem C03_matrix_outcome : forall M s, snd (m_tfi M N n s) = m_try_from_iter M N n s.
  Proof.
    intros M s. unfold m_tfi, m_try_from_iter, m_try_from_iter_of_vectors, v_try_from_iter, tfi. rewrite <- rows_outcome. destruct (rows_loop G M 0 (v_uninit M) s) as (d, r). cbn [snd].
    destruct r as [((s1 & a) & pos)| | |]; try reflexivity. destruct (M <? pos); try reflexivity. destruct (pos =? M).
    - cbn [snd]. destruct (v_assume_init a); reflexivity.
    - destruct (tfi_drop a pos); reflexivity.
  Qed.
End Rows.

(** Two rows of two: the third row is incomplete, so 5 goes first, then the complete rows. *)
Example C03_matrix_example :
  m_tfi 3 2 list_next [1; 2; 3; 4; 5] = ([5; 1; 2; 3; 4], Ok ([], None)) /\ m_tfi 2 2 list_next [1; 2; 3; 4; 5] = ([], Ok ([5], Some [[1; 2]; [3; 4]])).
Proof. split; reflexivity. Qed.

Print Assumptions C05_group_drops.
Print Assumptions C03_matrix_drops.
Print Assumptions C03_matrix_outcome.
