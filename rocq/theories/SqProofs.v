(** The masked recursion of the determinant, related to the expansion over lists of row and column
    numbers. *)
From Coq Require Import Sorting.Sorted Permutation.
From Verif Require Import SquareModel VFacts MFacts MatProofs AlgFacts DetFacts.
Set Implicit Arguments.
Local Open Scope nat_scope.
Local Open Scope list_scope.

(** The positions holding [true]. *)
Fixpoint ones (a : nat) (l : list bool) : list nat :=
  match l with
  | [] => []
  | b :: t => if b then a :: ones (S a) t else ones (S a) t
  end.

Lemma ones_ge : forall l a x, In x (ones a l) -> a <= x < a + length l.
Proof.
  induction l as [|b l IH]; simpl; intros a x H; [destruct H|]. destruct b.
  - destruct H as [<-|H]; [lia|]. apply IH in H. lia.
  - apply IH in H. lia.
Qed.
Lemma ones_sorted : forall l a, StronglySorted lt (ones a l).
Proof.
  induction l as [|[] l IH]; simpl; intros a; auto; constructor; auto.
  apply Forall_forall. intros x H. apply ones_ge in H. lia.
Qed.
Lemma ones_in : forall l a x, In x (ones a l) <-> a <= x /\ nth_error l (x - a) = Some true.
Proof.
  induction l as [|b l IH]; simpl; intros a x.
  - split; [tauto|]. intros (_ & H). destruct (x - a); discriminate.
  - assert (X : In x (ones (S a) l) <-> S a <= x /\ nth_error (b :: l) (x - a) = Some true).
    { rewrite IH. split; intros (H1 & H2); split; auto.
      - replace (x - a) with (S (x - S a)) by lia. auto.
      - replace (x - a) with (S (x - S a)) in H2 by lia. auto. }
    destruct b.
    + simpl. rewrite X. split.
      * intros [<-|(H1 & H2)]; [rewrite Nat.sub_diag; auto|]. split; [lia|auto].
      * intros (H1 & H2). destruct (Nat.eq_dec a x); [left; auto|]. right. split; [lia|auto].
    + rewrite X. split; intros (H1 & H2); split; auto; [lia|].
      destruct (Nat.eq_dec a x); [|lia]. subst. rewrite Nat.sub_diag in H2. discriminate.
Qed.
Lemma ones_repeat : forall n a, ones a (repeat true n) = seq a n.
Proof. induction n; simpl; intros; auto. f_equal. auto. Qed.

Lemma ones_set_false : forall l a c1 j c2, ones a l = c1 ++ j :: c2 ->
  ones a (list_set l (j - a) false) = c1 ++ c2.
Proof.
  induction l as [|b l IH]; simpl; intros a c1 j c2 H. { destruct c1; discriminate. }
  destruct b.
  - destruct c1 as [|x c1]; simpl in H; injection H; intros.
    + subst. rewrite Nat.sub_diag. simpl. auto.
    + subst x. assert (I : In j (ones (S a) l)) by (rewrite H0; apply in_elt). apply ones_ge in I.
      replace (j - a) with (S (j - S a)) by lia. simpl. f_equal. apply IH. auto.
  - assert (I : In j (ones (S a) l)) by (rewrite H; apply in_elt). apply ones_ge in I.
    replace (j - a) with (S (j - S a)) by lia. simpl. apply IH. auto.
Qed.

Lemma list_set_back : forall A (l : list A) i x y, nth_error l i = Some x ->
  list_set (list_set l i y) i x = l.
Proof.
  induction l as [|h t IH]; intros [|i] x y H; simpl in *; try discriminate; auto.
  - congruence.
  - f_equal. auto.
Qed.

Lemma mask_find_ok : forall d i l fuel, nth_error l (i + d) = Some true ->
  (forall k, i <= k < i + d -> nth_error l k = Some false) -> d < fuel -> mask_find fuel l i = Ok (i + d).
Proof.
  induction d; intros i l fuel H1 H2 F; (destruct fuel as [|fuel]; [lia|]); cbn [mask_find]; unfold index.
  - rewrite Nat.add_0_r in *. rewrite H1. simpl. auto.
  - rewrite (H2 i) by lia. simpl. rewrite IHd; try lia.
    + f_equal. lia.
    + rewrite <- H1. f_equal. lia.
    + intros. apply H2. lia.
Qed.

Lemma mask_find_split : forall N l c1 j c2 i, length l = N -> ones 0 l = c1 ++ j :: c2 ->
  Forall (fun x => x < i) c1 -> i <= j -> mask_find (S N) l i = Ok j.
Proof.
  intros N l c1 j c2 i L E F H.
  assert (Ij : In j (ones 0 l)) by (rewrite E; apply in_elt).
  assert (Lj : j < N) by (apply ones_ge in Ij; lia).
  replace j with (i + (j - i)) by lia. apply mask_find_ok; [| |lia].
  - apply ones_in in Ij. rewrite Nat.sub_0_r in Ij. replace (i + (j - i)) with j by lia. tauto.
  - intros k Hk. destruct (nth_error l k) as [[]|] eqn:Q; auto.
    + exfalso. assert (Ik : In k (ones 0 l)). { apply ones_in. rewrite Nat.sub_0_r. split; [lia|auto]. }
      pose proof (ones_sorted l 0) as S. rewrite E in Ik, S. apply in_app_iff in Ik as [Ik|[Ik|Ik]].
      * rewrite Forall_forall in F. apply F in Ik. lia.
      * lia.
      * clear -S Ik Hk. induction c1; simpl in S; inversion S; subst; auto.
        rewrite Forall_forall in H2. apply H2 in Ik. lia.
    + exfalso. apply nth_error_None in Q. lia.
Qed.

Section Det.
  Context {T : Type} (o : Ops T) (N : nat) (m : list (list T)).

  Definition rneg (k : nat) (c : T) : res T := if k mod 2 =? 0 then Ok c else o_neg o c.

  (** Expansion along the first of the rows [rows]. *)
  Fixpoint rdet (rows cols : list nat) : res T :=
    match rows with
    | [] => Ok (o_one o)
    | i :: rows' =>
        fold_res (fun a k =>
          let! x := m_index m (i, nth k cols 0) in
          let! c := rdet rows' (remove_at k cols) in
          let! c1 := rneg k c in
          let! p := o_mul o x c1 in
          o_add o a p) (o_zero o) (seq 0 (length cols))
    end.

  Definition wf (s : smask) : Prop :=
    length (sm_col s) = N /\ length (sm_row s) = N /\
    length (ones 0 (sm_col s)) = sm_deg s /\ length (ones 0 (sm_row s)) = sm_deg s.

  Lemma wf_new : wf (smask_new N).
  Proof.
    unfold wf, smask_new, index_mask_new. simpl. rewrite repeat_length, ones_repeat, seq_length. auto.
  Qed.

  (** One call of [cofactor], for a recursive call that meets its specification. *)
  Lemma d_cofactor_spec : forall rec s i ri j rj rows1 rows2 cols1 cols2,
    wf s -> ones 0 (sm_col s) = rows1 ++ i :: rows2 -> ones 0 (sm_row s) = cols1 ++ j :: cols2 ->
    (forall s', wf s' -> sm_deg s' = sm_deg s - 1 ->
       rec s' = let! a := rdet (ones 0 (sm_col s')) (ones 0 (sm_row s')) in Ok (s', a)) ->
    d_cofactor o rec s (i, ri) (j, rj) =
      let! c := rdet (rows1 ++ rows2) (cols1 ++ cols2) in let! c1 := rneg (ri + rj) c in Ok (s, c1).
  Proof.
    intros rec s i ri j rj rows1 rows2 cols1 cols2 (L1 & L2 & D1 & D2) E1 E2 H.
    assert (Ii : In i (ones 0 (sm_col s))) by (rewrite E1; apply in_elt).
    assert (Ij : In j (ones 0 (sm_row s))) by (rewrite E2; apply in_elt).
    pose proof (ones_ge _ _ _ Ii) as Bi. pose proof (ones_ge _ _ _ Ij) as Bj.
    apply ones_in in Ii, Ij. rewrite Nat.sub_0_r in Ii, Ij. destruct Ii as (_ & Ni), Ij as (_ & Nj).
    pose proof (@ones_set_false _ _ _ _ _ E1) as F1. pose proof (@ones_set_false _ _ _ _ _ E2) as F2.
    rewrite Nat.sub_0_r in F1, F2.
    assert (P1 : length (rows1 ++ i :: rows2) = S (length (rows1 ++ rows2))) by (rewrite !app_length; simpl; lia).
    assert (P2 : length (cols1 ++ j :: cols2) = S (length (cols1 ++ cols2))) by (rewrite !app_length; simpl; lia).
    unfold d_cofactor, smask_exclude, index_set.
    replace (i <? length (sm_col s)) with true by lia. cbn [bind].
    replace (j <? length (sm_row s)) with true by lia. cbn [bind].
    destruct (sm_deg s) as [|d] eqn:D. { rewrite E1 in D1. lia. } cbn [bind].
    rewrite H.
    - cbn [sm_col sm_row]. rewrite F1, F2.
      destruct (rdet (rows1 ++ rows2) (cols1 ++ cols2)) as [c| | |]; cbn [bind]; auto. fold (rneg (ri + rj) c).
      destruct (rneg (ri + rj) c) as [c1| | |]; cbn [bind]; auto.
      unfold smask_include, index_set. cbn [sm_col sm_row sm_deg]. rewrite !list_set_length.
      replace (i <? length (sm_col s)) with true by lia. cbn [bind].
      replace (j <? length (sm_row s)) with true by lia. cbn [bind].
      rewrite !list_set_back by auto. rewrite <- D. destruct s. reflexivity.
    - unfold wf. cbn [sm_col sm_row sm_deg]. rewrite !list_set_length, F1, F2. rewrite E1 in D1. rewrite E2 in D2.
      repeat split; auto; lia.
    - cbn [sm_deg]. lia.
  Qed.

  Lemma d_loop_spec : forall rec s i rows cols, wf s ->
    ones 0 (sm_col s) = i :: rows -> ones 0 (sm_row s) = cols ->
    (forall s', wf s' -> sm_deg s' = sm_deg s - 1 ->
       rec s' = let! a := rdet (ones 0 (sm_col s')) (ones 0 (sm_row s')) in Ok (s', a)) ->
    forall c2 c1 j a, cols = c1 ++ c2 -> Forall (fun x => x < j) c1 -> Forall (fun x => j <= x) c2 ->
    d_loop o N m rec (length c2) (length c1) i j s a =
    let! b := fold_res (fun a k =>
          let! x := m_index m (i, nth k cols 0) in
          let! c := rdet rows (remove_at k cols) in
          let! c1 := rneg k c in
          let! p := o_mul o x c1 in
          o_add o a p) a (seq (length c1) (length c2)) in Ok (s, b).
  Proof.
    intros rec s i rows cols W E1 E2 H. pose proof W as (L1 & L2 & D1 & D2).
    induction c2 as [|q c2 IH]; intros c1 j a E F1 F2; [reflexivity|].
    cbn [length d_loop seq fold_res]. rewrite E in E2.
    inversion F2; subst.
    rewrite (@mask_find_split _ _ _ _ _ _ L2 E2 F1) by auto. cbn [bind].
    rewrite app_nth2, Nat.sub_diag by lia. cbn [nth]. rewrite remove_at_app.
    rewrite (@d_cofactor_spec rec s i 0 q (length c1) [] rows c1 c2 W E1 E2 H). cbn [app Nat.add].
    destruct (m_index m (i, q)) as [x| | |]; cbn [bind]; auto.
    destruct (rdet rows (c1 ++ c2)) as [c| | |]; cbn [bind]; auto.
    destruct (rneg (length c1) c) as [c'| | |]; cbn [bind]; auto.
    destruct (o_mul o x c') as [p| | |]; cbn [bind]; auto.
    destruct (o_add o a p) as [a1| | |]; cbn [bind]; auto.
    replace (S (length c1)) with (length (c1 ++ [q])) by (rewrite app_length; simpl; lia).
    rewrite (IH (c1 ++ [q]) (S q) a1).
    - reflexivity.
    - rewrite <- app_assoc. auto.
    - apply Forall_app. split; [|repeat constructor; lia]. eapply Forall_impl; [|exact F1]. simpl. intros. lia.
    - pose proof (ones_sorted (sm_row s) 0) as S. rewrite E2 in S. clear -S.
      induction c1; simpl in S; inversion S; subst; auto.
  Qed.

  Lemma d_det_spec : forall fuel s, wf s -> sm_deg s < fuel ->
    d_det o N m fuel s = let! a := rdet (ones 0 (sm_col s)) (ones 0 (sm_row s)) in Ok (s, a).
  Proof.
    induction fuel; intros s W F; [lia|]. pose proof W as (L1 & L2 & D1 & D2). cbn [d_det].
    destruct (sm_deg s =? 0) eqn:Z.
    - destruct (ones 0 (sm_col s)); [reflexivity|]. simpl in D1. lia.
    - destruct (ones 0 (sm_col s)) as [|i rows] eqn:E1. { simpl in D1. lia. }
      rewrite (@mask_find_split N (sm_col s) [] i rows 0 L1 E1) by (auto || lia). cbn [bind].
      rewrite <- D2.
      rewrite (@d_loop_spec (d_det o N m fuel) s i rows (ones 0 (sm_row s)) W E1 eq_refl) with (c1 := []); auto.
      + intros s' W' D'. apply IHfuel; auto. lia.
      + apply Forall_forall. intros. lia.
  Qed.

  Lemma m_det_spec : m_det o N m = rdet (seq 0 N) (seq 0 N).
  Proof.
    unfold m_det. rewrite d_det_spec; [|apply wf_new|simpl; lia].
    unfold smask_new, index_mask_new. cbn [sm_col sm_row]. rewrite !ones_repeat.
    destruct (rdet _ _); reflexivity.
  Qed.

  Lemma m_cofactor_spec : forall i j, i < N -> j < N ->
    m_cofactor o N m i j =
    let! c := rdet (remove_at i (seq 0 N)) (remove_at j (seq 0 N)) in rneg (i + j) c.
  Proof.
    intros i j Hi Hj. unfold m_cofactor.
    replace (i <? N) with true by lia. replace (j <? N) with true by lia. cbn [andb].
    assert (Sp : forall k, k < N -> seq 0 N = seq 0 k ++ k :: seq (S k) (N - S k)).
    { intros k Hk. replace N with (k + (1 + (N - S k))) at 1 by lia. rewrite !seq_app. simpl. f_equal. f_equal. f_equal. lia. }
    rewrite (@d_cofactor_spec _ (smask_new N) i i j j (seq 0 i) (seq (S i) (N - S i)) (seq 0 j) (seq (S j) (N - S j))).
    - replace (seq 0 i ++ seq (S i) (N - S i)) with (remove_at i (seq 0 N)).
      2: { rewrite (Sp i Hi). rewrite <- (seq_length i 0) at 1. apply remove_at_app. }
      replace (seq 0 j ++ seq (S j) (N - S j)) with (remove_at j (seq 0 N)).
      2: { rewrite (Sp j Hj). rewrite <- (seq_length j 0) at 1. apply remove_at_app. }
      destruct (rdet _ _) as [c| | |]; cbn [bind]; auto. destruct (rneg (i + j) c); reflexivity.
    - apply wf_new.
    - unfold smask_new, index_mask_new. cbn [sm_col]. rewrite ones_repeat. auto.
    - unfold smask_new, index_mask_new. cbn [sm_row]. rewrite ones_repeat. auto.
    - intros s' W D. apply d_det_spec; auto. simpl in D. lia.
  Qed.

  Lemma m_cofactor_panic : forall i j, ~ (i < N /\ j < N) -> m_cofactor o N m i j = Panic.
  Proof.
    intros. unfold m_cofactor. destruct (i <? N) eqn:E1; auto. destruct (j <? N) eqn:E2; auto. exfalso. lia.
  Qed.

  (** Returns, or (only if [b]) panics. *)
  Definition good {A : Type} (b : bool) (r : res A) : Prop := returns r \/ (b = true /\ r = Panic).
  Lemma good_bind : forall A B b (r : res A) (f : A -> res B), good b r -> (forall a, good b (f a)) -> good b (bind r f).
  Proof. intros A B b r f [(a & ->)|(-> & ->)] H; cbn [bind]; auto. right. auto. Qed.

  Lemma rdet_good : forall b, rect N N m ->
    (forall x y, good b (o_add o x y)) -> (forall x y, good b (o_mul o x y)) -> (forall x, good b (o_neg o x)) ->
    forall rows cols, length rows = length cols -> (forall x, In x rows -> x < N) -> (forall x, In x cols -> x < N) ->
    good b (rdet rows cols).
  Proof.
    intros b R A M Ne. induction rows as [|i rows IH]; intros cols L Hr Hc. { left. eexists. reflexivity. }
    cbn [rdet].
    assert (G : forall l a, (forall k, In k l -> k < length cols) -> good b (fold_res (fun a k =>
          let! x := m_index m (i, nth k cols 0) in
          let! c := rdet rows (remove_at k cols) in
          let! c1 := rneg k c in
          let! p := o_mul o x c1 in
          o_add o a p) a l)).
    { induction l as [|k l IHl]; intros a Hl. { left. eexists. reflexivity. }
      cbn [fold_res].
      assert (Hk : k < length cols) by (apply Hl; left; auto).
      assert (Hn : nth k cols 0 < N) by (apply Hc; apply nth_In; auto).
      destruct (m_index_spec i (nth k cols 0) R) as (X & _).
      destruct X as (x & _ & Ex & _); [split; [apply Hr; left; auto|auto]|].
      rewrite Ex. cbn [bind]. apply good_bind.
      - apply good_bind.
        + apply IH.
          * rewrite remove_at_length by auto. simpl in L. lia.
          * intros. apply Hr. right. auto.
          * intros y Hy. apply Hc. clear -Hy. revert k Hy. induction cols; intros [|k] Hy; simpl in *; auto.
            destruct Hy; auto. right. eapply IHcols. eauto.
        + intros c. apply good_bind.
          * unfold rneg. destruct (k mod 2 =? 0); [left; eexists; reflexivity|apply Ne].
          * intros c1. apply good_bind; auto.
      - intros a1. apply IHl. intros. apply Hl. right. auto. }
    apply G. intros k Hk. apply in_seq in Hk. lia.
  Qed.

  Lemma m_det_good : forall b, rect N N m ->
    (forall x y, good b (o_add o x y)) -> (forall x y, good b (o_mul o x y)) -> (forall x, good b (o_neg o x)) ->
    good b (m_det o N m).
  Proof.
    intros. rewrite m_det_spec. apply rdet_good; auto; intros x Hx; apply in_seq in Hx; lia.
  Qed.
  Lemma m_cofactor_good : forall b i j, rect N N m ->
    (forall x y, good b (o_add o x y)) -> (forall x y, good b (o_mul o x y)) -> (forall x, good b (o_neg o x)) ->
    i < N -> j < N -> good b (m_cofactor o N m i j).
  Proof.
    intros b i j Rm Ha Hm Hn Hi Hj. rewrite m_cofactor_spec by auto. apply good_bind.
    - assert (B : forall k x, k < N -> In x (remove_at k (seq 0 N)) -> x < N).
      { destruct N as [|n]; [lia|]. intros k x Hk Hx. rewrite remove_at_seq in Hx by auto. apply in_map_iff in Hx as (y & <- & Hy).
        apply in_seq in Hy. unfold skip. destruct (y <? k); lia. }
      apply rdet_good; eauto. rewrite !remove_at_length by (rewrite seq_length; auto). auto.
    - intros c. unfold rneg. destruct (_ =? 0); auto. left. eexists. reflexivity.
  Qed.
End Det.

Section Ring.
  Context {T : Type} {o : Ops T} (R : CRing o).

  Lemma rneg_ok : forall k c, rneg o k c = Ok (signed R k c).
  Proof.
    intros. unfold rneg, signed. rewrite <- Nat.bit0_mod, Nat.bit0_odd, <- Nat.negb_even.
    destruct (Nat.even k); simpl; auto. apply (r_neg_ok R).
  Qed.

  Lemma fold_sum : forall f (g : nat -> T) l a, (forall a k, In k l -> f a k = Ok (r_add R a (g k))) ->
    fold_res f a l = Ok (r_add R a (lsum R g l)).
  Proof.
    induction l as [|k l IH]; intros a H; simpl.
    - rewrite (r_add_0_r R). auto.
    - rewrite H by (left; auto). simpl. rewrite IH by (intros; apply H; right; auto).
      rewrite (r_add_assoc R). auto.
  Qed.

  Lemma rdet_pdet : forall N m, rect N N m -> forall rows cols,
    length rows = length cols -> (forall x, In x rows -> x < N) -> (forall x, In x cols -> x < N) ->
    rdet o m rows cols = Ok (pdet R (mget o m) rows cols).
  Proof.
    intros N m H. induction rows as [|i rows IH]; intros cols L Hr Hc; auto.
    cbn [rdet pdet]. rewrite (fold_sum _ (fun k => r_mul R (mget o m i (nth k cols 0))
        (signed R k (pdet R (mget o m) rows (remove_at k cols))))).
    - rewrite (r_add_0_l R). auto.
    - intros a k Hk. apply in_seq in Hk.
      assert (Hn : nth k cols 0 < N) by (apply Hc; apply nth_In; lia).
      destruct (m_index_spec i (nth k cols 0) H) as (X & _).
      destruct X as (x & El & Ex & _); [split; [apply Hr; left; auto|auto]|].
      rewrite Ex. cbn [bind]. rewrite IH.
      + cbn [bind]. rewrite rneg_ok. cbn [bind]. rewrite (r_mul_ok R). cbn [bind].
        rewrite (mget_elt o _ _ _ El). apply (r_add_ok R).
      + rewrite remove_at_length by lia. simpl in L. lia.
      + intros. apply Hr. right. auto.
      + intros y Hy. apply Hc. clear -Hy. revert k Hy. induction cols; intros [|k] Hy; simpl in *; auto.
        destruct Hy; auto. right. eapply IHcols. eauto.
  Qed.

  Lemma m_det_leibniz : forall N m, rect N N m -> m_det o N m = Ok (leibniz R N (mget o m)).
  Proof.
    intros N m H. rewrite m_det_spec, (rdet_pdet H); try (intros x Hx; apply in_seq in Hx; lia); auto.
    f_equal. apply pdet_leibniz.
  Qed.

  Lemma m_cofactor_minor : forall N m i j, rect N N m -> i < N -> j < N ->
    m_cofactor o N m i j = Ok (signed R (i + j) (leibniz R (N - 1) (minor i j (mget o m)))).
  Proof.
    intros N m i j H Hi Hj. destruct N as [|n]; [lia|]. rewrite m_cofactor_spec by auto.
    assert (B : forall k x, k < S n -> In x (remove_at k (seq 0 (S n))) -> x < S n).
    { intros k x Hk Hx. rewrite remove_at_seq in Hx by auto. apply in_map_iff in Hx as (y & <- & Hy).
      apply in_seq in Hy. unfold skip. destruct (y <? k); lia. }
    rewrite (rdet_pdet H).
    - cbn [bind]. rewrite rneg_ok. f_equal. f_equal. rewrite Nat.sub_succ, Nat.sub_0_r. symmetry. apply minor_pdet; auto.
    - rewrite !remove_at_length by (rewrite seq_length; auto). auto.
    - eauto.
    - eauto.
  Qed.

  (** On functions of indices. *)
  Lemma m_det_mk : forall N f, m_det o N (mk N N f) = Ok (leibniz R N f).
  Proof.
    intros. rewrite m_det_leibniz by apply rect_mk. f_equal. apply leibniz_ext. intros. apply mget_mk; auto.
  Qed.
  Lemma m_cofactor_mk : forall N f i j, i < N -> j < N ->
    m_cofactor o N (mk N N f) i j = Ok (signed R (i + j) (leibniz R (N - 1) (minor i j f))).
  Proof.
    intros. rewrite m_cofactor_minor by (auto using rect_mk). f_equal. f_equal. apply leibniz_ext. intros a b Ha Hb.
    unfold minor. apply mget_mk; unfold skip; [destruct (a <? i)|destruct (b <? j)]; lia.
  Qed.
  Definition adjf (N : nat) (f : nat -> nat -> T) (i j : nat) : T :=
    signed R (i + j) (leibniz R (N - 1) (minor j i f)).
  Lemma m_adj_mk : forall N f, m_adj o N (mk N N f) = Ok (mk N N (adjf N f)).
  Proof.
    intros. unfold m_adj. destruct (m_indices_spec N N) as (ix & E & Ri & Hi). rewrite E. cbn [bind].
    apply (m_map_ok (fun '(i, j) => m_cofactor o N (mk N N f) j i) (mk N N (adjf N f)) Ri). split.
    - apply rect_mk.
    - intros i j x. rewrite elt_mk. destruct ((i <? N) && (j <? N)) eqn:E1; [|discriminate]. intros Q. injection Q as <-.
      unfold at1m. rewrite Hi by lia. rewrite m_cofactor_mk by lia. unfold adjf.
      rewrite (Nat.add_comm j i). auto.
  Qed.
End Ring.
