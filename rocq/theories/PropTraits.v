(** C79: norms of machine integers, floats, and of vectors and matrices of machine integers. *)
From Coq Require Import ZArith Lia List.
From Verif Require Import TraitsModel VFacts MFacts MatProofs AlgFacts Instances PropRel.
Import ListNotations.
Set Implicit Arguments.
Local Open Scope Z_scope.

(** Specification: exact sum and maximum of a list of integers. *)
Definition sum_of (l : list Z) : Z := fold_right Z.add 0 l.
Definition max_of (l : list Z) : Z := fold_right Z.max 0 l.

Section Ints.
  Context (signed : bool) (w : Z) (Hw : width signed w).
  Local Notation mx := (int_max signed w).
  Local Notation co := (checked_ops signed w).
  Local Notation word := (in_word signed w).

  Lemma max_pos : 0 < mx.
  Proof.
    unfold int_max. unfold width in Hw. destruct signed.
    - assert (2 ^ 1 <= 2 ^ (w - 1)) by (apply Z.pow_le_mono_r; lia). lia.
    - assert (2 ^ 1 <= 2 ^ w) by (apply Z.pow_le_mono_r; lia). lia.
  Qed.
  Lemma min_le0 : int_min signed w <= 0.
  Proof. unfold int_min. destruct signed; [|lia]. assert (0 <= 2 ^ (w - 1)) by (apply Z.pow_nonneg; lia). lia. Qed.
  Lemma check_nonneg : forall x, 0 <= x -> check signed w x = if x <=? mx then Ok x else Panic.
  Proof.
    intros x H. unfold check, in_wordb. pose proof min_le0. replace (int_min signed w <=? x) with true by (symmetry; apply Z.leb_le; lia). reflexivity.
  Qed.
  Lemma norm_check : forall x, word x -> int_norm_l1 signed w x = if Z.abs x <=? mx then Ok (Z.abs x) else Panic.
  Proof.
    intros x (H1 & H2). unfold int_norm_l1. pose proof check_nonneg as C. destruct signed.
    - unfold sint_norm_l1, checked_abs. apply C. lia.
    - unfold uint_norm_l1. unfold int_min in H1. rewrite Z.abs_eq by lia. replace (x <=? _) with true by (symmetry; apply Z.leb_le; lia). reflexivity.
  Qed.

  (** The norm of an integer is its absolute value; it panics for the least value of a signed type only. *)
  Theorem C79_scalar : forall x, word x ->
    (int_norm_l1 signed w x = Panic <-> signed = true /\ x = int_min signed w) /\
    (forall y, int_norm_l1 signed w x = Ok y -> y = Z.abs x /\ word y) /\
    int_norm_l_inf signed w x = int_norm_l1 signed w x /\
    (forall y, int_norm_l2_sqr signed w x = Ok y -> y = x * x /\ word y) /\
    (int_norm_l2_sqr signed w x = Panic <-> mx < x * x) /\ p_dot co x x = int_norm_l2_sqr signed w x.
  Proof.
    intros x Wx. rewrite norm_check by auto.
    assert (SQ : int_norm_l2_sqr signed w x = if x * x <=? mx then Ok (x * x) else Panic).
    { rewrite <- check_nonneg by nia. unfold int_norm_l2_sqr, sint_norm_l2_sqr, uint_norm_l2_sqr. destruct signed; reflexivity. }
    destruct Wx as (H1 & H2). split; [|split; [|split; [|split; [|split]]]].
    - destruct (Z.leb_spec (Z.abs x) mx) as [L|L]; split; try discriminate; try tauto.
      + intros (-> & ->). exfalso. unfold int_min, int_max in L. lia.
      + intros _. unfold int_min, int_max in *. destruct signed; split; auto; lia.
    - destruct (Z.leb_spec (Z.abs x) mx) as [L|L]; intros y E; try discriminate. apply Ok_inj in E. subst y. split; auto. pose proof min_le0. split; lia.
    - rewrite <- norm_check by (split; auto). reflexivity.
    - rewrite SQ. destruct (Z.leb_spec (x * x) mx) as [L|L]; intros y E; try discriminate. apply Ok_inj in E. subst y. split; auto. pose proof min_le0. split; [nia|auto].
    - rewrite SQ. destruct (Z.leb_spec (x * x) mx); split; try discriminate; try tauto; lia.
    - rewrite SQ. unfold p_dot. cbn [o_mul checked_ops]. apply check_nonneg. nia.
  Qed.

  Lemma sum_nonneg : forall l, Forall (fun x => 0 <= x) l -> 0 <= sum_of l.
  Proof. induction 1; cbn; [lia|]. unfold sum_of in *. lia. Qed.
  Lemma fold_checked : forall l a, 0 <= a <= mx -> Forall (fun x => 0 <= x) l ->
    fold_res (o_add co) a l = if a + sum_of l <=? mx then Ok (a + sum_of l) else Panic.
  Proof.
    induction l as [|x l IH]; intros a Ha H; cbn [fold_res sum_of fold_right].
    - replace (a + 0) with a by lia. replace (a <=? mx) with true by (symmetry; apply Z.leb_le; lia). reflexivity.
    - inversion H; subst. cbn [o_add checked_ops]. rewrite check_nonneg by lia. pose proof (sum_nonneg H3) as P. fold (sum_of l) in *.
      destruct (Z.leb_spec (a + x) mx); cbn [bind].
      + rewrite IH by (auto; lia). replace (a + x + sum_of l) with (a + (x + sum_of l)) by lia. reflexivity.
      + replace (a + (x + sum_of l) <=? mx) with false by (symmetry; apply Z.leb_gt; lia). reflexivity.
  Qed.
  Lemma sum_checked : forall l, Forall (fun x => 0 <= x) l -> Forall (fun x => x <= mx) l ->
    v_sum co l = if ((0 <? Z.of_nat (length l)) && (sum_of l <=? mx))%bool then Ok (sum_of l) else Panic.
  Proof.
    intros [|x l] H1 H2; [reflexivity|]. unfold v_sum. rewrite v_fold_first_cons. inversion H1; inversion H2; subst.
    rewrite fold_checked by (auto; lia). reflexivity.
  Qed.
  (* a map that fails on the values above the maximum *)
  Lemma map_checked : forall (f : Z -> Z) (g : Z -> res Z) l,
    (forall x, In x l -> 0 <= f x /\ g x = if f x <=? mx then Ok (f x) else Panic) ->
    (map_res g l = Ok (map f l) /\ Forall (fun x => x <= mx) (map f l)) \/ (map_res g l = Panic /\ exists x, In x l /\ mx < f x).
  Proof.
    induction l as [|x l IH]; intros H; [left; split; [reflexivity|constructor]|]. cbn [map_res map].
    destruct (H x (or_introl eq_refl)) as (_ & ->). destruct (Z.leb_spec (f x) mx); cbn [bind].
    - destruct IH as [(-> & F)|(-> & y & Hy & Ly)]; [intros; apply H; right; auto|left|right]; cbn [bind].
      + split; auto.
      + split; auto. exists y. split; auto. right. auto.
    - right. split; auto. exists x. split; auto. left. auto.
  Qed.
  Lemma sum_ge : forall l x, Forall (fun x => 0 <= x) l -> In x l -> x <= sum_of l.
  Proof.
    induction 1 as [|y l Hy H IH]; intros Hx; [destruct Hx|]. cbn. pose proof (sum_nonneg H). unfold sum_of in *. destruct Hx as [->|Hx]; [lia|]. specialize (IH Hx). lia.
  Qed.
  Lemma map_sum : forall (f : Z -> Z) (g : Z -> res Z) l,
    (forall x, In x l -> 0 <= f x /\ g x = if f x <=? mx then Ok (f x) else Panic) ->
    (let! a := map_res g l in v_sum co a) =
      if ((0 <? Z.of_nat (length l)) && (sum_of (map f l) <=? mx))%bool then Ok (sum_of (map f l)) else Panic.
  Proof.
    intros f g l H. assert (P : Forall (fun x => 0 <= x) (map f l)). { rewrite Forall_map, Forall_forall. intros x Hx. apply H. auto. }
    destruct (map_checked f g l H) as [(-> & F)|(-> & x & Hx & L)]; cbn [bind].
    - rewrite sum_checked by auto. rewrite map_length. reflexivity.
    - pose proof (@sum_ge (map f l) (f x) P (in_map f l x Hx)). replace (sum_of (map f l) <=? mx) with false by (symmetry; apply Z.leb_gt; lia).
      rewrite Bool.andb_false_r. reflexivity.
  Qed.

  Lemma in_word_all : forall l x, Forall word l -> In x l -> word x.
  Proof. intros l x H. rewrite Forall_forall in H. auto. Qed.

  (** [norm_l1] of a vector of machine integers is the exact sum of absolute values whenever that fits, and panics
      otherwise (and for N = 0); it never returns anything else. *)
  Theorem C79_norm_l1 : forall v, Forall word v ->
    v_norm_l1 co (int_norm_l1 signed w) v =
      if ((0 <? Z.of_nat (length v)) && (sum_of (map Z.abs v) <=? mx))%bool then Ok (sum_of (map Z.abs v)) else Panic.
  Proof.
    intros v H. unfold v_norm_l1. rewrite v_map_res. apply map_sum. intros x Hx. split; [lia|]. apply norm_check. eapply in_word_all; eauto.
  Qed.
  (** [square_length] of a vector of machine integers. *)
  Theorem C79_square_length : forall v, Forall word v ->
    v_square_length co v =
      if ((0 <? Z.of_nat (length v)) && (sum_of (map (fun x => x * x) v) <=? mx))%bool then Ok (sum_of (map (fun x => x * x) v)) else Panic.
  Proof.
    intros v H. unfold v_square_length. rewrite v_map_res. apply map_sum. intros x Hx. split; [nia|]. cbn [o_mul checked_ops]. apply check_nonneg. nia.
  Qed.
  Lemma max_list : forall l x, Forall (fun x => 0 <= x) (x :: l) -> v_max co (x :: l) = Ok (max_of (x :: l)).
  Proof.
    intros l x H. unfold v_max. rewrite v_fold_first_cons. revert x H. induction l as [|y l IH]; intros x H.
    - cbn. inversion H; subst. f_equal. lia.
    - cbn [fold_res]. cbn [o_lt checked_ops bind]. inversion H as [|? ? Hx H']; subst. inversion H' as [|? ? Hy H'']; subst.
      replace (if x <? y then y else x) with (Z.max x y) by (destruct (Z.ltb_spec x y); lia).
      rewrite IH by (constructor; auto; lia). f_equal. cbn. lia.
  Qed.
  (** [norm_l_inf] is the largest absolute value; it panics for N = 0 and when some element is the least value of a
      signed type. *)
  Theorem C79_norm_l_inf : forall v, Forall word v ->
    v_norm_l_inf co (int_norm_l_inf signed w) v =
      if ((0 <? Z.of_nat (length v)) && (max_of (map Z.abs v) <=? mx))%bool then Ok (max_of (map Z.abs v)) else Panic.
  Proof.
    intros v H. unfold v_norm_l_inf. rewrite v_map_res. change (int_norm_l_inf signed w) with (int_norm_l1 signed w).
    assert (G : forall x, In x v -> 0 <= Z.abs x /\ int_norm_l1 signed w x = if Z.abs x <=? mx then Ok (Z.abs x) else Panic).
    { intros x Hx. split; [lia|]. apply norm_check. eapply in_word_all; eauto. }
    pose proof max_pos as MP.
    destruct (map_checked Z.abs (int_norm_l1 signed w) v G) as [(-> & F)|(-> & x & Hx & L)]; cbn [bind].
    - destruct v as [|x v]; [reflexivity|]. cbn [map]. rewrite max_list.
      + assert (B : max_of (map Z.abs (x :: v)) <= mx). { clear - F MP. revert F. generalize (map Z.abs (x :: v)). intros l F. induction F; [unfold max_of; cbn [fold_right]; lia|]. change (max_of (x0 :: l)) with (Z.max x0 (max_of l)). lia. }
        cbn [map] in B. replace (max_of _ <=? mx) with true by (symmetry; apply Z.leb_le; exact B). reflexivity.
      + change (Z.abs x :: map Z.abs v) with (map Z.abs (x :: v)). rewrite Forall_map, Forall_forall. intros. lia.
    - assert (B : mx < max_of (map Z.abs v)). { clear - Hx L. induction v as [|y v IH]; [destruct Hx|]. cbn. destruct Hx as [->|Hx]; [lia|]. specialize (IH Hx). unfold max_of in IH. lia. }
      replace (max_of (map Z.abs v) <=? mx) with false by (symmetry; apply Z.leb_gt; lia). rewrite Bool.andb_false_r. reflexivity.
  Qed.
  (** [max_of] above is what it should be: attained, and not exceeded. *)
  Theorem C79_max_of : forall v, v <> [] ->
    (exists x, In x v /\ max_of (map Z.abs v) = Z.abs x) /\ forall x, In x v -> Z.abs x <= max_of (map Z.abs v).
  Proof.
    intros v H. split.
    - induction v as [|x v IH]; [congruence|]. destruct v as [|y v]. { exists x. split; [left; auto|]. cbn. lia. }
      destruct IH as (z & Hz & E); [discriminate|]. cbn [map max_of fold_right] in E |- *. destruct (Z.max_spec (Z.abs x) (Z.max (Z.abs y) (fold_right Z.max 0 (map Z.abs v)))) as [(_ & ->)|(_ & ->)].
      + exists z. split; [right; auto|auto].
      + exists x. split; [left; auto|auto].
    - intros x Hx. clear H. induction v as [|y v IH]; [destruct Hx|]. cbn. destruct Hx as [->|Hx]; [lia|]. specialize (IH Hx). unfold max_of in IH. lia.
  Qed.

End Ints.

Lemma map_res_concat : forall A B (g : A -> res B) m, map_res g (concat m) = (let! r := map_res (map_res g) m in Ok (concat r)).
Proof.
  intros A B g m. induction m as [|r m IH]; [reflexivity|]. cbn [concat map_res].
  assert (E : forall l l', map_res g (l ++ l') = (let! a := map_res g l in let! b := map_res g l' in Ok (a ++ b))).
  { clear. induction l as [|x l IH]; intros l'; cbn [app map_res bind]. { destruct (map_res g l'); reflexivity. }
    destruct (g x); cbn [bind]; auto. rewrite IH. destruct (map_res g l); cbn [bind]; auto. destruct (map_res g l'); reflexivity. }
  rewrite E, IH. destruct (map_res g r); cbn [bind]; auto. destruct (map_res (map_res g) m); reflexivity.
Qed.
Lemma map_res_len : forall A B (g : A -> res B) l r, map_res g l = Ok r -> length r = length l.
Proof.
  intros A B g l. induction l as [|x l IH]; intros r H; cbn [map_res] in H. { apply Ok_inj in H. subst. reflexivity. }
  destruct (g x); cbn [bind] in H; try discriminate. destruct (map_res g l) eqn:E; cbn [bind] in H; try discriminate. apply Ok_inj in H. subst. cbn. auto.
Qed.
Lemma map_res_rect : forall A B (g : A -> res B) M N m r, rect M N m -> map_res (map_res g) m = Ok r -> rect M N r.
Proof.
  intros A B g M N m r (L & F) H. split. { rewrite (map_res_len _ _ H). auto. } clear L. revert r H. induction F as [|x l Hx F IH]; intros r H; cbn [map_res] in H.
  { apply Ok_inj in H. subst. constructor. }
  destruct (map_res g x) eqn:E; cbn [bind] in H; try discriminate. destruct (map_res (map_res g) l); cbn [bind] in H; try discriminate. apply Ok_inj in H. subst.
  constructor; auto. rewrite (map_res_len _ _ E). auto.
Qed.
(* a map followed by a fold without initial value reads the elements of a matrix row by row *)
Lemma m_map_fold : forall A B (g : A -> res B) (f : B -> B -> res B) M N m, rect M N m ->
  (let! a := m_map g m in m_fold_first f a) = (let! a := v_map g (concat m) in v_fold_first f a).
Proof.
  intros A B g f M N m R. rewrite m_map_res, v_map_res, map_res_concat. destruct (map_res (map_res g) m) as [r| | |] eqn:E; cbn [bind]; auto.
  pose proof (@map_res_rect _ _ g M N m r R E) as R'. destruct (Nat.eq_dec N 0) as [->|HN].
  - rewrite (@m_fold_first_empty _ f M 0%nat r R') by auto. pose proof (rect_concat_length R') as L. destruct (concat r); [reflexivity|]. cbn in L. lia.
  - rewrite (@m_fold_first_flat _ f M N r R') by lia. reflexivity.
Qed.

(** The norms of a matrix are the norms of the vector of its elements, read row by row. *)
Theorem C79_matrix : forall T (o : Ops T) n M N (m : list (list T)), rect M N m ->
  m_norm_l1 o n m = v_norm_l1 o n (concat m) /\ m_norm_l_inf o n m = v_norm_l_inf o n (concat m) /\
  m_norm_l2_sqr o m = v_norm_l2_sqr o (concat m).
Proof. intros T o n M N m R. repeat split; eapply m_map_fold; eauto. Qed.

(** Release builds: arithmetic wraps. *)
Section Release.
  Context (signed : bool) (w : Z) (Hw : width signed w).
  Local Notation wo := (wrapping_ops signed w).
  Local Notation wr := (wrap signed w).
  Local Notation word := (in_word signed w).

  Lemma wrap_add : forall x y, wr (wr x + wr y) = wr (x + y).
  Proof.
    intros x y. destruct (@wrap_spec _ _ Hw x) as (_ & k & ->). destruct (@wrap_spec _ _ Hw y) as (_ & l & ->).
    apply (@wrap_cong _ _ Hw) with (k + l). ring.
  Qed.
  Lemma release_n1 : forall x, word x -> release_norm_l1 signed w x = Ok (wr (Z.abs x)).
  Proof.
    intros x Wx. pose proof (@wrap_id _ _ Hw) as I. unfold release_norm_l1. destruct signed; [reflexivity|]. unfold uint_norm_l1. destruct Wx as (H1 & H2) eqn:E. cbn in H1.
    rewrite Z.abs_eq by lia. rewrite I by (split; auto). reflexivity.
  Qed.
  (** [norm_l1] returns the exact sum of absolute values reduced to the word, whatever the elements. *)
  Theorem C79_release_norm_l1 : forall v, Forall word v -> v <> [] ->
    v_norm_l1 wo (release_norm_l1 signed w) v = Ok (wr (sum_of (map Z.abs v))).
  Proof.
    intros v H NE. unfold v_norm_l1. rewrite v_map_res.
    assert (E : map_res (release_norm_l1 signed w) v = Ok (map (fun x => wr (Z.abs x)) v)).
    { clear NE. induction H as [|x l Hx H IH]; [reflexivity|]. cbn [map_res]. rewrite (release_n1 Hx). cbn [bind]. rewrite IH. reflexivity. }
    rewrite E. cbn [bind]. destruct v as [|x v]; [congruence|]. cbn [map]. unfold v_sum. rewrite v_fold_first_cons. clear NE H E. cbn [map sum_of fold_right].
    fold (sum_of (map Z.abs v)). generalize (Z.abs x). induction v as [|y v IH]; intros s; cbn [map fold_res]. { cbn. rewrite Z.add_0_r. reflexivity. }
    cbn [o_add wrapping_ops bind]. rewrite wrap_add, IH. cbn [sum_of fold_right]. fold (sum_of (map Z.abs v)). f_equal. f_equal. lia.
  Qed.
  (** [norm_l_inf] is exact if no element is the least value of a signed type ... *)
  Theorem C79_release_norm_l_inf : forall v, Forall word v -> v <> [] -> (signed = true -> ~ In (int_min signed w) v) ->
    v_norm_l_inf wo (release_norm_l_inf signed w) v = Ok (max_of (map Z.abs v)).
  Proof.
    intros v H NE NM. unfold v_norm_l_inf. rewrite v_map_res. change (release_norm_l_inf signed w) with (release_norm_l1 signed w).
    assert (E : map_res (release_norm_l1 signed w) v = Ok (map Z.abs v)).
    { clear NE. induction H as [|x l Hx H IH]; [reflexivity|]. cbn [map_res]. rewrite (release_n1 Hx), (@wrap_id _ _ Hw).
      - cbn [bind]. rewrite IH by (intros ? ?; apply NM; auto; right; auto). reflexivity.
      - destruct Hx as (H1 & H2). assert (signed = true -> x <> int_min signed w) by (intros S ->; apply NM; auto; left; auto). clear - H0 H1 H2 Hw.
        unfold in_word, int_min, int_max in *. destruct signed; [specialize (H0 eq_refl)|]; lia. }
    rewrite E. cbn [bind]. destruct v as [|x v]; [congruence|]. cbn [map]. change (v_max wo) with (v_max (checked_ops signed w)).
    apply max_list. change (Z.abs x :: map Z.abs v) with (map Z.abs (x :: v)). rewrite Forall_map, Forall_forall. intros. lia.
  Qed.
End Release.
Lemma max_in : forall o l x m, (forall a b, o_lt o a b = Z.ltb a b) -> v_max o (x :: l) = Ok m -> In m (x :: l).
Proof.
  intros o l x m Ho. unfold v_max. rewrite v_fold_first_cons. revert x. induction l as [|y l IH]; intros x E; cbn [fold_res] in E.
  - apply Ok_inj in E. left. auto.
  - cbn [bind] in E. apply IH in E. destruct (o_lt o x y); destruct E as [<-|E]; cbn; auto.
Qed.
(** ... and otherwise it is always too small: the least value counts as the negative number it wraps to. *)
Theorem C79_release_norm_l_inf_wrong : forall w v, width true w -> Forall (in_word true w) v -> In (int_min true w) v ->
  exists r, v_norm_l_inf (wrapping_ops true w) (release_norm_l_inf true w) v = Ok r /\ r < max_of (map Z.abs v).
Proof.
  intros w v Hw H HI. unfold v_norm_l_inf. rewrite v_map_res. change (release_norm_l_inf true w) with (release_norm_l1 true w).
  assert (E : map_res (release_norm_l1 true w) v = Ok (map (fun x => wrap true w (Z.abs x)) v)).
  { clear HI. induction H as [|x l Hx H IH]; [reflexivity|]. cbn [map_res]. rewrite (release_n1 Hw Hx). cbn [bind]. rewrite IH. reflexivity. }
  rewrite E. cbn [bind]. assert (NE : v <> []) by (intros ->; destruct HI). destruct v as [|x v]; [congruence|]. cbn [map].
  destruct (v_max (wrapping_ops true w) (wrap true w (Z.abs x) :: map (fun y => wrap true w (Z.abs y)) v)) as [r| | |] eqn:ER.
  2-4: exfalso; unfold v_max in ER; rewrite v_fold_first_cons in ER; revert ER; clear; generalize (wrap true w (Z.abs x)); induction v; intros z; cbn [map fold_res bind]; [discriminate|apply IHv].
  exists r. split; auto. apply max_in in ER; [|reflexivity].
  assert (B : r <= int_max true w).
  { change (In r (map (fun y => wrap true w (Z.abs y)) (x :: v))) in ER. apply in_map_iff in ER as (y & <- & _). apply (@wrap_spec _ _ Hw). }
  assert (G : Z.abs (int_min true w) <= max_of (map Z.abs (x :: v))) by (apply C79_max_of; auto).
  cbn [map] in G. unfold int_min, int_max in *. lia.
Qed.
Example C79_release_example : v_norm_l_inf (wrapping_ops true 8) (release_norm_l_inf true 8) [-128; 3] = Ok 3 /\
  v_norm_l_inf (checked_ops true 8) (int_norm_l_inf true 8) [-128; 3] = Panic /\
  v_norm_l1 (wrapping_ops true 8) (release_norm_l1 true 8) [100; -100] = Ok (-56) /\
  v_norm_l1 (checked_ops true 8) (int_norm_l1 true 8) [100; -27] = Ok 127 /\
  m_norm_l_inf (checked_ops true 8) (int_norm_l_inf true 8) [[5; -7]; [-127; 0]] = Ok 127 /\
  v_norm_l1 (checked_ops false 8) (int_norm_l1 false 8) [200; 55] = Ok 255.
Proof. vm_compute. repeat split; reflexivity. Qed.

Print Assumptions C79_scalar.
Print Assumptions C79_norm_l1.
Print Assumptions C79_square_length.
Print Assumptions C79_norm_l_inf.
Print Assumptions C79_max_of.
Print Assumptions C79_matrix.
Print Assumptions C79_release_norm_l1.
Print Assumptions C79_release_norm_l_inf.
Print Assumptions C79_release_norm_l_inf_wrong.
