(** Theory of determinants over a commutative ring, for matrices given as functions of indices. *)
From Coq Require Import Ring Permutation Sorted.
From Verif Require Export SpecDet AlgFacts.
Set Implicit Arguments.
Local Open Scope nat_scope.
Local Open Scope list_scope.

(* ------------------------------------------------------------------------- *)
(** * Lists of numbers                                                         *)

Lemma nodupb_NoDup : forall l, nodupb l = true <-> NoDup l.
Proof.
  induction l; simpl. { split; auto. constructor. }
  rewrite andb_true_iff, negb_true_iff, IHl. split.
  - intros (H & N). constructor; auto. intros I.
    assert (E : existsb (Nat.eqb a) l = true) by (apply existsb_exists; exists a; split; auto; apply Nat.eqb_refl).
    congruence.
  - intros H. inversion H; subst. split; auto. apply not_true_is_false. intros E.
    apply existsb_exists in E as (x & I & Ex). apply Nat.eqb_eq in Ex. subst. contradiction.
Qed.

Lemma in_tuples : forall k c l, In l (tuples k c) <-> length l = k /\ incl l c.
Proof.
  induction k; intros c l; simpl.
  - split.
    + intros [<-|[]]. split; auto. intros x [].
    + intros (H & _). destruct l; auto. discriminate.
  - rewrite in_flat_map. split.
    + intros (j & Hj & H). apply in_map_iff in H as (t & <- & H). apply IHk in H as (L & I).
      simpl. split; auto. intros x [->|Hx]; auto.
    + intros (L & I). destruct l as [|j t]; [discriminate|]. exists j. split; [apply I; left; auto|].
      apply in_map. apply IHk. split; [simpl in L; lia|]. intros x Hx. apply I. right. auto.
Qed.

Lemma NoDup_app_disj : forall A (l1 l2 : list A), NoDup l1 -> NoDup l2 ->
  (forall x, In x l1 -> ~ In x l2) -> NoDup (l1 ++ l2).
Proof.
  induction l1; intros l2 H1 H2 H; simpl; auto. inversion H1; subst. constructor.
  - intros I. apply in_app_iff in I as [I|I]; [contradiction|]. apply (H a); [left|]; auto.
  - apply IHl1; auto. intros. apply H. right. auto.
Qed.

Lemma NoDup_tuples : forall k c, NoDup c -> NoDup (tuples k c).
Proof.
  induction k; intros c H; simpl. { constructor; auto. constructor. }
  specialize (IHk c H). revert IHk. generalize (tuples k c) as ts. clear k.
  induction H as [|j c Hj Hc IH]; intros ts Ht; simpl. { constructor. }
  apply NoDup_app_disj.
  - clear -Ht. induction Ht; simpl; constructor; auto. intros I. apply in_map_iff in I as (t & E & I).
    injection E as ->. contradiction.
  - apply IH. auto.
  - intros l I J. apply in_map_iff in I as (t & <- & _). apply in_flat_map in J as (j' & Hj' & J).
    apply in_map_iff in J as (t' & E & _). injection E as -> ->. contradiction.
Qed.

Lemma perm_seq : forall n l, NoDup l -> length l = n -> (forall x, In x l -> x < n) -> Permutation l (seq 0 n).
Proof.
  intros n l N L I. apply NoDup_Permutation_bis; auto.
  - rewrite seq_length. lia.
  - intros x Hx. apply in_seq. specialize (I x Hx). lia.
Qed.

Lemma in_perms : forall n l, In l (perms n) <-> Permutation l (seq 0 n).
Proof.
  intros. unfold perms. rewrite filter_In, in_tuples, nodupb_NoDup. split.
  - intros ((L & I) & N). apply perm_seq; auto. intros x Hx. apply I in Hx. apply in_seq in Hx. lia.
  - intros P. repeat split.
    + rewrite (Permutation_length P). apply seq_length.
    + intros x Hx. apply (Permutation_in _ P). auto.
    + apply (Permutation_NoDup (Permutation_sym P)). apply seq_NoDup.
Qed.

Lemma NoDup_perms : forall n, NoDup (perms n).
Proof. intros. apply NoDup_filter. apply NoDup_tuples. apply seq_NoDup. Qed.

(** Removal of the element at a position. *)
Fixpoint remove_at {A : Type} (k : nat) (l : list A) : list A :=
  match l, k with
  | [], _ => []
  | _ :: t, O => t
  | a :: t, S k => a :: remove_at k t
  end.

Lemma remove_at_length : forall A (l : list A) k, k < length l -> length (remove_at k l) = length l - 1.
Proof.
  induction l; intros k H; simpl in *; [lia|]. destruct k; simpl; [lia|]. rewrite IHl by lia. lia.
Qed.
Lemma remove_at_app : forall A (l1 l2 : list A) a, remove_at (length l1) (l1 ++ a :: l2) = l1 ++ l2.
Proof. induction l1; simpl; intros; auto. rewrite IHl1. reflexivity. Qed.
Lemma nth_remove_at : forall A (l : list A) k a d, nth a (remove_at k l) d = nth (skip k a) l d.
Proof.
  intros A l k a d. revert k a. induction l; intros k b; simpl.
  - destruct k; destruct (skip _ b); destruct b; reflexivity.
  - destruct k; simpl. { destruct b; reflexivity. }
    destruct b; simpl. { reflexivity. }
    rewrite IHl. unfold skip. change (S b <? S k) with (b <? k). destruct (b <? k); reflexivity.
Qed.

(** Insertion sort. *)
Fixpoint insert (a : nat) (s : list nat) : list nat :=
  match s with
  | [] => [a]
  | b :: t => if a <=? b then a :: s else b :: insert a t
  end.
Fixpoint isort (l : list nat) : list nat :=
  match l with [] => [] | a :: t => insert a (isort t) end.

Lemma insert_perm : forall a s, Permutation (insert a s) (a :: s).
Proof.
  induction s; simpl; auto. destruct (a <=? a0); auto. rewrite IHs. apply perm_swap.
Qed.
Lemma isort_perm : forall l, Permutation (isort l) l.
Proof. induction l; simpl; auto. rewrite insert_perm, IHl. reflexivity. Qed.

Lemma sorted_seq : forall n a, StronglySorted lt (seq a n).
Proof.
  induction n; intros a; simpl; constructor; auto. apply Forall_forall. intros x H. apply in_seq in H. lia.
Qed.

Lemma sorted_unique : forall l1 l2, StronglySorted lt l1 -> StronglySorted lt l2 -> Permutation l1 l2 -> l1 = l2.
Proof.
  induction l1 as [|a l1 IH]; intros l2 S1 S2 P.
  - apply Permutation_nil in P. auto.
  - destruct l2 as [|b l2]; [apply Permutation_sym in P; apply Permutation_nil in P; discriminate|].
    inversion S1 as [|? ? S1' F1]; inversion S2 as [|? ? S2' F2]; subst.
    assert (a = b).
    { assert (I : In a (b :: l2)) by (apply (Permutation_in _ P); left; auto).
      assert (J : In b (a :: l1)) by (apply (Permutation_in _ (Permutation_sym P)); left; auto).
      rewrite Forall_forall in F1, F2. destruct I as [<-|I]; auto. destruct J as [<-|J]; auto.
      specialize (F2 _ I). specialize (F1 _ J). lia. }
    subst b. f_equal. apply IH; auto. apply (Permutation_cons_inv P).
Qed.

Lemma sorted_NoDup : forall l, StronglySorted lt l -> NoDup l.
Proof.
  induction 1; constructor; auto. intros I. rewrite Forall_forall in H0. specialize (H0 _ I). lia.
Qed.

(* ------------------------------------------------------------------------- *)
(** * Sums and products over lists                                             *)

Section Det.
  Context {T : Type} {o : Ops T} (R : CRing o).
  Add Ring Rdet : (CRing_theory R).
  Local Notation "0" := (o_zero o).
  Local Notation "1" := (o_one o).
  Local Notation "x + y" := (r_add R x y).
  Local Notation "x * y" := (r_mul R x y).
  Local Notation "- x" := (r_opp R x).
  Local Notation "x - y" := (r_sub R x y).
  Local Notation lsum := (lsum R).
  Local Notation lprod := (lprod R).
  Local Notation signed := (signed R).

  Lemma lsum_ext : forall A (f g : A -> T) l, (forall x, In x l -> f x = g x) -> lsum f l = lsum g l.
  Proof. induction l; simpl; intros H; auto. rewrite (H a), IHl; auto. Qed.
  Lemma lsum_app : forall A (f : A -> T) l1 l2, lsum f (l1 ++ l2) = lsum f l1 + lsum f l2.
  Proof. induction l1; simpl; intros; [ring|]. rewrite IHl1. ring. Qed.
  Lemma lsum_map : forall A B (f : B -> T) (g : A -> B) l, lsum f (map g l) = lsum (fun x => f (g x)) l.
  Proof. induction l; simpl; auto. rewrite IHl. auto. Qed.
  Lemma lsum_flat_map : forall A B (f : B -> T) (g : A -> list B) l,
    lsum f (flat_map g l) = lsum (fun x => lsum f (g x)) l.
  Proof. induction l; simpl; auto. rewrite lsum_app, IHl. auto. Qed.
  Lemma lsum_zero : forall A (l : list A), lsum (fun _ => 0) l = 0.
  Proof. induction l; simpl; auto. rewrite IHl. ring. Qed.
  Lemma lsum_add : forall A (f g : A -> T) l, lsum (fun x => f x + g x) l = lsum f l + lsum g l.
  Proof. induction l; simpl; [ring|]. rewrite IHl. ring. Qed.
  Lemma lsum_mul_l : forall A c (f : A -> T) l, lsum (fun x => c * f x) l = c * lsum f l.
  Proof. induction l; simpl; [ring|]. rewrite IHl. ring. Qed.
  Lemma lsum_mul_r : forall A c (f : A -> T) l, lsum (fun x => f x * c) l = lsum f l * c.
  Proof. induction l; simpl; [ring|]. rewrite IHl. ring. Qed.
  Lemma lsum_opp : forall A (f : A -> T) l, lsum (fun x => - f x) l = - lsum f l.
  Proof. induction l; simpl; [ring|]. rewrite IHl. ring. Qed.
  Lemma lsum_swap : forall A B (f : A -> B -> T) l1 l2,
    lsum (fun x => lsum (f x) l2) l1 = lsum (fun y => lsum (fun x => f x y) l1) l2.
  Proof.
    induction l1; intros l2; simpl. { symmetry. apply lsum_zero. } rewrite IHl1. symmetry. apply lsum_add.
  Qed.
  Lemma lsum_perm : forall A (f : A -> T) l1 l2, Permutation l1 l2 -> lsum f l1 = lsum f l2.
  Proof. induction 1; simpl; auto; try congruence; ring. Qed.
  Lemma lsum_filter : forall A (p : A -> bool) (f : A -> T) l,
    (forall x, In x l -> p x = false -> f x = 0) -> lsum f (filter p l) = lsum f l.
  Proof.
    induction l; simpl; intros H; auto. destruct (p a) eqn:E; simpl; rewrite IHl by auto; auto.
    rewrite (H a) by auto. ring.
  Qed.
  Lemma lsum_seq : forall n f, lsum f (seq 0 n) = bigsum R n f.
  Proof.
    induction n; intros; auto. rewrite seq_S, lsum_app, IHn. simpl. ring.
  Qed.

  Lemma lprod_ext : forall A (f g : A -> T) l, (forall x, In x l -> f x = g x) -> lprod f l = lprod g l.
  Proof. induction l; simpl; intros H; auto. rewrite (H a), IHl; auto. Qed.
  Lemma lprod_app : forall A (f : A -> T) l1 l2, lprod f (l1 ++ l2) = lprod f l1 * lprod f l2.
  Proof. induction l1; simpl; intros; [ring|]. rewrite IHl1. ring. Qed.
  Lemma lprod_map : forall A B (f : B -> T) (g : A -> B) l, lprod f (map g l) = lprod (fun x => f (g x)) l.
  Proof. induction l; simpl; auto. rewrite IHl. auto. Qed.
  Lemma lprod_perm : forall A (f : A -> T) l1 l2, Permutation l1 l2 -> lprod f l1 = lprod f l2.
  Proof. induction 1; simpl; auto; try congruence; ring. Qed.
  Lemma lprod_one : forall A (l : list A), lprod (fun _ => 1) l = 1.
  Proof. induction l; simpl; auto. rewrite IHl. ring. Qed.
  Lemma lprod_mul : forall A (f g : A -> T) l, lprod (fun x => f x * g x) l = lprod f l * lprod g l.
  Proof. induction l; simpl; [ring|]. rewrite IHl. ring. Qed.

  Lemma signed_S : forall k x, signed (S k) x = - signed k x.
  Proof. intros. unfold SpecDet.signed. rewrite Nat.even_succ, <- Nat.negb_even. destruct (Nat.even k); simpl; ring. Qed.
  Lemma signed_add : forall a b x, signed (a + b) x = signed a (signed b x).
  Proof. induction a; intros; auto. simpl Nat.add. rewrite !signed_S, IHa. auto. Qed.
  Lemma signed_mul_l : forall k x y, signed k x * y = signed k (x * y).
  Proof. intros. unfold SpecDet.signed. destruct (Nat.even k); ring. Qed.
  Lemma signed_mul_r : forall k x y, x * signed k y = signed k (x * y).
  Proof. intros. unfold SpecDet.signed. destruct (Nat.even k); ring. Qed.
  Lemma signed_one : forall k x, signed k x = signed k 1 * x.
  Proof. intros. rewrite signed_mul_l. f_equal. ring. Qed.
  Lemma signed_signed : forall k x, signed k (signed k x) = x.
  Proof. intros. unfold SpecDet.signed. destruct (Nat.even k); ring. Qed.
  Lemma signed_zero : forall k, signed k 0 = 0.
  Proof. intros. unfold SpecDet.signed. destruct (Nat.even k); ring. Qed.
  Lemma signed_add_distr : forall k x y, signed k (x + y) = signed k x + signed k y.
  Proof. intros. unfold SpecDet.signed. destruct (Nat.even k); ring. Qed.
  Lemma signed_lsum : forall A k (f : A -> T) l, signed k (lsum f l) = lsum (fun x => signed k (f x)) l.
  Proof. induction l; simpl. { apply signed_zero. } rewrite signed_add_distr, IHl. auto. Qed.

  (** Sums over tuples. *)
  Lemma lsum_tuples_S : forall k c F,
    lsum F (tuples (S k) c) = lsum (fun j => lsum (fun l => F (j :: l)) (tuples k c)) c.
  Proof. intros. simpl. rewrite lsum_flat_map. apply lsum_ext. intros. apply lsum_map. Qed.
  Lemma lsum_tuples_app : forall a b c F,
    lsum F (tuples (a + b) c) = lsum (fun l1 => lsum (fun l2 => F (l1 ++ l2)) (tuples b c)) (tuples a c).
  Proof.
    induction a; intros b c F.
    - change (tuples 0 c) with [@nil nat]. change (0 + b)%nat with b. unfold SpecDet.lsum at 2. cbn [fold_right].
      change (lsum F (tuples b c) = lsum F (tuples b c) + 0). ring.
    - change (S a + b)%nat with (S (a + b)). rewrite !lsum_tuples_S. apply lsum_ext. intros j _.
      rewrite IHa. reflexivity.
  Qed.
  Lemma lsum_tuples_restrict : forall j k c1 c2 F, (forall l, In j l -> F l = 0) ->
    lsum F (tuples k (c1 ++ j :: c2)) = lsum F (tuples k (c1 ++ c2)).
  Proof.
    intros j. induction k; intros c1 c2 F H; auto. rewrite !lsum_tuples_S, !lsum_app. simpl.
    rewrite (@lsum_ext _ (fun l => F (j :: l)) (fun _ => 0)).
    - rewrite lsum_zero.
      rewrite (lsum_ext (fun j0 => lsum (fun l => F (j0 :: l)) (tuples k (c1 ++ j :: c2)))
                        (fun j0 => lsum (fun l => F (j0 :: l)) (tuples k (c1 ++ c2))) c1).
      + rewrite (lsum_ext (fun j0 => lsum (fun l => F (j0 :: l)) (tuples k (c1 ++ j :: c2)))
                        (fun j0 => lsum (fun l => F (j0 :: l)) (tuples k (c1 ++ c2))) c2).
        * ring.
        * intros. apply IHk. intros. apply H. right. auto.
      + intros. apply IHk. intros. apply H. right. auto.
    - intros. apply H. left. auto.
  Qed.

  (* ----------------------------------------------------------------------- *)
  (** * The sign of a sequence                                                 *)

  Definition sg (a b : nat) : T := if a <? b then 1 else if a =? b then 0 else - (1).
  Fixpoint eps (l : list nat) : T :=
    match l with [] => 1 | a :: t => lprod (sg a) t * eps t end.

  Lemma sg_refl : forall a, sg a a = 0.
  Proof. intros. unfold sg. rewrite Nat.ltb_irrefl, Nat.eqb_refl. auto. Qed.
  Lemma sg_swap : forall a b, sg a b = - sg b a.
  Proof.
    intros. unfold sg. destruct (a <? b) eqn:E1, (b <? a) eqn:E2, (a =? b) eqn:E3, (b =? a) eqn:E4; try lia; ring.
  Qed.

  Lemma eps_swap : forall l1 x y l2, eps (l1 ++ x :: y :: l2) = - eps (l1 ++ y :: x :: l2).
  Proof.
    induction l1; intros; simpl.
    - rewrite (sg_swap x y). ring.
    - rewrite IHl1. rewrite (lprod_perm (sg a) (l1 := l1 ++ x :: y :: l2) (l2 := l1 ++ y :: x :: l2)).
      + ring.
      + apply Permutation_app_head. apply perm_swap.
  Qed.
  Lemma eps_dup : forall l1 x l2, eps (l1 ++ x :: x :: l2) = 0.
  Proof. induction l1; intros; simpl; [rewrite sg_refl|rewrite IHl1]; ring. Qed.

  Lemma lprod_sg_in : forall a l, In a l -> lprod (sg a) l = 0.
  Proof.
    intros a l H. apply in_split in H as (l1 & l2 & ->). rewrite lprod_app. simpl. rewrite sg_refl. ring.
  Qed.
  Lemma lprod_sg_inv : forall a l, ~ In a l -> lprod (sg a) l = signed (length (filter (fun b => b <? a) l)) 1.
  Proof.
    induction l; simpl; intros H; auto. rewrite IHl by tauto. unfold sg. destruct (a <? a0) eqn:E.
    - replace (a0 <? a) with false by lia. ring.
    - destruct (a =? a0) eqn:E2. { exfalso. apply H. left. lia. }
      replace (a0 <? a) with true by lia. simpl length. rewrite signed_S. ring.
  Qed.
  Lemma eps_nodup : forall l, NoDup l -> eps l = signed (inversions l) 1.
  Proof.
    induction 1; simpl; auto. rewrite IHNoDup, lprod_sg_inv by auto. rewrite signed_add, <- signed_one. auto.
  Qed.
  Lemma eps_not_nodup : forall l, ~ NoDup l -> eps l = 0.
  Proof.
    induction l; simpl; intros H. { exfalso. apply H. constructor. }
    destruct (in_dec Nat.eq_dec a l).
    - rewrite lprod_sg_in by auto. ring.
    - rewrite IHl; [ring|]. intros N. apply H. constructor; auto.
  Qed.
  Lemma NoDup_dec : forall l : list nat, NoDup l \/ ~ NoDup l.
  Proof. intros. destruct (nodupb l) eqn:E; [left|right]; rewrite <- nodupb_NoDup; congruence. Qed.
  Lemma eps_sq : forall l, NoDup l -> eps l * eps l = 1.
  Proof. intros. rewrite eps_nodup by auto. unfold SpecDet.signed. destruct (Nat.even _); ring. Qed.

  Lemma eps_sorted : forall l, StronglySorted lt l -> eps l = 1.
  Proof.
    induction 1; simpl; auto. rewrite IHStronglySorted.
    assert (E : lprod (sg a) l = 1). 2: rewrite E; ring.
    clear -H0. induction H0; simpl; auto. rewrite IHForall. unfold sg. replace (a <? x) with true by lia. ring.
  Qed.

  (** Alternating functions of a sequence. *)
  Definition alternating (F : list nat -> T) : Prop :=
    (forall l1 x y l2, F (l1 ++ x :: y :: l2) = - F (l1 ++ y :: x :: l2)) /\
    (forall l1 x l2, F (l1 ++ x :: x :: l2) = 0).

  Lemma alt_insert : forall F a s pre, alternating F -> StronglySorted lt s ->
    F (pre ++ a :: s) = lprod (sg a) s * F (pre ++ insert a s) /\
    (StronglySorted lt (insert a s) \/ lprod (sg a) s = 0).
  Proof.
    intros F a s pre H S. revert pre. induction S as [|b s S IH FA]; intros pre.
    - simpl. split. { ring. } left. repeat constructor.
    - simpl. destruct (a <=? b) eqn:E.
      + destruct (a =? b) eqn:E2.
        * assert (a = b) by lia. subst b. rewrite sg_refl. split.
          -- rewrite (proj2 H). ring.
          -- right. ring.
        * assert (F2 : Forall (lt a) (b :: s)).
          { constructor; [lia|]. eapply Forall_impl; [|exact FA]. intros. simpl in *. lia. }
          split.
          -- assert (P : lprod (sg a) (b :: s) = 1).
             { clear -F2. induction F2; simpl; auto. rewrite IHF2. unfold sg. replace (a <? x) with true by lia. ring. }
             simpl in P. rewrite P. ring.
          -- left. constructor; auto. constructor; auto.
      + destruct (IH (pre ++ [b])) as (E1 & E2). rewrite <- !app_assoc in E1. simpl in E1. split.
        * rewrite (proj1 H), E1. replace (sg a b) with (- (1)). { ring. }
          unfold sg. replace (a <? b) with false by lia. replace (a =? b) with false by lia. auto.
        * destruct E2 as [E2|E2].
          -- left. constructor; auto. apply Forall_forall. intros x Hx.
             apply (Permutation_in _ (insert_perm a s)) in Hx. destruct Hx as [->|Hx]; [lia|].
             rewrite Forall_forall in FA. auto.
          -- right. rewrite E2. ring.
  Qed.

  Lemma alt_sort : forall F m pre, alternating F ->
    F (pre ++ m) = eps m * F (pre ++ isort m) /\ (StronglySorted lt (isort m) \/ eps m = 0).
  Proof.
    intros F m pre H. revert pre. induction m as [|a m IH]; intros pre.
    - simpl. split. { ring. } left. constructor.
    - destruct (IH (pre ++ [a])) as (E1 & E2). rewrite <- !app_assoc in E1. simpl in E1. rewrite E1.
      destruct E2 as [E2|E2].
      + destruct (alt_insert a pre H E2) as (E3 & E4). rewrite E3. simpl.
        rewrite (lprod_perm (sg a) (isort_perm m)) in *. split; [ring|].
        destruct E4 as [E4|E4]; [left; auto|right; rewrite E4; ring].
      + simpl. rewrite E2. split; [ring|right; ring].
  Qed.

  Lemma alt_eval : forall F n m, alternating F -> length m = n -> (forall x, In x m -> x < n) ->
    F m = eps m * F (seq 0 n).
  Proof.
    intros F n m H L I. destruct (alt_sort m [] H) as (E & S). simpl in E. rewrite E.
    destruct S as [S|S].
    - f_equal. f_equal. apply sorted_unique; auto. { apply sorted_seq. }
      rewrite isort_perm. apply perm_seq; auto.
      apply (Permutation_NoDup (isort_perm m)). apply sorted_NoDup. auto.
    - rewrite S. ring.
  Qed.

  (* ----------------------------------------------------------------------- *)
  (** * Determinants                                                           *)

  (** Product of the entries in rows [m] and columns [l], pairwise. *)
  Definition pr (A : nat -> nat -> T) (m l : list nat) : T := lprod (fun p => A (fst p) (snd p)) (combine m l).
  (** The determinant of the rows [m] with columns drawn from [c]. *)
  Definition ldet (A : nat -> nat -> T) (c m : list nat) : T :=
    lsum (fun l => eps l * pr A m l) (tuples (length m) c).

  Lemma pr_app : forall A m1 m2 l1 l2, length m1 = length l1 -> pr A (m1 ++ m2) (l1 ++ l2) = pr A m1 l1 * pr A m2 l2.
  Proof.
    unfold pr. induction m1; intros m2 [|j l1] l2 H; try discriminate; simpl; [ring|].
    rewrite IHm1 by (simpl in H; lia). ring.
  Qed.

  Lemma antisym_sum : forall (g : nat -> nat -> T) c, (forall x, g x x = 0) -> (forall x y, g x y = - g y x) ->
    lsum (fun x => lsum (g x) c) c = 0.
  Proof.
    intros g c Hd Ha. induction c; simpl; auto. rewrite Hd, lsum_add, IHc.
    rewrite (lsum_ext (g a) (fun x => - g x a)) by (intros; apply Ha). rewrite lsum_opp. ring.
  Qed.

  Lemma ldet_split : forall A c l1 x y l2, ldet A c (l1 ++ x :: y :: l2) =
    lsum (fun u => lsum (fun v => lsum (fun k1 => lsum (fun k2 =>
      eps (k1 ++ u :: v :: k2) * (pr A l1 k1 * (A x u * (A y v * pr A l2 k2))))
      (tuples (length l2) c)) (tuples (length l1) c)) c) c.
  Proof.
    intros. unfold ldet. rewrite app_length. simpl length. rewrite lsum_tuples_app.
    transitivity (lsum (fun k1 => lsum (fun u => lsum (fun v => lsum (fun k2 =>
      eps (k1 ++ u :: v :: k2) * (pr A l1 k1 * (A x u * (A y v * pr A l2 k2))))
      (tuples (length l2) c)) c) c) (tuples (length l1) c)).
    - apply lsum_ext. intros k1 H1. apply in_tuples in H1 as (L1 & _). rewrite lsum_tuples_S.
      apply lsum_ext. intros u _. rewrite lsum_tuples_S. apply lsum_ext. intros v _. apply lsum_ext. intros k2 _.
      rewrite pr_app by auto. unfold pr. simpl. ring.
    - rewrite lsum_swap. apply lsum_ext. intros u _. rewrite lsum_swap. reflexivity.
  Qed.

  Lemma ldet_alt : forall A c, alternating (ldet A c).
  Proof.
    intros. split.
    - intros. rewrite !ldet_split. rewrite <- lsum_opp.
      rewrite lsum_swap. apply lsum_ext. intros u _. rewrite <- lsum_opp. apply lsum_ext. intros v _.
      rewrite <- lsum_opp. apply lsum_ext. intros k1 _. rewrite <- lsum_opp. apply lsum_ext. intros k2 _.
      rewrite (eps_swap k1 v u). ring.
    - intros. rewrite ldet_split. apply antisym_sum.
      + intros. rewrite (lsum_ext _ (fun _ => 0)). { apply lsum_zero. } intros k1 _.
        rewrite (lsum_ext _ (fun _ => 0)). { apply lsum_zero. } intros k2 _. rewrite eps_dup. ring.
      + intros. rewrite <- lsum_opp. apply lsum_ext. intros k1 _. rewrite <- lsum_opp. apply lsum_ext. intros k2 _.
        rewrite (eps_swap k1 x0 y). ring.
  Qed.

  (** The first-row expansion used by the crate. *)
  Fixpoint pdet (A : nat -> nat -> T) (rows cols : list nat) : T :=
    match rows with
    | [] => 1
    | i :: rows' => lsum (fun k => A i (nth k cols 0%nat) * signed k (pdet A rows' (remove_at k cols)))
                         (seq 0 (length cols))
    end.

  Lemma pdet_ldet : forall A rows cols, StronglySorted lt cols -> length rows = length cols ->
    pdet A rows cols = ldet A cols rows.
  Proof.
    intros A. induction rows as [|i rows IH]; intros cols SS L.
    - unfold ldet. simpl. unfold pr. simpl. ring.
    - unfold ldet. simpl length. rewrite lsum_tuples_S. simpl pdet.
      (* sum over positions = sum over elements *)
      assert (X : forall c2 c1, cols = c1 ++ c2 ->
        lsum (fun k => A i (nth k cols 0%nat) * signed k (pdet A rows (remove_at k cols)))
             (seq (length c1) (length c2)) =
        lsum (fun j => lsum (fun l => eps (j :: l) * pr A (i :: rows) (j :: l)) (tuples (length rows) cols)) c2).
      { induction c2 as [|j c2 IHc]; intros c1 E; auto. simpl seq. unfold SpecDet.lsum at 1 2. simpl fold_right.
        f_equal.
        - rewrite E, remove_at_app, app_nth2 by lia. rewrite Nat.sub_diag. simpl nth.
          assert (S' : StronglySorted lt (c1 ++ c2) /\ Forall (fun b => b < j) c1 /\ Forall (fun b => j < b) c2).
          { clear -SS E. subst cols. induction c1 as [|a c1 IHc1]; simpl in *.
            - inversion SS; subst. auto.
            - inversion SS as [|? ? S1 F1]; subst. destruct (IHc1 S1) as (A1 & A2 & A3). rewrite Forall_app in F1.
              destruct F1 as (F1 & F2). inversion F2; subst. repeat split; auto.
              constructor; auto. apply Forall_app. auto. }
          destruct S' as (S' & F1 & F2).
          rewrite IH; auto.
          2: { subst cols. rewrite app_length in *. simpl in L. lia. }
          unfold ldet. rewrite (lsum_tuples_restrict j).
          2: { intros l Hl. simpl. rewrite lprod_sg_in by auto. ring. }
          rewrite signed_lsum, <- lsum_mul_l. apply lsum_ext. intros l Hl. apply in_tuples in Hl as (Ll & Il).
          simpl. unfold pr. simpl. destruct (NoDup_dec l) as [N|N].
          + assert (P : Permutation l (c1 ++ c2)).
            { apply NoDup_Permutation_bis; auto. subst cols. rewrite app_length in *. simpl in L. lia. }
            rewrite (lprod_perm (sg j) P), lprod_app.
            replace (lprod (sg j) c2) with 1.
            2: { clear -F2. induction F2; simpl; auto. rewrite <- IHF2. unfold sg. replace (j <? x) with true by lia. ring. }
            replace (lprod (sg j) c1) with (signed (length c1) 1).
            2: { clear -F1. induction F1; simpl; auto. rewrite <- IHF1. unfold sg.
                 replace (j <? x) with false by lia. replace (j =? x) with false by lia. rewrite signed_S. ring. }
            rewrite (signed_one (length c1)). ring.
          + rewrite (eps_not_nodup N). rewrite (signed_one (length c1)). ring.
        - change (fold_right (fun x s => A i (nth x cols 0%nat) * signed x (pdet A rows (remove_at x cols)) + s) 0
                    (seq (S (length c1)) (length c2)))
            with (lsum (fun k => A i (nth k cols 0%nat) * signed k (pdet A rows (remove_at k cols)))
                    (seq (S (length c1)) (length c2))).
          replace (S (length c1)) with (length (c1 ++ [j])) by (rewrite app_length; simpl; lia).
          apply IHc. rewrite <- app_assoc. auto. }
      apply (X cols []). auto.
  Qed.

  (** Leibniz. *)
  Lemma combine_seq : forall l a, combine (seq a (length l)) l = map (fun i => (i, nth (i - a) l 0%nat)) (seq a (length l)).
  Proof.
    induction l; intros b; simpl; auto. rewrite Nat.sub_diag. f_equal. rewrite IHl. apply map_ext_in.
    intros i Hi. apply in_seq in Hi. replace (i - b)%nat with (S (i - S b)) by lia. reflexivity.
  Qed.
  Lemma pr_seq : forall A n l, length l = n -> pr A (seq 0 n) l = lprod (fun i => A i (nth i l 0%nat)) (seq 0 n).
  Proof.
    intros A n l <-. unfold pr. rewrite combine_seq, lprod_map. apply lprod_ext. intros. simpl.
    rewrite Nat.sub_0_r. auto.
  Qed.
  Lemma ldet_leibniz : forall A n, ldet A (seq 0 n) (seq 0 n) = leibniz R n A.
  Proof.
    intros. unfold leibniz, ldet, perms. rewrite seq_length.
    rewrite <- (lsum_filter nodupb).
    - apply lsum_ext. intros l Hl. apply filter_In in Hl as (Hl & N). apply nodupb_NoDup in N.
      apply in_tuples in Hl as (L & _). rewrite eps_nodup, pr_seq by auto. symmetry. apply signed_one.
    - intros l _ N. rewrite eps_not_nodup; [ring|]. rewrite <- nodupb_NoDup. congruence.
  Qed.

  Lemma pdet_leibniz : forall A n, pdet A (seq 0 n) (seq 0 n) = leibniz R n A.
  Proof. intros. rewrite pdet_ldet; auto. { apply ldet_leibniz. } apply sorted_seq. Qed.

  Lemma leibniz_ext : forall n A B, (forall i j, i < n -> j < n -> A i j = B i j) -> leibniz R n A = leibniz R n B.
  Proof.
    intros. unfold leibniz. apply lsum_ext. intros l Hl. f_equal. apply lprod_ext. intros i Hi.
    apply in_seq in Hi. apply in_perms in Hl. apply H; [lia|].
    assert (I : In (nth i l 0%nat) (seq 0 n)).
    { apply (Permutation_in _ Hl). apply nth_In. rewrite (Permutation_length Hl), seq_length. lia. }
    apply in_seq in I. lia.
  Qed.

  (** Rows in another order. *)
  Lemma ldet_rows : forall A n m, length m = n -> (forall x, In x m -> x < n) ->
    ldet A (seq 0 n) m = eps m * leibniz R n A.
  Proof. intros. rewrite (alt_eval m (ldet_alt A (seq 0 n)) H H0). rewrite ldet_leibniz. auto. Qed.

  (** Multiplicativity. *)
  Lemma pr_sum : forall n A B m l, length m = length l ->
    pr (fun i j => lsum (fun k => A i k * B k j) (seq 0 n)) m l =
    lsum (fun q => pr A m q * pr B q l) (tuples (length m) (seq 0 n)).
  Proof.
    intros n A B. induction m; intros [|j l] H; try discriminate.
    - unfold pr. simpl. ring.
    - simpl length. rewrite lsum_tuples_S. change (pr (fun i j0 => lsum (fun k => A i k * B k j0) (seq 0 n)) (a :: m) (j :: l))
        with (lsum (fun k => A a k * B k j) (seq 0 n) * pr (fun i j0 => lsum (fun k => A i k * B k j0) (seq 0 n)) m l).
      rewrite IHm by (simpl in H; lia). rewrite <- lsum_mul_r. apply lsum_ext. intros k _.
      rewrite <- lsum_mul_l. apply lsum_ext. intros q _. unfold pr. simpl. ring.
  Qed.

  Lemma leibniz_mul : forall n A B,
    leibniz R n (fun i j => bigsum R n (fun k => A i k * B k j)) = leibniz R n A * leibniz R n B.
  Proof.
    intros. rewrite <- !ldet_leibniz. unfold ldet at 1. rewrite seq_length.
    transitivity (lsum (fun l => lsum (fun q => eps l * (pr A (seq 0 n) q * pr B q l)) (tuples n (seq 0 n))) (tuples n (seq 0 n))).
    - apply lsum_ext. intros l Hl. apply in_tuples in Hl as (L & _).
      rewrite lsum_mul_l. f_equal.
      pose proof (pr_sum n A B (seq 0 n) l) as P. rewrite seq_length in P. rewrite <- P by auto.
      unfold pr. apply lprod_ext. intros. symmetry. apply lsum_seq.
    - rewrite lsum_swap. unfold ldet at 1. rewrite seq_length, <- lsum_mul_r. apply lsum_ext. intros q Hq.
      apply in_tuples in Hq as (L & I).
      transitivity (pr A (seq 0 n) q * ldet B (seq 0 n) q).
      + unfold ldet. rewrite L, <- lsum_mul_l. apply lsum_ext. intros. ring.
      + rewrite (ldet_rows B q L); [|intros x Hx; apply I in Hx; apply in_seq in Hx; lia]. rewrite ldet_leibniz. ring.
  Qed.

  (** Identity, scaling, equal rows. *)
  Lemma lprod_zero_in : forall A (f : A -> T) l x, In x l -> f x = 0 -> lprod f l = 0.
  Proof.
    intros A f l x H E. apply in_split in H as (l1 & l2 & ->). rewrite lprod_app. simpl. rewrite E. ring.
  Qed.
  Lemma leibniz_one : forall n, leibniz R n (fun i j => if i =? j then 1 else 0) = 1.
  Proof.
    intros. unfold leibniz.
    assert (I : In (seq 0 n) (perms n)) by (apply in_perms; apply Permutation_refl).
    apply in_split in I as (p1 & p2 & E). pose proof (NoDup_perms n) as N. rewrite E in *.
    apply NoDup_remove in N as (_ & N).
    assert (Z : forall l, In l (p1 ++ p2) -> signed (inversions l)
       (lprod (fun i => if i =? nth i l 0%nat then 1 else 0) (seq 0 n)) = 0).
    { intros l Hl. assert (Hp : In l (perms n)).
      { rewrite E. apply in_app_iff in Hl. apply in_app_iff. simpl. tauto. }
      apply in_perms in Hp. pose proof (Permutation_length Hp) as L. rewrite seq_length in L.
      assert (X : exists i, i < n /\ i <> nth i l 0%nat).
      { destruct (forallb (fun i => i =? nth i l 0%nat) (seq 0 n)) eqn:F.
        - exfalso. apply N. replace (seq 0 n) with l; auto. rewrite forallb_forall in F.
          apply (nth_ext _ _ 0%nat 0%nat); [rewrite seq_length; auto|]. intros i Hi. rewrite seq_nth by lia.
          assert (Hs : In i (seq 0 n)) by (apply in_seq; lia). apply F in Hs. lia.
        - apply not_true_iff_false in F. rewrite forallb_forall in F.
          destruct (existsb (fun i => negb (i =? nth i l 0%nat)) (seq 0 n)) eqn:G.
          + apply existsb_exists in G as (i & Hi & G). apply in_seq in Hi. exists i. split; [lia|].
            apply negb_true_iff in G. lia.
          + exfalso. apply F. intros i Hi. apply not_true_iff_false in G. destruct (i =? nth i l 0%nat) eqn:Q; auto.
            exfalso. apply G. apply existsb_exists. exists i. split; auto. rewrite Q. auto. }
      destruct X as (i & Hi & X). rewrite (@lprod_zero_in _ _ _ i).
      - apply signed_zero.
      - apply in_seq. lia.
      - replace (i =? nth i l 0%nat) with false by lia. auto. }
    rewrite lsum_app. unfold SpecDet.lsum at 2. simpl fold_right. fold (lsum (fun l => signed (inversions l)
       (lprod (fun i => if i =? nth i l 0%nat then 1 else 0) (seq 0 n))) p2).
    rewrite (lsum_ext _ (fun _ => 0) p1), (lsum_ext _ (fun _ => 0) p2), !lsum_zero.
    - rewrite signed_one, <- eps_nodup, eps_sorted by (apply seq_NoDup || apply sorted_seq).
      rewrite (@lprod_ext _ _ (fun _ => 1)). { rewrite lprod_one. ring. }
      intros i Hi. apply in_seq in Hi. rewrite seq_nth by lia. rewrite Nat.eqb_refl. auto.
    - intros. apply Z. apply in_app_iff. auto.
    - intros. apply Z. apply in_app_iff. auto.
  Qed.

  Fixpoint pow (c : T) (n : nat) : T := match n with O => 1 | S k => c * pow c k end.
  Lemma leibniz_scale : forall n A c, leibniz R n (fun i j => A i j * c) = pow c n * leibniz R n A.
  Proof.
    intros. unfold leibniz. rewrite <- lsum_mul_l. apply lsum_ext. intros l _.
    rewrite signed_mul_r. f_equal. rewrite lprod_mul.
    replace (lprod (fun _ => c) (seq 0 n)) with (pow c n). { ring. }
    generalize 0%nat as a. induction n; intros a; simpl; auto. rewrite <- IHn. auto.
  Qed.

  (** The transpose: inverse permutations. *)
  Definition pos (l : list nat) (x : nat) : nat :=
    (fix go (l : list nat) := match l with [] => 0%nat | a :: t => if a =? x then 0%nat else S (go t) end) l.
  Lemma nth_pos : forall l x, In x l -> nth (pos l x) l 0%nat = x /\ pos l x < length l.
  Proof.
    induction l; intros x H; [destruct H|]. simpl. destruct (a =? x) eqn:E.
    - split; [lia|lia].
    - destruct H as [H|H]; [lia|]. destruct (IHl x H). split; auto. lia.
  Qed.
  Lemma pos_nth : forall l i, NoDup l -> i < length l -> pos l (nth i l 0%nat) = i.
  Proof.
    intros l i N H. assert (I : In (nth i l 0%nat) l) by (apply nth_In; auto).
    apply nth_pos in I as (E & L). apply (proj1 (NoDup_nth l 0%nat) N); auto.
  Qed.
  Definition pinv (n : nat) (l : list nat) : list nat := map (pos l) (seq 0 n).

  Lemma pinv_length : forall n l, length (pinv n l) = n.
  Proof. intros. unfold pinv. rewrite map_length, seq_length. auto. Qed.
  Lemma nth_pinv : forall n l i, i < n -> nth i (pinv n l) 0%nat = pos l i.
  Proof.
    intros. unfold pinv. rewrite nth_indep with (d' := pos l 0) by (rewrite map_length, seq_length; auto).
    rewrite map_nth, seq_nth by auto. auto.
  Qed.
  Lemma perm_facts : forall n l, Permutation l (seq 0 n) ->
    length l = n /\ NoDup l /\ (forall x, In x l <-> x < n).
  Proof.
    intros n l P. repeat split.
    - rewrite (Permutation_length P). apply seq_length.
    - apply (Permutation_NoDup (Permutation_sym P)). apply seq_NoDup.
    - intros I. apply (Permutation_in _ P) in I. apply in_seq in I. lia.
    - intros I. apply (Permutation_in _ (Permutation_sym P)). apply in_seq. lia.
  Qed.
  Lemma pinv_perm : forall n l, Permutation l (seq 0 n) -> Permutation (pinv n l) (seq 0 n).
  Proof.
    intros n l P. destruct (perm_facts n P) as (L & N & I). apply perm_seq.
    - apply (proj2 (NoDup_nth (pinv n l) 0%nat)). rewrite pinv_length. intros i j Hi Hj E.
      rewrite !nth_pinv in E by auto. apply I in Hi, Hj. apply nth_pos in Hi as (E1 & _), Hj as (E2 & _). congruence.
    - apply pinv_length.
    - intros x Hx. unfold pinv in Hx. apply in_map_iff in Hx as (y & <- & Hy). apply in_seq in Hy.
      assert (In y l) by (apply I; lia). apply nth_pos in H. lia.
  Qed.
  Lemma pinv_pinv : forall n l, Permutation l (seq 0 n) -> pinv n (pinv n l) = l.
  Proof.
    intros n l P. destruct (perm_facts n P) as (L & N & I). destruct (perm_facts n (pinv_perm n P)) as (L' & N' & I').
    apply (nth_ext _ _ 0%nat 0%nat); [rewrite pinv_length; auto|]. rewrite pinv_length. intros i Hi.
    rewrite nth_pinv by auto. assert (Hn : nth i l 0%nat < n) by (apply I; apply nth_In; lia).
    replace i with (nth (nth i l 0%nat) (pinv n l) 0%nat) at 1.
    - apply pos_nth; auto. rewrite L'. auto.
    - rewrite nth_pinv by auto. apply pos_nth; auto. lia.
  Qed.

  Lemma eps_map_alt : forall f, alternating (fun m => eps (map f m)).
  Proof. split; intros; rewrite ?map_app; simpl. - apply eps_swap. - apply eps_dup. Qed.

  Lemma eps_pinv : forall n l, Permutation l (seq 0 n) -> eps (pinv n l) = eps l.
  Proof.
    intros n l P. destruct (perm_facts n P) as (L & N & I). destruct (perm_facts n (pinv_perm n P)) as (L' & N' & I').
    pose proof (@alt_eval _ n (pinv n l) (eps_map_alt (fun i => nth i l 0%nat)) L' (fun x H => proj1 (I' x) H)) as E.
    cbv beta in E.
    replace (map (fun i => nth i l 0%nat) (pinv n l)) with (seq 0 n) in E.
    - replace (map (fun i => nth i l 0%nat) (seq 0 n)) with l in E.
      + rewrite eps_sorted in E by apply sorted_seq.
        transitivity (eps (pinv n l) * (eps l * eps l)). { rewrite eps_sq by auto. ring. }
        transitivity ((eps (pinv n l) * eps l) * eps l). { ring. } rewrite <- E. ring.
      + apply (nth_ext _ _ 0%nat 0%nat); [rewrite map_length, seq_length; auto|]. intros i Hi.
        rewrite nth_indep with (d' := nth 0 l 0%nat) (l := map _ _) by (rewrite map_length, seq_length; lia).
        rewrite (map_nth (fun i => nth i l 0%nat) (seq 0 n) 0%nat), seq_nth by lia. auto.
    - unfold pinv. rewrite map_map. rewrite <- (map_id (seq 0 n)) at 1. apply map_ext_in. intros x Hx.
      apply in_seq in Hx. symmetry. apply nth_pos. apply I. lia.
  Qed.

  Lemma pinv_perms : forall n, Permutation (map (pinv n) (perms n)) (perms n).
  Proof.
    intros. apply NoDup_Permutation_bis.
    - pose proof (NoDup_perms n) as N.
      assert (Inj : forall l, incl l (perms n) -> NoDup l -> NoDup (map (pinv n) l)).
      { induction l; simpl; intros Hi Hn; constructor; inversion Hn; subst.
        - intros Q. apply in_map_iff in Q as (x & Ex & Qx). assert (x = a); [|subst; contradiction].
          rewrite <- (@pinv_pinv n x), <- (@pinv_pinv n a), Ex; auto; apply in_perms, Hi; [left|right]; auto.
        - apply IHl; auto. intros x Hx. apply Hi. right. auto. }
      apply Inj; auto. apply incl_refl.
    - rewrite map_length. auto.
    - intros l Hl. apply in_map_iff in Hl as (m & <- & Hm). apply in_perms. apply pinv_perm. apply in_perms. auto.
  Qed.

  Lemma leibniz_transpose : forall n A, leibniz R n (fun i j => A j i) = leibniz R n A.
  Proof.
    intros. unfold leibniz. rewrite <- (lsum_perm _ (pinv_perms n)), lsum_map. apply lsum_ext. intros l Hl.
    apply in_perms in Hl. destruct (perm_facts n Hl) as (L & N & I). destruct (perm_facts n (pinv_perm n Hl)) as (L' & N' & I').
    rewrite signed_one, <- eps_nodup, eps_pinv, eps_nodup, <- signed_one by auto. f_equal.
    rewrite (lprod_perm (fun i => A i (nth i l 0%nat)) (Permutation_sym (pinv_perm n Hl))). unfold pinv at 2.
    rewrite lprod_map. apply lprod_ext. intros i Hi. apply in_seq in Hi. rewrite nth_pinv by lia.
    rewrite (proj1 (nth_pos l i (proj2 (I i) (proj2 Hi)))). auto.
  Qed.

  (** Laplace expansion along any row; foreign cofactors. *)
  Lemma pr_reindex : forall A f m l, pr (fun a b => A (f a) b) m l = pr A (map f m) l.
  Proof. unfold pr. induction m; intros [|j l]; simpl; auto. rewrite IHm. auto. Qed.

  Lemma remove_at_seq : forall n k, k < S n -> remove_at k (seq 0 (S n)) = map (skip k) (seq 0 n).
  Proof.
    intros n k H. apply (nth_ext _ _ 0%nat 0%nat).
    - rewrite remove_at_length by (rewrite seq_length; auto). rewrite map_length, !seq_length. lia.
    - intros i Hi. rewrite remove_at_length in Hi by (rewrite seq_length; auto). rewrite seq_length in Hi.
      rewrite nth_remove_at, seq_nth by (unfold skip; destruct (i <? k); lia).
      rewrite nth_indep with (d' := skip k 0) by (rewrite map_length, seq_length; lia).
      rewrite map_nth, seq_nth by lia. auto.
  Qed.

  Lemma pdet_map_cols : forall A g rows cols, pdet (fun a b => A a (g b)) rows cols = pdet A rows (map g cols).
  Proof.
    intros A g. induction rows; intros cols; simpl; auto. rewrite map_length. apply lsum_ext. intros k Hk.
    apply in_seq in Hk. f_equal.
    - rewrite (nth_indep (map g cols) 0%nat (g 0%nat)) by (rewrite map_length; lia). rewrite map_nth. auto.
    - f_equal. rewrite IHrows. f_equal. clear. revert k. induction cols; intros [|k]; simpl; auto. f_equal. auto.
  Qed.
  Lemma pdet_map_rows : forall A f rows cols, pdet (fun a b => A (f a) b) rows cols = pdet A (map f rows) cols.
  Proof.
    intros A f. induction rows; intros cols; simpl; auto. apply lsum_ext. intros k Hk. f_equal. f_equal. apply IHrows.
  Qed.
  Lemma pdet_ext : forall A B rows cols, (forall i j, In i rows -> In j cols -> A i j = B i j) ->
    length rows = length cols -> pdet A rows cols = pdet B rows cols.
  Proof.
    intros A B. induction rows; intros cols H L; simpl; auto. apply lsum_ext. intros k Hk. apply in_seq in Hk.
    simpl in *. f_equal.
    - apply H; auto. apply nth_In. lia.
    - f_equal. apply IHrows.
      + intros. apply H; auto. clear -H1. revert k H1. induction cols; intros [|k] Hj; simpl in *; auto.
        destruct Hj; auto. right. eapply IHcols. eauto.
      + rewrite remove_at_length by lia. lia.
  Qed.

  Lemma minor_pdet : forall n A i j, i < S n -> j < S n ->
    leibniz R n (minor i j A) = pdet A (remove_at i (seq 0 (S n))) (remove_at j (seq 0 (S n))).
  Proof.
    intros. rewrite !remove_at_seq by auto. rewrite <- pdet_leibniz. unfold minor.
    rewrite <- pdet_map_cols, <- pdet_map_rows. auto.
  Qed.

  (** cofactor expansion with the entries of row [r] and the cofactors of row [i] *)
  Lemma laplace : forall n A r i, r < S n -> i < S n ->
    bigsum R (S n) (fun k => A r k * signed (i + k) (leibniz R n (minor i k A))) =
    if r =? i then leibniz R (S n) A else 0.
  Proof.
    intros n A r i Hr Hi.
    set (m := r :: remove_at i (seq 0 (S n))).
    assert (Lr : length (remove_at i (seq 0 (S n))) = n).
    { rewrite remove_at_length; rewrite seq_length; lia. }
    assert (Im : forall x, In x m -> x < S n).
    { intros x [<-|Hx]; auto. rewrite remove_at_seq in Hx by auto. apply in_map_iff in Hx as (y & <- & Hy).
      apply in_seq in Hy. unfold skip. destruct (y <? i); lia. }
    assert (E : pdet A m (seq 0 (S n)) = eps m * leibniz R (S n) A).
    { rewrite pdet_ldet.
      - apply ldet_rows; auto. unfold m. simpl length. f_equal. exact Lr.
      - apply sorted_seq.
      - rewrite seq_length. unfold m. cbn [length]. f_equal. exact Lr. }
    transitivity (signed i (pdet A m (seq 0 (S n)))).
    - unfold m. cbn [pdet]. rewrite <- lsum_seq, seq_length.
      rewrite signed_lsum. apply lsum_ext. intros k Hk.
      apply in_seq in Hk. rewrite minor_pdet by lia. rewrite signed_add, signed_mul_r.
      rewrite seq_nth by lia. simpl Nat.add. rewrite signed_mul_r. auto.
    - rewrite E. destruct (r =? i) eqn:Q.
      + assert (r = i) by lia. subst r. unfold m. cbn [eps].
        rewrite eps_sorted.
        2: { rewrite remove_at_seq by auto. clear. generalize 0%nat as a. induction n; intros a; simpl; constructor; auto.
             apply Forall_forall. intros x Hx. apply in_map_iff in Hx as (y & <- & Hy). apply in_seq in Hy.
             unfold skip. destruct (a <? i) eqn:E1, (y <? i) eqn:E2; lia. }
        rewrite lprod_sg_inv.
        * replace (length (filter (fun b => b <? i) (remove_at i (seq 0 (S n))))) with i.
          -- rewrite signed_mul_l, signed_mul_l, signed_signed. ring.
          -- rewrite remove_at_seq by auto. assert (Hn : i <= n) by lia. clear -Hn.
             assert (G : forall n a, a <= i <= a + n -> length (filter (fun b => b <? i) (map (skip i) (seq a n))) = (i - a)%nat).
             { clear. induction n; intros a H; simpl; [lia|]. unfold skip at 1. destruct (a <? i) eqn:E.
               - rewrite E. simpl. rewrite IHn by lia. lia.
               - replace (S a <? i) with false by lia.
                 rewrite (proj2 (Nat.sub_0_le i a)) by lia.
                 assert (Z : forall n a, i <= a -> filter (fun b => b <? i) (map (skip i) (seq a n)) = []).
                 { clear. induction n; intros a H; simpl; auto. unfold skip at 1. replace (a <? i) with false by lia.
                   replace (S a <? i) with false by lia. apply IHn. lia. }
                 rewrite Z by lia. auto. }
             rewrite G by lia. lia.
        * intros Q2. rewrite remove_at_seq in Q2 by auto. apply in_map_iff in Q2 as (y & E2 & _).
          unfold skip in E2. destruct (y <? i) eqn:E3; lia.
      + unfold m. cbn [eps]. rewrite lprod_sg_in.
        * replace (0 * eps (remove_at i (seq 0 (S n))) * leibniz R (S n) A) with 0 by ring. apply signed_zero.
        * rewrite remove_at_seq by auto. apply in_map_iff. exists (if r <? i then r else r - 1)%nat. split.
          -- unfold skip. destruct (r <? i) eqn:E1.
             ++ rewrite E1. auto.
             ++ replace (r - 1 <? i) with false by lia. lia.
          -- apply in_seq. destruct (r <? i) eqn:E1; lia.
  Qed.

  Lemma laplace_col : forall n A c j, c < S n -> j < S n ->
    bigsum R (S n) (fun k => A k c * signed (k + j) (leibniz R n (minor k j A))) =
    if c =? j then leibniz R (S n) A else 0.
  Proof.
    intros n A c j Hc Hj. pose proof (@laplace n (fun a b => A b a) c j Hc Hj) as H.
    rewrite leibniz_transpose in H. rewrite <- H. apply bigsum_ext. intros k Hk. f_equal.
    rewrite Nat.add_comm. f_equal.
    change (minor j k (fun a b => A b a)) with (fun a b => minor k j A b a). symmetry. apply leibniz_transpose.
  Qed.
End Det.

(** More consequences: dependence on one row. *)
Section Rows.
  Context {T : Type} {o : Ops T} (R : CRing o).
  Add Ring Rrows : (CRing_theory R).
  Local Open Scope nat_scope.

  Lemma minor_row : forall (A B : nat -> nat -> T) n i k, k < S n ->
    (forall a b, a <> i -> b < S n -> A a b = B a b) ->
    leibniz R n (minor i k A) = leibniz R n (minor i k B).
  Proof.
    intros. apply leibniz_ext. intros a b Ha Hb. unfold minor. apply H0.
    - unfold skip. destruct (a <? i) eqn:E; lia.
    - unfold skip. destruct (b <? k); lia.
  Qed.
  Lemma leibniz_row : forall n A i, i < S n ->
    leibniz R (S n) A = bigsum R (S n) (fun k => r_mul R (A i k) (signed R (i + k) (leibniz R n (minor i k A)))).
  Proof. intros. rewrite laplace by auto. rewrite Nat.eqb_refl. auto. Qed.

  Lemma leibniz_row_add : forall n i A B C, i < n ->
    (forall a b, a < n -> b < n -> a <> i -> A a b = B a b /\ C a b = B a b) ->
    (forall b, b < n -> B i b = r_add R (A i b) (C i b)) ->
    leibniz R n B = r_add R (leibniz R n A) (leibniz R n C).
  Proof.
    intros n i A B C Hi H1 H2. destruct n as [|n]; [lia|].
    rewrite !(@leibniz_row n _ i) by auto. rewrite <- bigsum_add. apply bigsum_ext. intros k Hk.
    rewrite H2 by auto.
    assert (E : forall D : nat -> nat -> T, (forall a b, a < S n -> b < S n -> a <> i -> D a b = B a b) ->
      leibniz R n (minor i k D) = leibniz R n (minor i k B)).
    { intros D HD. apply leibniz_ext. intros a b Ha Hb. unfold minor. apply HD.
      - unfold skip. destruct (a <? i); lia.
      - unfold skip. destruct (b <? k); lia.
      - unfold skip. destruct (a <? i) eqn:Q; lia. }
    rewrite (E A), (E C) by (intros; apply H1; auto). ring.
  Qed.
  Lemma leibniz_row_scale : forall n i A B c, i < n ->
    (forall a b, a < n -> b < n -> a <> i -> A a b = B a b) ->
    (forall b, b < n -> B i b = r_mul R c (A i b)) ->
    leibniz R n B = r_mul R c (leibniz R n A).
  Proof.
    intros n i A B c Hi H1 H2. destruct n as [|n]; [lia|].
    rewrite !(@leibniz_row n _ i) by auto. rewrite <- bigsum_mul_l. apply bigsum_ext. intros k Hk.
    rewrite H2 by auto.
    assert (E : leibniz R n (minor i k A) = leibniz R n (minor i k B)).
    { apply leibniz_ext. intros a b Ha Hb. unfold minor. apply H1.
      - unfold skip. destruct (a <? i); lia.
      - unfold skip. destruct (b <? k); lia.
      - unfold skip. destruct (a <? i) eqn:Q; lia. }
    rewrite E. ring.
  Qed.
  Lemma leibniz_equal_rows : forall n i j A, i < n -> j < n -> i <> j ->
    (forall b, b < n -> A i b = A j b) -> leibniz R n A = o_zero o.
  Proof.
    intros n i j A Hi Hj Ne H. destruct n as [|n]; [lia|]. rewrite (@leibniz_row n _ i) by auto.
    transitivity (bigsum R (S n) (fun k => r_mul R (A j k) (signed R (i + k) (leibniz R n (minor i k A))))).
    - apply bigsum_ext. intros. rewrite H by auto. auto.
    - rewrite laplace by auto. destruct (j =? i) eqn:E; auto. lia.
  Qed.
  Lemma leibniz_swap_rows : forall n i j A B, i < n -> j < n -> i <> j ->
    (forall b, b < n -> B i b = A j b /\ B j b = A i b) ->
    (forall a b, a < n -> b < n -> a <> i -> a <> j -> B a b = A a b) ->
    leibniz R n B = r_opp R (leibniz R n A).
  Proof.
    intros n i j A B Hi Hj Ne H1 H2.
    set (D := fun (u v : nat -> T) a b => if a =? i then u b else if a =? j then v b else A a b).
    assert (Add1 : forall u v w, leibniz R n (D (fun b => r_add R (u b) (v b)) w) =
      r_add R (leibniz R n (D u w)) (leibniz R n (D v w))).
    { intros. apply leibniz_row_add with (i := i); auto.
      - intros a b Ha Hb Q. unfold D. replace (a =? i) with false by lia. auto.
      - intros b Hb. unfold D. rewrite Nat.eqb_refl. auto. }
    assert (Add2 : forall u v w, leibniz R n (D w (fun b => r_add R (u b) (v b))) =
      r_add R (leibniz R n (D w u)) (leibniz R n (D w v))).
    { intros. apply leibniz_row_add with (i := j); auto.
      - intros a b Ha Hb Q. unfold D. destruct (a =? i); auto. replace (a =? j) with false by lia. auto.
      - intros b Hb. unfold D. replace (j =? i) with false by lia. rewrite Nat.eqb_refl. auto. }
    assert (Eq : forall u, leibniz R n (D u u) = o_zero o).
    { intros. apply leibniz_equal_rows with (i := i) (j := j); auto. intros b Hb. unfold D.
      rewrite !Nat.eqb_refl. replace (j =? i) with false by lia. auto. }
    replace (leibniz R n A) with (leibniz R n (D (A i) (A j))).
    2: { apply leibniz_ext. intros a b Ha Hb. unfold D. destruct (a =? i) eqn:E1; [replace a with i by lia; auto|].
         destruct (a =? j) eqn:E2; [replace a with j by lia; auto|auto]. }
    replace (leibniz R n B) with (leibniz R n (D (A j) (A i))).
    2: { apply leibniz_ext. intros a b Ha Hb. unfold D. destruct (a =? i) eqn:E1.
         - replace a with i by lia. symmetry. apply H1. auto.
         - destruct (a =? j) eqn:E2. + replace a with j by lia. symmetry. apply H1. auto.
           + symmetry. apply H2; auto; lia. }
    pose proof (Eq (fun b => r_add R (A i b) (A j b))) as S0.
    rewrite Add1, !Add2, !Eq in S0.
    transitivity (r_sub R (r_add R (r_add R (o_zero o) (leibniz R n (D (A i) (A j))))
      (r_add R (leibniz R n (D (A j) (A i))) (o_zero o))) (leibniz R n (D (A i) (A j)))).
    - ring.
    - rewrite S0. ring.
  Qed.
End Rows.
