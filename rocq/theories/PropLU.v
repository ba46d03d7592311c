(** C130: the LU factorization. *)
From Coq Require Import Reals Lra Psatz Lia.
From Verif Require Import Spec SpecRing SpecDet AlgFacts MFacts DetFacts MatProofs SqProofs SquareModel RealInst RealFacts PropReal PropSquare PropLinear PropRank PropCond PropNearest PropDefinite PropCholesky.
Import ListNotations.
Set Implicit Arguments.
Local Open Scope R_scope.
Local Open Scope list_scope.

Local Notation ro := r_ops.
Local Notation det n A := (leibniz r_ring n A).
(** Zeros above the diagonal and ones on it; zeros below the diagonal. *)
Definition unit_lower (l : list (list R)) : Prop := forall i j x, elt l i j = Some x -> ((i < j)%nat -> x = 0) /\ (i = j -> x = 1).
Definition upper (u : list (list R)) : Prop := forall i j x, elt u i j = Some x -> (j < i)%nat -> x = 0.
(** The product of the first [k] entries on the diagonal. *)
Fixpoint pivots (k : nat) (u : list (list R)) : R := match k with 0%nat => 1 | S k => pivots k u * mget ro u k k end.

Definition ulf (n : nat) (l : nat -> nat -> R) : Prop := (forall i j, (i < j)%nat -> (j < n)%nat -> l i j = 0) /\ forall i, (i < n)%nat -> l i i = 1.
Definition upf (n : nat) (u : nat -> nat -> R) : Prop := forall i j, (j < i)%nat -> (i < n)%nat -> u i j = 0.
Lemma unit_lower_mk : forall N f, unit_lower (mk N N f) <-> ulf N f.
Proof.
  intros N f. split.
  - intros H. split.
    + intros i j L Hj. apply (H i j (f i j)); auto. rewrite elt_mk. assert (A : (i <? N)%nat = true) by (apply Nat.ltb_lt; lia). apply Nat.ltb_lt in Hj. rewrite A, Hj. reflexivity.
    + intros i Hi. apply (H i i (f i i)); auto. rewrite elt_mk. apply Nat.ltb_lt in Hi. rewrite Hi. reflexivity.
  - intros (H1 & H2) i j x E. rewrite elt_mk in E. destruct (Nat.ltb_spec i N), (Nat.ltb_spec j N); try discriminate. cbn [andb] in E. injection E as <-. split; [intros; apply H1; auto|intros <-; apply H2; auto].
Qed.
Lemma upper_mk : forall N f, upper (mk N N f) <-> upf N f.
Proof.
  intros N f. split.
  - intros H i j L Hi. apply (H i j (f i j)); auto. rewrite elt_mk. assert (A : (j <? N)%nat = true) by (apply Nat.ltb_lt; lia). apply Nat.ltb_lt in Hi. rewrite A, Hi. reflexivity.
  - intros H i j x E L. rewrite elt_mk in E. destruct (Nat.ltb_spec i N), (Nat.ltb_spec j N); try discriminate. cbn [andb] in E. injection E as <-. apply H; auto.
Qed.
Lemma det_ul : forall n l, ulf n l -> det n l = 1.
Proof.
  intros n l. induction n as [|n IH]; intros (H1 & H2). { apply det_0. }
  rewrite <- Nat.add_1_r, (@block_lower _ _ r_ring n 1 l). 2: { intros i j Hi Hj. apply H1; lia. }
  rewrite IH by (split; intros; [apply H1; lia|apply H2; lia]). rewrite det_1, Nat.add_0_r, H2 by lia. cbn. ring.
Qed.
Fixpoint pivf (n : nat) (u : nat -> nat -> R) : R := match n with 0%nat => 1 | S n => pivf n u * u n n end.
Lemma det_up : forall n u, upf n u -> det n u = pivf n u.
Proof.
  intros n u. induction n as [|n IH]; intros H. { apply det_0. }
  rewrite <- Nat.add_1_r, (@block_upper _ _ r_ring n 1 u). 2: { intros i j Hi Hj. apply H; lia. }
  rewrite IH by (intros i j Hi Hj; apply H; lia). rewrite det_1, !Nat.add_0_r, Nat.add_1_r. reflexivity.
Qed.
Lemma ulf_less : forall n k l, (k <= n)%nat -> ulf n l -> ulf k l. Proof. intros n k l L (H1 & H2). split; intros; [apply H1; lia|apply H2; lia]. Qed.
Lemma upf_less : forall n k u, (k <= n)%nat -> upf n u -> upf k u. Proof. intros n k u L H i j Hi Hj. apply H; lia. Qed.
(* only the first k columns of l and rows of u matter for the first k rows or columns *)
Lemma mm_S : forall n l u i j, mm (S n) l u i j = mm n l u i j + l i n * u n j. Proof. intros. unfold mm. apply rsum_S. Qed.
Lemma lu_cut : forall n l u k i j, ulf n l -> upf n u -> (k <= n)%nat -> (i < k \/ j < k)%nat -> mm n l u i j = mm k l u i j.
Proof.
  intros n l u k i j L U Hk H. induction n as [|n IH]. { replace k with 0%nat by lia. reflexivity. }
  destruct (Nat.eq_dec k (S n)) as [->|Nk]; auto. rewrite mm_S, IH by (try lia; eauto using ulf_less, upf_less).
  assert (Z : l i n * u n j = 0). { destruct H as [H|H]; [rewrite (proj1 L i n) by lia|rewrite (U n j) by lia]; ring. } rewrite Z. ring.
Qed.
Lemma lu_det : forall n A l u k, ulf n l -> upf n u -> (forall i j, (i < n)%nat -> (j < n)%nat -> A i j = mm n l u i j) -> (k <= n)%nat -> det k A = pivf k u.
Proof.
  intros n A l u k L U E Hk. rewrite (@leibniz_ext _ _ r_ring k A (fun i j => rsum k (fun c => l i c * u c j))). 2: { intros i j Hi Hj. rewrite E by lia. apply (@lu_cut n l u k); auto. }
  rewrite mul_r, (det_ul (ulf_less Hk L)), (det_up (upf_less Hk U)). ring.
Qed.
Lemma lu_exists : forall n A, (forall k, (k < n)%nat -> det k A <> 0) -> exists l u, ulf n l /\ upf n u /\ forall i j, (i < n)%nat -> (j < n)%nat -> A i j = mm n l u i j.
Proof.
  intros n A. induction n as [|n IH]; intros H. { exists (fun _ _ => 0), (fun _ _ => 0). split; [split; intros; lia|]. split; [intros i j _ Hi; lia|intros; lia]. }
  destruct IH as (l & u & L & U & E). { intros. apply H. lia. } pose proof (H n ltac:(lia)) as D. rewrite (@lu_det n A l u n) in D by auto.
  destruct (@solve_fn n l (fun i => A i n)) as (x & Hx). { rewrite (det_ul L). lra. } destruct (@solve_fn n (tr u) (fun j => A n j)) as (y & Hy). { rewrite det_tr, (det_up U). auto. }
  set (d := A n n - ip n y x).
  set (l' := fun i j => if Nat.ltb i n then (if Nat.ltb j n then l i j else 0) else if Nat.ltb j n then y j else 1).
  set (u' := fun i j => if Nat.ltb i n then (if Nat.ltb j n then u i j else x i) else if Nat.ltb j n then 0 else d).
  assert (b1 : forall i, (i < n)%nat -> (i <? n)%nat = true) by (intros; apply Nat.ltb_lt; auto). pose proof (Nat.ltb_irrefl n) as b2.
  exists l', u'. split; [split|split].
  - intros i j Hij Hj. unfold l'. rewrite b1 by lia. destruct (Nat.ltb_spec j n); auto. apply (proj1 L); auto.
  - intros i Hi. unfold l'. destruct (Nat.ltb_spec i n); auto. apply (proj2 L). auto.
  - intros i j Hji Hi. unfold u'. rewrite (b1 j) by lia. destruct (Nat.ltb_spec i n); auto.
  - intros i j Hi Hj. rewrite mm_S. destruct (Nat.eq_dec i n) as [->|Ni], (Nat.eq_dec j n) as [->|Nj].
    + assert (X : mm n l' u' n n = ip n y x). { apply rsum_ext. intros k Hk. unfold l', u'. rewrite b2, b1 by auto. reflexivity. } rewrite X. unfold l', u'. rewrite b2. unfold d. ring.
    + rewrite Hy by lia. assert (X : mm n l' u' n j = mv n (tr u) y j). { apply rsum_ext. intros k Hk. unfold l', u', tr. rewrite b2, (b1 k), (b1 j) by lia. ring. } rewrite X. unfold u'. rewrite b2, (b1 j) by lia. ring.
    + rewrite Hx by lia. assert (X : mm n l' u' i n = mv n l x i). { apply rsum_ext. intros k Hk. unfold l', u'. rewrite b2, (b1 k), (b1 i) by lia. reflexivity. } rewrite X. unfold l'. rewrite b2, (b1 i) by lia. ring.
    + rewrite E by lia. assert (X : mm n l' u' i j = mm n l u i j). { apply rsum_ext. intros k Hk. unfold l', u'. rewrite (b1 i), (b1 j), (b1 k) by lia. reflexivity. } rewrite X. unfold l'. rewrite b2, (b1 i) by lia. ring.
Qed.
Lemma lu_unique : forall n l u l' u', ulf n l -> upf n u -> ulf n l' -> upf n u' -> (forall k, (k < n)%nat -> pivf k u <> 0) -> (forall i j, (i < n)%nat -> (j < n)%nat -> mm n l u i j = mm n l' u' i j) ->
  forall i j, (i < n)%nat -> (j < n)%nat -> l i j = l' i j /\ u i j = u' i j.
Proof.
  intros n l u l' u'. induction n as [|n IH]; intros L U L' U' D H. { intros. lia. }
  assert (Ln := ulf_less (le_S _ _ (le_n n)) L). assert (Un := upf_less (le_S _ _ (le_n n)) U). assert (Ln' := ulf_less (le_S _ _ (le_n n)) L'). assert (Un' := upf_less (le_S _ _ (le_n n)) U').
  assert (C : forall i j, (i < n \/ j < n)%nat -> (i < S n)%nat -> (j < S n)%nat -> mm n l u i j = mm n l' u' i j). { intros i j O Hi Hj. rewrite <- (@lu_cut (S n) l u n i j), <- (@lu_cut (S n) l' u' n i j) by auto. apply H; auto. }
  assert (E : forall i j, (i < n)%nat -> (j < n)%nat -> l i j = l' i j /\ u i j = u' i j). { apply IH; auto. }
  assert (Col : forall k, (k < n)%nat -> u k n - u' k n = 0).
  { apply (@kernel0 n l (fun k => u k n - u' k n)). { rewrite (det_ul Ln). lra. } intros i Hi. rewrite mv_sub. pose proof (C i n (or_introl Hi) ltac:(lia) ltac:(lia)) as Q. unfold mm in Q. unfold mv. rewrite Q. rewrite (rsum_ext (fun k => l i k * u' k n) (fun k => l' i k * u' k n)) by (intros k Hk; rewrite (proj1 (E i k Hi Hk)); reflexivity). ring. }
  assert (Row : forall k, (k < n)%nat -> l n k - l' n k = 0).
  { apply (@kernel0 n (tr u) (fun k => l n k - l' n k)). { rewrite det_tr, (det_up Un). apply D. lia. } intros j Hj. rewrite mv_sub. pose proof (C n j (or_intror Hj) ltac:(lia) ltac:(lia)) as Q. unfold mm in Q. unfold mv, tr.
    rewrite (rsum_ext (fun k => u k j * l n k) (fun k => l n k * u k j)) by (intros; ring). rewrite Q. rewrite (rsum_ext (fun k => u k j * l' n k) (fun k => l' n k * u' k j)) by (intros k Hk; rewrite (proj2 (E k j Hk Hj)); ring). ring. }
  intros i j Hi Hj. destruct (Nat.eq_dec i n) as [->|Ni], (Nat.eq_dec j n) as [->|Nj].
  - split; [rewrite (proj2 L), (proj2 L') by auto; auto|]. pose proof (H n n Hi Hi) as Q. rewrite !mm_S in Q. rewrite (proj2 L), (proj2 L') in Q by auto. assert (X : mm n l u n n = mm n l' u' n n). { apply rsum_ext. intros k Hk. specialize (Row k Hk). specialize (Col k Hk). replace (l n k) with (l' n k) by lra. replace (u k n) with (u' k n) by lra. reflexivity. } lra.
  - split; [specialize (Row j ltac:(lia)); lra|]. rewrite (U n j), (U' n j) by lia. auto.
  - split; [rewrite (proj1 L i n), (proj1 L' i n) by lia; auto|]. specialize (Col i ltac:(lia)). lra.
  - apply E; lia.
Qed.
Lemma pivots_mk : forall N f k, (k <= N)%nat -> pivots k (mk N N f) = pivf k f.
Proof. intros N f k. induction k as [|k IH]; intros H; [reflexivity|]. cbn [pivots pivf]. rewrite IH, mget_mk by lia. reflexivity. Qed.
(** If the determinants of the leading square parts of sizes 1 .. N - 1 are not zero, m is l u with ones on the diagonal of l and zeros above it, and zeros below the diagonal of u; *)
Theorem C130_lu : forall N m, rect N N m -> (0 < N)%nat -> (forall k, (1 <= k < N)%nat -> m_det ro k (corner k m) <> Ok 0) ->
  exists l u, rect N N l /\ rect N N u /\ unit_lower l /\ upper u /\ m_dot ro N N N l u = Ok m.
Proof.
  intros N m Rm HN H. destruct (mk_ex ro Rm) as (f & ->). destruct (@lu_exists N f) as (l & u & L & U & E).
  { intros k Hk. destruct k as [|k]; [rewrite det_0; lra|]. intros Z. apply (H (S k)); [lia|]. rewrite corner_mk by lia. rewrite (m_det_mk r_ring). f_equal. exact Z. }
  exists (mk N N l), (mk N N u). do 2 (split; [apply rect_mk|]). split; [apply unit_lower_mk; auto|]. split; [apply upper_mk; auto|]. rewrite dot_r by auto. f_equal. apply mk_ext. intros. symmetry. apply E; auto.
Qed.
(** then the determinants of the leading square parts are the products of the first entries of the diagonal of u; *)
Theorem C130_pivots : forall N l u m k, rect N N l -> rect N N u -> (0 < N)%nat -> unit_lower l -> upper u -> m_dot ro N N N l u = Ok m -> (k <= N)%nat -> m_det ro k (corner k m) = Ok (pivots k u).
Proof.
  intros N l u m k Rl Ru HN L U E Hk. destruct (mk_ex ro Rl) as (f & ->), (mk_ex ro Ru) as (g & ->). rewrite dot_r in E by auto. apply Ok_inj in E. subst m. apply unit_lower_mk in L. apply upper_mk in U.
  rewrite corner_mk, pivots_mk by auto. rewrite (m_det_mk r_ring). f_equal. apply (@lu_det N _ f g k); auto.
Qed.
(** and there is only one such pair. *)
Theorem C130_unique : forall N l u l' u', rect N N l -> rect N N u -> rect N N l' -> rect N N u' -> (0 < N)%nat -> unit_lower l -> upper u -> unit_lower l' -> upper u' ->
  (forall k, (1 <= k < N)%nat -> pivots k u <> 0) -> m_dot ro N N N l u = m_dot ro N N N l' u' -> l = l' /\ u = u'.
Proof.
  intros N l u l' u' Rl Ru Rl' Ru' HN L U L' U' D E. destruct (mk_ex ro Rl) as (f & ->), (mk_ex ro Ru) as (g & ->), (mk_ex ro Rl') as (f' & ->), (mk_ex ro Ru') as (g' & ->). rewrite !dot_r in E by auto. apply Ok_inj in E.
  apply unit_lower_mk in L, L'. apply upper_mk in U, U'. assert (Q : forall i j, (i < N)%nat -> (j < N)%nat -> f i j = f' i j /\ g i j = g' i j).
  { apply lu_unique; auto. { intros k Hk. destruct k as [|k]; [cbn; lra|]. rewrite <- (@pivots_mk N g) by lia. apply D. lia. } intros i j Hi Hj. apply (f_equal (fun m => mget ro m i j)) in E. rewrite !mget_mk in E by auto. auto. }
  split; apply mk_ext; intros; apply Q; auto.
Qed.
(* [[2; 1]; [4; 5]] = [[1; 0]; [2; 1]] [[2; 1]; [0; 3]]; and [[0; 1]; [1; 0]], with a zero in the corner, is no such product *)
Example C130_ex : m_det ro 1 (corner 1 [[2; 1]; [4; 5]]) = Ok 2 /\ unit_lower [[1; 0]; [2; 1]] /\ upper [[2; 1]; [0; 3]] /\ m_dot ro 2 2 2 [[1; 0]; [2; 1]] [[2; 1]; [0; 3]] = Ok [[2; 1]; [4; 5]] /\
  ~ exists l u, rect 2 2 l /\ rect 2 2 u /\ unit_lower l /\ upper u /\ m_dot ro 2 2 2 l u = Ok [[0; 1]; [1; 0]].
Proof.
  split. { change (corner 1 [[2; 1]; [4; 5]]) with (mk 1 1 (fun _ _ => 2)). rewrite (m_det_mk r_ring). f_equal. cbn. ring. }
  split. { change [[1; 0]; [2; 1]] with (mk 2 2 (mget ro [[1; 0]; [2; 1]])). apply unit_lower_mk. split; [intros i j Hij Hj; assert (i = 0 /\ j = 1)%nat as (-> & ->) by lia; reflexivity|]. intros i Hi. destruct i as [|[|]]; try lia; reflexivity. }
  split. { change [[2; 1]; [0; 3]] with (mk 2 2 (mget ro [[2; 1]; [0; 3]])). apply upper_mk. intros i j Hij Hj. assert (i = 1 /\ j = 0)%nat as (-> & ->) by lia. reflexivity. }
  split. { change [[1; 0]; [2; 1]] with (mk 2 2 (mget ro [[1; 0]; [2; 1]])). change [[2; 1]; [0; 3]] with (mk 2 2 (mget ro [[2; 1]; [0; 3]])). rewrite dot_r by lia. change [[2; 1]; [4; 5]] with (mk 2 2 (mget ro [[2; 1]; [4; 5]])). f_equal. apply mk_ext. intros i j Hi Hj. unfold mm, rsum. destruct i as [|[|]], j as [|[|]]; try lia; cbn; ring. }
  intros (l & u & Rl & Ru & L & U & E). pose proof (@C130_pivots 2 l u [[0; 1]; [1; 0]] 1 Rl Ru ltac:(lia) L U E ltac:(lia)) as P1. pose proof (@C130_pivots 2 l u [[0; 1]; [1; 0]] 2 Rl Ru ltac:(lia) L U E ltac:(lia)) as P2.
  change (corner 2 [[0; 1]; [1; 0]]) with [[0; 1]; [1; 0]] in P2. rewrite det2 in P2. apply Ok_inj in P2. change (corner 1 [[0; 1]; [1; 0]]) with (mk 1 1 (fun _ _ => 0)) in P1. rewrite (m_det_mk r_ring) in P1. apply Ok_inj in P1. rewrite det_1 in P1. cbn [pivots] in *. rewrite <- P1 in P2. lra.
Qed.

Print Assumptions C130_lu.
Print Assumptions C130_pivots.
Print Assumptions C130_unique.
