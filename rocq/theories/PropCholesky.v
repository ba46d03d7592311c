(** C129: the Cholesky factorization: positive definite matrices are the products l l^T, for one l only. *)
From Coq Require Import Reals Lra Psatz Lia.
From Verif Require Import Spec SpecRing SpecDet AlgFacts MFacts DetFacts MatProofs SqProofs SquareModel RealInst RealFacts PropReal PropSquare PropLinear PropRank PropCond PropNearest PropDefinite.
Import ListNotations.
Set Implicit Arguments.
Local Open Scope R_scope.
Local Open Scope list_scope.

Local Notation ro := r_ops.
Local Notation dl i j := (if Nat.eqb i j then 1 else 0).
Local Notation det n A := (leibniz r_ring n A).
(** Zeros above the diagonal, positive numbers on it. *)
Definition lower (l : list (list R)) : Prop := forall i j x, elt l i j = Some x -> ((i < j)%nat -> x = 0) /\ (i = j -> 0 < x).
Definition lowf (n : nat) (f : nat -> nat -> R) : Prop := (forall i j, (i < j)%nat -> (j < n)%nat -> f i j = 0) /\ forall i, (i < n)%nat -> 0 < f i i.
Definition tr (f : nat -> nat -> R) (i j : nat) : R := f j i.

Lemma lower_mk : forall N f, lower (mk N N f) <-> lowf N f.
Proof.
  intros N f. split.
  - intros H. split.
    + intros i j L Hj. apply (H i j (f i j)); auto. rewrite elt_mk. assert (A : (i <? N)%nat = true) by (apply Nat.ltb_lt; lia). apply Nat.ltb_lt in Hj. rewrite A, Hj. reflexivity.
    + intros i Hi. apply (H i i (f i i)); auto. rewrite elt_mk. apply Nat.ltb_lt in Hi. rewrite Hi. reflexivity.
  - intros (H1 & H2) i j x E. rewrite elt_mk in E. destruct (Nat.ltb_spec i N), (Nat.ltb_spec j N); try discriminate. cbn [andb] in E. injection E as <-. split; [intros; apply H1; auto|intros <-; apply H2; auto].
Qed.
Lemma det_low : forall n f, lowf n f -> 0 < det n f.
Proof.
  intros n f. induction n as [|n IH]; intros (H1 & H2). { rewrite det_0. lra. }
  rewrite <- Nat.add_1_r, (@block_lower _ _ r_ring n 1 f). 2: { intros i j Hi Hj. apply H1; lia. }
  rewrite det_1, Nat.add_0_r. apply Rmult_lt_0_compat; [|apply H2; lia]. apply IH. split; intros; [apply H1; lia|apply H2; lia].
Qed.
Lemma det_tr : forall n f, det n (tr f) = det n f. Proof. intros. apply (leibniz_transpose r_ring n f). Qed.
Lemma kernel0 : forall n f u, det n f <> 0 -> (forall i, (i < n)%nat -> mv n f u i = 0) -> forall i, (i < n)%nat -> u i = 0.
Proof.
  intros n f u D H i Hi. assert (Hn : (0 < n)%nat) by lia. destruct (@inv_mk n f (det n f) Hn (m_det_mk r_ring n f) D) as (g & _ & _ & P).
  rewrite <- (mv_one u Hi). rewrite (@mv_ext n n _ (mm n g f) u u) by (auto; intros; symmetry; apply P; auto). rewrite mv_mm. unfold mv at 1. rewrite (rsum_ext _ (fun _ => 0)); [apply rsum_const0|]. intros k Hk. rewrite H by auto. ring.
Qed.
(* l l^T, cut after n columns *)
Definition sq (n : nat) (l : nat -> nat -> R) (i j : nat) : R := rsum n (fun k => l i k * l j k).
Lemma quad_sq : forall n A l x, (forall i j, (i < n)%nat -> (j < n)%nat -> A i j = sq n l i j) -> quad n A x = ip n (mv n (tr l) x) (mv n (tr l) x).
Proof.
  intros n A l x H. rewrite ip_adj. unfold quad. apply ip_ext; auto. intros i Hi. rewrite (@mv_ext n n A (mm n l (tr l)) x x) by (auto; intros; apply H; auto). rewrite mv_mm. apply rsum_ext. intros. unfold tr. ring.
Qed.
Lemma chol_pd : forall n A l, lowf n l -> (forall i j, (i < n)%nat -> (j < n)%nat -> A i j = sq n l i j) -> pd n A.
Proof.
  intros n A l L H x (i & Hi & Nx). rewrite (quad_sq _ _ _ H). destruct (ip_pos n (mv n (tr l) x)) as [P|E]; auto. exfalso. apply Nx. apply (@kernel0 n (tr l) x); auto.
  - rewrite det_tr. pose proof (det_low L). lra.
  - intros j Hj. apply (@ip_zero n (mv n (tr l) x)); auto.
Qed.
Lemma chol_exists : forall n A, sym n A -> pd n A -> exists l, lowf n l /\ forall i j, (i < n)%nat -> (j < n)%nat -> A i j = sq n l i j.
Proof.
  intros n A. induction n as [|n IH]; intros S P. { exists (fun _ _ => 0). split; [split; intros; lia|intros; lia]. }
  assert (Sn : sym n A) by (intros i j Hi Hj; apply S; lia). assert (Pn : pd n A). { apply sylvester_fn; auto. intros k Hk. apply (proj1 (sylvester_fn S) P). lia. }
  destruct (IH Sn Pn) as (l & L & E). pose proof (det_low L) as D. destruct (@solve_fn n l (fun i => A i n)) as (r & Hr). { lra. } destruct (@solve_fn n (tr l) r) as (y & Hy). { rewrite det_tr. lra. }
  (* the last pivot is positive *)
  assert (Q : 0 < A n n - ip n r r).
  { assert (Hp : forall i, (i < n)%nat -> A i n = mv n A y i). { intros i Hi. rewrite Hr by auto. rewrite (@mv_ext n n A (mm n l (tr l)) y y) by (auto; intros; apply E; auto). rewrite mv_mm. apply (@mv_ext n n); auto. }
    specialize (P (fun i => if Nat.eqb i n then 1 else - y i)). rewrite (@quad_border n A y _ S Hp) in P. rewrite Nat.eqb_refl in P. rewrite (@quad_ext n A _ (fun i => y i * 0)) in P by (intros i Hi; destruct (Nat.eqb_spec i n); [lia|]; ring).
    rewrite quad_scale in P. specialize (P ltac:(exists n; rewrite Nat.eqb_refl; split; [lia|lra])).
    assert (X : mv n A y n = ip n r r). { transitivity (ip n y (fun i => A i n)). { apply rsum_ext. intros k Hk. rewrite (S n k) by lia. ring. } rewrite (@ip_ext n y y _ (mv n l r)) by auto. rewrite ip_comm, ip_adj. apply ip_ext; auto. intros i Hi. rewrite (Hy i Hi). apply rsum_ext. intros. unfold tr. ring. }
    rewrite X in P. lra. }
  set (d := sqrt (A n n - ip n r r)). assert (Dd : d * d = A n n - ip n r r) by (apply sqrt_sqrt; lra). assert (Dp : 0 < d) by (apply sqrt_lt_R0; auto).
  set (l' := fun i j => if Nat.ltb i n then (if Nat.ltb j n then l i j else 0) else if Nat.ltb j n then r j else d).
  assert (LL : forall i k, (i < n)%nat -> (k < n)%nat -> l' i k = l i k). { intros i k Hi Hk. unfold l'. apply Nat.ltb_lt in Hi, Hk. rewrite Hi, Hk. reflexivity. }
  assert (LN : forall i, (i < n)%nat -> l' i n = 0). { intros i Hi. unfold l'. apply Nat.ltb_lt in Hi. rewrite Hi, Nat.ltb_irrefl. reflexivity. }
  assert (LR : forall k, (k < n)%nat -> l' n k = r k). { intros k Hk. unfold l'. apply Nat.ltb_lt in Hk. rewrite Hk, Nat.ltb_irrefl. reflexivity. }
  assert (LD : l' n n = d). { unfold l'. rewrite Nat.ltb_irrefl. reflexivity. }
  assert (C : forall i, (i < n)%nat -> sq (Datatypes.S n) l' i n = A i n). { intros i Hi. unfold sq. rewrite rsum_S, LN by auto. rewrite Hr by auto. rewrite Rmult_0_l, Rplus_0_r. apply rsum_ext. intros k Hk. rewrite LL, LR by auto. reflexivity. }
  exists l'. split; [split|].
  - intros i j Hij Hj. destruct (Nat.eq_dec j n) as [->|Nj]; [apply LN; auto|]. rewrite LL by lia. apply (proj1 L); lia.
  - intros i Hi. destruct (Nat.eq_dec i n) as [->|Ni]; [rewrite LD; auto|]. rewrite LL by lia. apply (proj2 L). lia.
  - intros i j Hi Hj. destruct (Nat.eq_dec i n) as [->|Ni], (Nat.eq_dec j n) as [->|Nj].
    + unfold sq. rewrite rsum_S, LD, Dd. rewrite (rsum_ext _ (fun k => r k * r k)) by (intros k Hk; rewrite LR by auto; reflexivity). fold (ip n r r). ring.
    + rewrite (S n j) by lia. rewrite <- C by lia. apply rsum_ext. intros. ring.
    + symmetry. apply C. lia.
    + rewrite E by lia. unfold sq. rewrite rsum_S, LN by lia. rewrite Rmult_0_l, Rplus_0_r. apply rsum_ext. intros k Hk. rewrite !LL by lia. reflexivity.
Qed.
Lemma chol_unique : forall n l m, lowf n l -> lowf n m -> (forall i j, (i < n)%nat -> (j < n)%nat -> sq n l i j = sq n m i j) -> forall i j, (i < n)%nat -> (j < n)%nat -> l i j = m i j.
Proof.
  intros n l m. induction n as [|n IH]; intros L M H. { intros. lia. }
  assert (Ln : lowf n l) by (split; intros; [apply (proj1 L); lia|apply (proj2 L); lia]). assert (Mn : lowf n m) by (split; intros; [apply (proj1 M); lia|apply (proj2 M); lia]).
  assert (K : forall f, lowf (S n) f -> forall i j, (j < n)%nat -> sq (S n) f i j = sq n f i j). { intros f F i j Hj. unfold sq. rewrite rsum_S, (proj1 F j n) by lia. ring. }
  assert (E : forall i j, (i < n)%nat -> (j < n)%nat -> l i j = m i j). { apply IH; auto. intros i j Hi Hj. rewrite <- !K by auto. apply H; lia. }
  (* the last row *)
  assert (Rw : forall k, (k < n)%nat -> l n k - m n k = 0).
  { apply (@kernel0 n l (fun k => l n k - m n k)). { pose proof (det_low Ln). lra. } intros i Hi. rewrite mv_sub. pose proof (H n i ltac:(lia) ltac:(lia)) as Q. rewrite !K in Q by auto. unfold sq in Q. unfold mv.
    rewrite (rsum_ext (fun k => l i k * l n k) (fun k => l n k * l i k)) by (intros; ring). rewrite Q. rewrite (rsum_ext (fun k => l i k * m n k) (fun k => m n k * m i k)) by (intros k Hk; rewrite E by auto; ring). ring. }
  intros i j Hi Hj. destruct (Nat.eq_dec j n) as [->|Nj].
  - destruct (Nat.eq_dec i n) as [->|Ni]; [|rewrite (proj1 L i n), (proj1 M i n) by lia; auto].
    pose proof (H n n Hi Hi) as Q. unfold sq in Q. rewrite !rsum_S in Q. rewrite (rsum_ext (fun k => l n k * l n k) (fun k => m n k * m n k)) in Q by (intros k Hk; specialize (Rw k Hk); replace (l n k) with (m n k) by lra; ring).
    pose proof (proj2 L n Hi). pose proof (proj2 M n Hi). nra.
  - destruct (Nat.eq_dec i n) as [->|Ni]; [|apply E; lia]. specialize (Rw j ltac:(lia)). lra.
Qed.
Lemma ll_mk : forall N f, (0 < N)%nat -> (let! t := m_transpose N N (mk N N f) in m_dot ro N N N (mk N N f) t) = Ok (mk N N (sq N f)).
Proof. intros. rewrite m_transpose_mk. cbn [bind]. rewrite dot_r by auto. reflexivity. Qed.
(** A symmetric matrix is positive definite exactly if it is l l^T for some l with zeros above and positive numbers on the diagonal, *)
Theorem C129_cholesky : forall N m, rect N N m -> (0 < N)%nat -> m_transpose N N m = Ok m ->
  (positive_definite N m <-> exists l, rect N N l /\ lower l /\ (let! t := m_transpose N N l in m_dot ro N N N l t) = Ok m).
Proof.
  intros N m Rm HN Ht. destruct (mk_ex ro Rm) as (f & ->). apply sym_iff in Ht. rewrite pd_iff by auto. split.
  - intros P. destruct (chol_exists Ht P) as (l & L & E). exists (mk N N l). split; [apply rect_mk|]. split; [apply lower_mk; auto|]. rewrite ll_mk by auto. f_equal. apply mk_ext. intros. symmetry. apply E; auto.
  - intros (l & Rl & L & E). destruct (mk_ex ro Rl) as (g & ->). apply lower_mk in L. rewrite ll_mk in E by auto. apply Ok_inj in E. apply (@chol_pd N f g L). intros i j Hi Hj. apply (f_equal (fun m => mget ro m i j)) in E. rewrite !mget_mk in E by auto. auto.
Qed.
(** and there is only one such l. *)
Theorem C129_unique : forall N k l, rect N N k -> rect N N l -> (0 < N)%nat -> lower k -> lower l ->
  (let! t := m_transpose N N k in m_dot ro N N N k t) = (let! t := m_transpose N N l in m_dot ro N N N l t) -> k = l.
Proof.
  intros N k l Rk Rl HN K L E. destruct (mk_ex ro Rk) as (f & ->), (mk_ex ro Rl) as (g & ->). apply lower_mk in K, L. rewrite !ll_mk in E by auto. apply Ok_inj in E. apply mk_ext. apply chol_unique; auto. intros i j Hi Hj.
  apply (f_equal (fun m => mget ro m i j)) in E. rewrite !mget_mk in E by auto. auto.
Qed.
(** * QR: orthonormal columns times a triangular matrix *)
Lemma mm_tr : forall M f g i j, mm M (tr g) (tr f) i j = mm M f g j i.
Proof. intros. apply rsum_ext. intros. unfold tr. ring. Qed.
Lemma inv_fn : forall n f, det n f <> 0 -> exists g, (forall i j, (i < n)%nat -> (j < n)%nat -> mm n f g i j = dl i j) /\ (forall i j, (i < n)%nat -> (j < n)%nat -> mm n g f i j = dl i j).
Proof. intros n f D. destruct n as [|n]. { exists f. split; intros; lia. } destruct (@inv_mk (S n) f _ ltac:(lia) (m_det_mk r_ring (S n) f) D) as (g & _ & P). exists g. exact P. Qed.
(** A matrix whose columns are linearly independent is q r: the columns of q are orthonormal, and r is the transpose of some l with
    zeros above the diagonal and positive numbers on it; *)
Theorem C129_qr : forall M N a, rect M N a -> (0 < M)%nat -> (0 < N)%nat -> (forall x, length x = N -> nonzero ro x -> m_dot_v ro M N a x <> Ok (repeat 0 M)) ->
  exists q t l r, rect M N q /\ m_transpose M N q = Ok t /\ m_dot ro N M N t q = m_one ro N /\ rect N N l /\ lower l /\ m_transpose N N l = Ok r /\ m_dot ro M N N q r = Ok a.
Proof.
  intros M N a Ra HM HN H. destruct (mk_ex ro Ra) as (f & ->). set (h := mm M (tr f) f).
  destruct (@C128_gram M N (mk M N f) (mk N M (tr f)) (mk N N h) (rect_mk _ _ _) HM HN (m_transpose_mk M N f)) as (S & P). { apply dot_r. auto. }
  apply P in H. apply sym_iff in S. apply pd_iff in H; auto. destruct (chol_exists S H) as (l & L & E). pose proof (det_low L) as D. destruct (@inv_fn N (tr l)) as (g & G1 & G2). { rewrite det_tr. lra. }
  set (q := mm N f g). exists (mk M N q), (mk N M (tr q)), (mk N N l), (mk N N (tr l)). split; [apply rect_mk|]. split; [apply m_transpose_mk|]. split; [|split; [apply rect_mk|split; [apply lower_mk; auto|split; [apply m_transpose_mk|]]]].
  - rewrite dot_r, m_one_mk by auto. f_equal. apply mk_ext. intros i j Hi Hj.
    assert (X : mm M (tr q) q i j = mm N (tr g) (mm N h g) i j).
    { transitivity (mm N (mm M (tr q) f) g i j). { symmetry. apply mm_assoc. } transitivity (mm N (mm N (tr g) h) g i j); [|apply mm_assoc]. apply (@mm_ext N N N); auto. intros a b Ha Hb. unfold h. rewrite <- (mm_assoc N M). apply (@mm_ext N M N); auto. intros c d Hc Hd. unfold q, tr at 1. symmetry. apply (mm_tr N f g). }
    rewrite X. transitivity (mm N (tr g) l i j).
    + apply (@mm_ext N N N); auto. intros a b Ha Hb. rewrite (@mm_ext N N N h (mm N l (tr l)) g g) by (auto; intros; apply E; auto). rewrite mm_assoc. rewrite (@mm_ext N N N l l (mm N (tr l) g) (fun i j => dl i j)) by auto. apply mm_one_r. auto.
    + change (mm N (tr g) (tr (tr l)) i j = dl i j). rewrite mm_tr, G1 by auto. rewrite (Nat.eqb_sym j i). reflexivity.
  - rewrite dot_r by auto. f_equal. apply mk_ext. intros i j Hi Hj. unfold q. rewrite mm_assoc. rewrite (@mm_ext M N N f f (mm N g (tr l)) (fun i j => dl i j)) by auto. apply mm_one_r. auto.
Qed.
(** and there is only one such pair. *)
Theorem C129_qr_unique : forall M N q t l r q' t' l' r', rect M N q -> rect M N q' -> (0 < M)%nat -> (0 < N)%nat -> rect N N l -> rect N N l' -> lower l -> lower l' ->
  m_transpose M N q = Ok t -> m_dot ro N M N t q = m_one ro N -> m_transpose N N l = Ok r -> m_transpose M N q' = Ok t' -> m_dot ro N M N t' q' = m_one ro N -> m_transpose N N l' = Ok r' ->
  m_dot ro M N N q r = m_dot ro M N N q' r' -> q = q' /\ r = r'.
Proof.
  intros M N q t l r q' t' l' r' Rq Rq' HM HN Rl Rl' L L' Ht O Hr Ht' O' Hr' E. destruct (mk_ex ro Rq) as (f & ->), (mk_ex ro Rq') as (f' & ->), (mk_ex ro Rl) as (g & ->), (mk_ex ro Rl') as (g' & ->).
  rewrite m_transpose_mk in Ht, Ht', Hr, Hr'. apply Ok_inj in Ht, Ht', Hr, Hr'. subst t t' r r'. rewrite dot_r, m_one_mk in O, O' by auto. apply Ok_inj in O, O'. apply lower_mk in L, L'. rewrite !dot_r in E by auto. apply Ok_inj in E. fold (tr f) (tr f') (tr g) (tr g') in *.
  assert (ent : forall A B (u v : nat -> nat -> R), mk A B u = mk A B v -> forall i j, (i < A)%nat -> (j < B)%nat -> u i j = v i j). { intros A B u v H i j Hi Hj. apply (f_equal (fun m => mget ro m i j)) in H. rewrite !mget_mk in H by auto. exact H. }
  pose proof (ent _ _ _ _ O) as P. pose proof (ent _ _ _ _ O') as P'. pose proof (ent _ _ _ _ E) as Q. clear O O' E.
  assert (Gm : forall f g, (forall i j, (i < N)%nat -> (j < N)%nat -> mm M (tr f) f i j = dl i j) -> forall i j, (i < N)%nat -> (j < N)%nat -> mm M (tr (mm N f (tr g))) (mm N f (tr g)) i j = sq N g i j).
  { intros u v H i j Hi Hj. rewrite <- (mm_assoc M N). transitivity (mm N v (tr v) i j); [|reflexivity]. apply (@mm_ext N N N); auto. intros a b Ha Hb.
    transitivity (mm M (mm N v (tr u)) u a b). { apply (@mm_ext N M N); auto. intros c d Hc Hd. unfold tr at 1. rewrite <- (mm_tr N u (tr v)). reflexivity. }
    rewrite mm_assoc. rewrite (@mm_ext N N N v v (mm M (tr u) u) (fun i j => dl i j)) by auto. apply mm_one_r. auto. }
  assert (LL : forall i j, (i < N)%nat -> (j < N)%nat -> g i j = g' i j).
  { apply chol_unique; auto. intros i j Hi Hj. rewrite <- (Gm f g P i j Hi Hj), <- (Gm f' g' P' i j Hi Hj). apply (@mm_ext N M N); auto. intros a b Ha Hb. unfold tr at 1 3. apply Q; auto. }
  split; [|apply mk_ext; intros i j Hi Hj; apply LL; auto]. pose proof (det_low L) as D. destruct (@inv_fn N (tr g)) as (k & K1 & _). { rewrite det_tr. lra. }
  apply mk_ext. intros i j Hi Hj. rewrite <- (mm_one_r f i Hj), <- (mm_one_r f' i Hj).
  transitivity (mm N f (mm N (tr g) k) i j). { apply (@mm_ext M N N); auto. intros. symmetry. apply K1; auto. } transitivity (mm N f' (mm N (tr g) k) i j); [|apply (@mm_ext M N N); auto].
  rewrite <- !mm_assoc. apply (@mm_ext M N N); auto. intros a b Ha Hb. rewrite Q by auto. apply (@mm_ext M N N); auto. intros c d Hc Hd. unfold tr. symmetry. apply LL; auto.
Qed.
(* [[4; 2]; [2; 5]] = l l^T for l = [[2; 0]; [1; 2]] *)
Example C129_ex : lower [[2; 0]; [1; 2]] /\ (let! t := m_transpose 2 2 [[2; 0]; [1; 2]] in m_dot ro 2 2 2 [[2; 0]; [1; 2]] t) = Ok [[4; 2]; [2; 5]].
Proof.
  change [[2; 0]; [1; 2]] with (mk 2 2 (mget ro [[2; 0]; [1; 2]])). split.
  - apply lower_mk. split.
    + intros i j Hij Hj. assert (i = 0 /\ j = 1)%nat as (-> & ->) by lia. reflexivity.
    + intros i Hi. destruct i as [|[|]]; try lia; cbn; lra.
  - rewrite ll_mk by lia. change [[4; 2]; [2; 5]] with (mk 2 2 (mget ro [[4; 2]; [2; 5]])). f_equal. apply mk_ext. intros i j Hi Hj. unfold sq, rsum. destruct i as [|[|]], j as [|[|]]; try lia; cbn; ring.
Qed.

Print Assumptions C129_cholesky.
Print Assumptions C129_unique.
(* [[3]; [4]] has an independent column; it is [[3 / 5]; [4 / 5]] times [[5]] *)
Example C129_qr_ex : (forall x, length x = 1%nat -> nonzero ro x -> m_dot_v ro 2 1 [[3]; [4]] x <> Ok (repeat 0 2)) /\
  m_dot ro 1 2 1 [[3 / 5; 4 / 5]] [[3 / 5]; [4 / 5]] = m_one ro 1 /\ lower [[5]] /\ m_dot ro 2 1 1 [[3 / 5]; [4 / 5]] [[5]] = Ok [[3]; [4]].
Proof.
  change [[3]; [4]] with (mk 2 1 (mget ro [[3]; [4]])). change [[3 / 5; 4 / 5]] with (mk 1 2 (mget ro [[3 / 5; 4 / 5]])). change [[3 / 5]; [4 / 5]] with (mk 2 1 (mget ro [[3 / 5]; [4 / 5]])). change [[5]] with (mk 1 1 (fun _ _ => 5)).
  split; [|split; [|split]].
  - intros x Lx Nx E. destruct (vk_ex ro x Lx) as (u & ->). apply nonzero_vk in Nx as (j & Hj & Nj). assert (j = 0%nat) by lia. subst j. rewrite dot_v_r in E by lia. apply Ok_inj in E. apply (f_equal (fun l => nth 0 l 0)) in E. cbn in E. cbn in Nj. apply Nj. lra.
  - rewrite dot_r, m_one_mk by lia. f_equal. apply mk_ext. intros i j Hi Hj. unfold mm, rsum. destruct i, j; try lia. cbn. field.
  - apply lower_mk. split; [intros; lia|]. intros. lra.
  - rewrite dot_r by lia. f_equal. apply mk_ext. intros i j Hi Hj. unfold mm, rsum. destruct i as [|[|]], j; try lia; cbn; field.
Qed.

Print Assumptions C129_cholesky.
Print Assumptions C129_unique.
Print Assumptions C129_qr.
Print Assumptions C129_qr_unique.
