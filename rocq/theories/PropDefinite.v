(** C128: positive definite matrices: Sylvester's criterion in terms of det, and the inverse. *)
From Coq Require Import Reals Lra Psatz Lia.
From Verif Require Import Spec SpecRing SpecDet AlgFacts MFacts DetFacts MatProofs SqProofs SquareModel RealInst RealFacts PropReal PropSquare PropLinear PropRank PropCond PropNearest.
Import ListNotations.
Set Implicit Arguments.
Local Open Scope R_scope.
Local Open Scope list_scope.

Local Notation ro := r_ops.
Local Notation dl i j := (if Nat.eqb i j then 1 else 0).
(** x . (m x) is positive for every x other than zero. *)
Definition positive_definite (N : nat) (m : list (list R)) : Prop :=
  forall x, length x = N -> nonzero ro x -> exists y q, m_dot_v ro N N m x = Ok y /\ v_dot ro N x y = Ok q /\ 0 < q.
(** The first [k] rows and columns. *)
Definition corner (k : nat) (m : list (list R)) : list (list R) := map (firstn k) (firstn k m).

Local Notation det n A := (leibniz r_ring n A).
Definition quad (n : nat) (A : nat -> nat -> R) (x : nat -> R) : R := ip n x (mv n A x).
Definition pd (n : nat) (A : nat -> nat -> R) : Prop := forall x, (exists i, (i < n)%nat /\ x i <> 0) -> 0 < quad n A x.
Definition sym (n : nat) (A : nat -> nat -> R) : Prop := forall i j, (i < n)%nat -> (j < n)%nat -> A i j = A j i.

Lemma det_one : forall n, det n (fun i j => dl i j) = 1.
Proof. intros. pose proof (C31_one r_ring n) as D. rewrite m_one_mk in D. cbn [bind] in D. rewrite (m_det_mk r_ring) in D. apply Ok_inj in D. exact D. Qed.
Lemma det_1 : forall A, det 1 A = A 0%nat 0%nat. Proof. intros. cbn. ring. Qed.
Lemma det_0 : forall A, det 0 A = 1. Proof. intros. cbn. ring. Qed.
Lemma mul_r : forall n A B, det n (fun i j => rsum n (fun k => A i k * B k j)) = det n A * det n B.
Proof. intros. exact (leibniz_mul r_ring n A B). Qed.
(* the determinant of a bordered matrix *)
Lemma border : forall n A p, (forall i, (i < n)%nat -> A i n = mv n A p i) -> det (S n) A = det n A * (A n n - mv n A p n).
Proof.
  intros n A p H. set (U := fun i j : nat => if Nat.eqb i j then 1 else if Nat.eqb j n then - p i else 0).
  assert (DU : det (n + 1) U = 1).
  { rewrite (@block_upper _ _ r_ring n 1 U). 2: { intros i j Hi Hj. unfold U. destruct (Nat.eqb_spec (n + i) j); [lia|]. destruct (Nat.eqb_spec j n); [lia|]. reflexivity. }
    rewrite det_1, (@leibniz_ext _ _ r_ring n U (fun i j => dl i j)). 2: { intros i j Hi Hj. unfold U. destruct (Nat.eqb_spec i j); auto. destruct (Nat.eqb_spec j n); [lia|]. reflexivity. }
    rewrite det_one. unfold U. rewrite Nat.eqb_refl. cbn. ring. }
  set (B := fun i j => rsum (n + 1) (fun k => A i k * U k j)).
  assert (BJ : forall i j, (j < n)%nat -> B i j = A i j).
  { intros i j Hj. unfold B. rewrite (rsum_ext _ (fun k => if Nat.eqb k j then A i k else 0)). { apply (@bigsum_delta _ _ r_ring (n + 1) j (fun k => A i k)). lia. }
    intros k Hk. unfold U. destruct (Nat.eqb_spec k j); [ring|]. destruct (Nat.eqb_spec j n); [lia|]. ring. }
  assert (BN : forall i, B i n = A i n - mv n A p i).
  { intros i. unfold B. rewrite Nat.add_1_r, rsum_S. unfold U at 2. rewrite Nat.eqb_refl. rewrite (rsum_ext _ (fun k => - (A i k * p k))). { rewrite rsum_neg. unfold mv. ring. }
    intros k Hk. unfold U. destruct (Nat.eqb_spec k n); [lia|]. rewrite Nat.eqb_refl. ring. }
  rewrite <- (Nat.add_1_r n). rewrite <- (Rmult_1_r (det (n + 1) A)), <- DU, <- mul_r. fold B. rewrite (@block_lower _ _ r_ring n 1 B).
  - rewrite det_1. rewrite !Nat.add_0_r, BN. change (det n B * (A n n - mv n A p n) = det n A * (A n n - mv n A p n)). f_equal. apply leibniz_ext. auto.
  - intros i j Hi Hj. replace (n + j)%nat with n by lia. rewrite BN, H by auto. cbn. ring.
Qed.
Lemma quad_add : forall n A x y, sym n A -> quad n A (fun i => x i + y i) = quad n A x + 2 * ip n x (mv n A y) + quad n A y.
Proof.
  intros n A x y S. unfold quad. assert (E : ip n y (mv n A x) = ip n x (mv n A y)). { rewrite (ip_comm n y), ip_adj. apply ip_ext; auto. intros i Hi. unfold vm, mv. apply rsum_ext. intros k Hk. rewrite S by auto. ring. }
  rewrite (@ip_ext n _ (fun i => x i - y i * -1) _ (fun i => mv n A x i - mv n A y i * -1)) by (intros; rewrite ?mv_add_r; ring). rewrite ip_sub_l, !ip_sub_r, !ip_mul_l, !ip_mul_r, E. ring.
Qed.
Lemma quad_scale : forall n A x t, quad n A (fun i => x i * t) = t * t * quad n A x.
Proof. intros. unfold quad. rewrite (@ip_ext n _ (fun i => x i * t) _ (fun i => mv n A x i * t)) by (auto; intros; apply mv_scale). rewrite ip_mul_l, ip_mul_r. ring. Qed.
Lemma quad_ext : forall n A x y, (forall i, (i < n)%nat -> x i = y i) -> quad n A x = quad n A y.
Proof. intros. apply ip_ext; auto. intros. apply (@mv_ext n n); auto. Qed.
(* completing the square in the last coordinate *)
Lemma quad_border : forall n A p x, sym (S n) A -> (forall i, (i < n)%nat -> A i n = mv n A p i) ->
  quad (S n) A x = quad n A (fun i => x i + p i * x n) + (A n n - mv n A p n) * (x n * x n).
Proof.
  intros n A p x S H. rewrite quad_add by (intros i j Hi Hj; apply S; lia). rewrite quad_scale.
  assert (C : forall y, ip n y (fun i => A i n) = ip n y (mv n A p)) by (intros; apply ip_ext; auto).
  assert (D : forall y, mv n A y n = ip n y (fun i => A i n)) by (intros; apply rsum_ext; intros k Hk; rewrite (S n k) by lia; ring).
  unfold quad at 1. unfold ip at 1. rewrite rsum_S. change (rsum n (fun i => x i * mv (Datatypes.S n) A x i)) with (ip n x (mv (Datatypes.S n) A x)). rewrite mv_S, !D.
  rewrite (@ip_ext n x x _ (fun i => mv n A x i - A i n * - x n)) by (auto; intros; rewrite mv_S; ring). rewrite ip_sub_r, ip_mul_r, !C. rewrite (@ip_ext n x x (mv n A (fun i => p i * x n)) (fun i => mv n A p i * x n)) by (auto; intros; apply mv_scale). rewrite ip_mul_r. unfold quad. ring.
Qed.
Lemma solve_fn : forall n A c, det n A <> 0 -> exists p, forall i, (i < n)%nat -> c i = mv n A p i.
Proof.
  intros n A c H. destruct n as [|n]. { exists (fun _ => 0). intros. lia. }
  destruct (@C108_solve R ro r_field (S n) (mk (S n) (S n) A) (det (S n) A) (vk (S n) c) (rect_mk _ _ _)) as (x & _ & (Lx & Hx) & _); auto using vk_length. { apply (m_det_mk r_ring). }
  destruct (vk_ex ro x Lx) as (p & ->). rewrite dot_v_r in Hx by lia. apply Ok_inj in Hx. pose proof (@vk_inj R (S n) _ _ Hx) as K. exists p. intros i Hi. symmetry. apply K. auto.
Qed.
Lemma sylvester_fn : forall n A, sym n A -> (pd n A <-> forall k, (0 < k <= n)%nat -> 0 < det k A).
Proof.
  intros n A. induction n as [|n IH]; intros S. { split; [intros _ k Hk; lia|intros _ x (i & Hi & _); lia]. }
  assert (Sn : sym n A) by (intros i j Hi Hj; apply S; lia). specialize (IH Sn).
  assert (Pos : (forall k, (0 < k <= n)%nat -> 0 < det k A) -> 0 < det n A). { intros H. destruct n as [|n']; [rewrite det_0; lra|]. apply H. lia. }
  split.
  - intros P. assert (Q : pd n A).
    { intros x (i & Hi & Nx). specialize (P (fun j => if Nat.ltb j n then x j else 0)). assert (E : quad (Datatypes.S n) A (fun j => if Nat.ltb j n then x j else 0) = quad n A x).
      { unfold quad. unfold ip at 1. rewrite rsum_S, Nat.ltb_irrefl, Rmult_0_l, Rplus_0_r. apply rsum_ext. intros k Hk. pose proof Hk as Hk'. apply Nat.ltb_lt in Hk'. rewrite Hk', mv_S, Nat.ltb_irrefl, Rmult_0_r, Rplus_0_r. f_equal. apply (@mv_ext (Datatypes.S k) n); auto. intros l Hl. apply Nat.ltb_lt in Hl. rewrite Hl. reflexivity. }
      rewrite <- E. apply P. exists i. split; [lia|]. apply Nat.ltb_lt in Hi. rewrite Hi. auto. }
    pose proof (proj1 IH Q) as M. pose proof (Pos M) as D. destruct (@solve_fn n A (fun i => A i n)) as (p & Hp). { lra. }
    intros k Hk. destruct (Nat.eq_dec k (Datatypes.S n)) as [->|Nk]; [|apply M; lia]. rewrite (@border n A p Hp). apply Rmult_lt_0_compat; auto.
    specialize (P (fun i => if Nat.eqb i n then 1 else - p i)). rewrite (@quad_border n A p _ S Hp) in P. rewrite Nat.eqb_refl in P. rewrite (@quad_ext n A _ (fun i => p i * 0)) in P.
    + rewrite quad_scale in P. specialize (P ltac:(exists n; rewrite Nat.eqb_refl; split; [lia|lra])). lra.
    + intros i Hi. destruct (Nat.eqb_spec i n); [lia|]. ring.
  - intros M. assert (M' : forall k, (0 < k <= n)%nat -> 0 < det k A) by (intros; apply M; lia). pose proof (proj2 IH M') as Q. pose proof (Pos M') as D. destruct (@solve_fn n A (fun i => A i n)) as (p & Hp). { lra. }
    pose proof (M (Datatypes.S n) ltac:(lia)) as X. rewrite (@border n A p Hp) in X. assert (Y : 0 < A n n - mv n A p n) by nra.
    intros x (i & Hi & Nx). rewrite (@quad_border n A p x S Hp). set (s := A n n - mv n A p n) in *. destruct (Req_dec (x n) 0) as [Z|Z].
    + rewrite Z, !Rmult_0_r, Rplus_0_r. apply Q. exists i. destruct (Nat.eq_dec i n) as [->|Ni]; [contradiction|]. split; [lia|]. rewrite Rmult_0_r, Rplus_0_r. auto.
    + assert (T : 0 <= quad n A (fun i => x i + p i * x n)). { destruct n as [|n']; [cbn; lra|]. destruct (Rle_dec 0 (quad (Datatypes.S n') A (fun i => x i + p i * x (Datatypes.S n')))) as [L|L]; auto. exfalso.
        assert (V : forall i, (i < Datatypes.S n')%nat -> x i + p i * x (Datatypes.S n') = 0). { intros j Hj. destruct (Req_dec (x j + p j * x (Datatypes.S n')) 0) as [E|E]; auto. exfalso. apply L. left. apply Q. exists j. auto. }
        apply L. rewrite (@quad_ext _ A _ (fun _ => 0 * 0)) by (intros j Hj; rewrite V by auto; ring). rewrite (quad_scale _ A (fun _ => 0) 0). lra. }
      assert (0 < x n * x n) by (pose proof (sqpos (x n)); nra). nra.
Qed.

Lemma pd_iff : forall N f, (0 < N)%nat -> (positive_definite N (mk N N f) <-> pd N f).
Proof.
  intros N f HN. split.
  - intros H x Hx. destruct (H (vk N x) (vk_length _ _)) as (y & q & E1 & E2 & L). { apply nonzero_vk. exact Hx. } rewrite dot_v_r in E1 by auto. apply Ok_inj in E1. subst y. rewrite dot_rr in E2 by auto. apply Ok_inj in E2. subst q. exact L.
  - intros H x Lx Nx. destruct (vk_ex ro x Lx) as (u & ->). apply nonzero_vk in Nx. exists (vk N (mv N f u)), (quad N f u). rewrite dot_v_r, dot_rr by auto. repeat split. apply H. exact Nx.
Qed.
Lemma firstn_vk : forall T k N (u : nat -> T), (k <= N)%nat -> firstn k (vk N u) = vk k u.
Proof. intros T k. induction k as [|k IH]; intros N u H; [reflexivity|]. destruct N as [|N]; [lia|]. rewrite !vk_S. cbn [firstn]. f_equal. apply IH. lia. Qed.
Lemma corner_mk : forall k N f, (k <= N)%nat -> corner k (mk N N f) = mk k k f.
Proof. intros. unfold corner, mk. rewrite firstn_vk by auto. unfold vk. rewrite map_map. apply map_ext. intros i. apply (firstn_vk (f i)). auto. Qed.
Lemma sym_iff : forall N f, m_transpose N N (mk N N f) = Ok (mk N N f) <-> sym N f.
Proof.
  intros. rewrite m_transpose_mk. split.
  - intros E i j Hi Hj. apply Ok_inj in E. apply (f_equal (fun m => mget ro m i j)) in E. rewrite !mget_mk in E by auto. auto.
  - intros H. f_equal. apply mk_ext. intros. apply H; auto.
Qed.
(** A symmetric matrix is positive definite exactly if the determinants of all its leading square parts are positive. *)
Theorem C128_sylvester : forall N m, rect N N m -> (0 < N)%nat -> m_transpose N N m = Ok m ->
  (positive_definite N m <-> forall k, (1 <= k <= N)%nat -> exists d, m_det ro k (corner k m) = Ok d /\ 0 < d).
Proof.
  intros N m Rm HN Ht. destruct (mk_ex ro Rm) as (f & ->). apply sym_iff in Ht. rewrite pd_iff, sylvester_fn by auto. split.
  - intros H k Hk. rewrite corner_mk by lia. eexists. split; [apply (m_det_mk r_ring)|]. apply H. lia.
  - intros H k Hk. destruct (H k ltac:(lia)) as (d & E & L). rewrite corner_mk in E by lia. rewrite (m_det_mk r_ring) in E. apply Ok_inj in E. subst d. exact L.
Qed.
(** So its determinant is positive and it has an inverse; the inverse is symmetric and positive definite as well. *)
Theorem C128_inverse : forall N m, rect N N m -> (0 < N)%nat -> m_transpose N N m = Ok m -> positive_definite N m ->
  exists d b, m_det ro N m = Ok d /\ 0 < d /\ m_inv ro N m = Ok b /\ rect N N b /\ m_transpose N N b = Ok b /\ positive_definite N b.
Proof.
  intros N m Rm HN Ht P. destruct (mk_ex ro Rm) as (f & ->). apply sym_iff in Ht. apply pd_iff in P; auto. pose proof (proj1 (sylvester_fn Ht) P N ltac:(lia)) as D.
  assert (E : m_det ro N (mk N N f) = Ok (det N f)) by apply (m_det_mk r_ring). destruct (inv_mk f HN E ltac:(lra)) as (g & I & P1 & P2). exists (det N f), (mk N N g). do 4 (split; [auto using rect_mk|]).
  assert (G : forall x i, (i < N)%nat -> mv N f (mv N g x) i = x i). { intros x i Hi. rewrite <- mv_mm. rewrite <- (mv_one x Hi). apply (@mv_ext N N); auto. }
  assert (Sg : sym N g).
  { intros i j Hi Hj. assert (X : forall a, mm N f g a j = mm N f g a j) by auto.
    (* g = g (f g)^T = g g^T f = ... : compare entries of (g f) g^T and g (f g^T) *)
    assert (Y : forall a b, (a < N)%nat -> (b < N)%nat -> mm N f (fun k l => g l k) a b = dl a b).
    { intros a b Ha Hb. transitivity (mm N g f b a). { unfold mm. apply rsum_ext. intros k Hk. rewrite (Ht a k) by auto. ring. } rewrite P2 by auto. rewrite (Nat.eqb_sym b a). reflexivity. }
    transitivity (mm N g (mm N f (fun k l => g l k)) i j).
    - rewrite <- (mm_one_r g i Hj). apply (@mm_ext N N N); auto. intros. symmetry. apply Y; auto.
    - rewrite <- mm_assoc. rewrite (@mm_ext N N N (mm N g f) (fun i j => dl i j) (fun k l => g l k) (fun k l => g l k)) by auto. rewrite mm_one_l by auto. reflexivity. }
  split; [apply sym_iff; exact Sg|]. apply pd_iff; auto. intros x (i & Hi & Nx). assert (Q : quad N g x = quad N f (mv N g x)). { unfold quad. rewrite ip_comm. apply ip_ext; auto. intros k Hk. rewrite G by auto. reflexivity. }
  rewrite Q. apply P. destruct (Req_dec (ip N (mv N g x) (mv N g x)) 0) as [Z|Z].
  - exfalso. apply Nx. rewrite <- (G x i Hi). unfold mv at 1. rewrite (rsum_ext _ (fun _ => 0)); [apply rsum_const0|]. intros k Hk. rewrite (@ip_zero N _ Z k Hk). ring.
  - assert (X : ~ forall k, (k < N)%nat -> mv N g x k = 0). { intros H. apply Z. unfold ip. rewrite (rsum_ext _ (fun _ => 0)); [apply rsum_const0|]. intros k Hk. rewrite H by auto. ring. }
    clear - X. revert X. generalize (mv N g x). intros u. induction N as [|N IH]; intros X. { exfalso. apply X. intros. lia. } destruct (Req_dec (u N) 0) as [E|E]; [|exists N; auto].
    destruct IH as (k & Hk & Nk). { intros H. apply X. intros k Hk. destruct (Nat.eq_dec k N) as [->|]; auto. apply H. lia. } exists k. auto.
Qed.
(** a^T a is symmetric, x . (a^T a x) = |a x|^2, and it is positive definite exactly if the columns of a are independent. *)
Theorem C128_gram : forall M N a t g, rect M N a -> (0 < M)%nat -> (0 < N)%nat -> m_transpose M N a = Ok t -> m_dot ro N M N t a = Ok g ->
  m_transpose N N g = Ok g /\ (positive_definite N g <-> forall x, length x = N -> nonzero ro x -> m_dot_v ro M N a x <> Ok (repeat 0 M)).
Proof.
  intros M N a t g Ra HM HN Ht Hg. destruct (mk_ex ro Ra) as (f & ->). rewrite m_transpose_mk in Ht. apply Ok_inj in Ht. subst t. rewrite dot_r in Hg by auto. apply Ok_inj in Hg. subst g. split.
  { apply sym_iff. intros i j Hi Hj. unfold mm. apply rsum_ext. intros. ring. }
  rewrite pd_iff by auto. set (h := mm M (fun i j => f j i) f).
  assert (Q : forall x, quad N h x = ip M (mv N f x) (mv N f x)). { intros. rewrite ip_adj. unfold quad. apply ip_ext; auto. intros i Hi. unfold h. rewrite mv_mm. apply rsum_ext. intros. ring. }
  assert (Z0 : repeat 0 M = vk M (fun _ => 0)) by exact (zeros_vk (o := r_ops) M). split.
  - intros H x Lx Nx E. destruct (vk_ex ro x Lx) as (u & ->). apply nonzero_vk in Nx. specialize (H u Nx). rewrite Q in H. rewrite dot_v_r, Z0 in E by auto. apply Ok_inj in E. pose proof (@vk_inj R M _ _ E) as K. cbn beta in K.
    unfold ip in H. rewrite (rsum_ext _ (fun _ => 0)), rsum_const0 in H; [lra|]. intros. rewrite K by auto. ring.
  - intros H u Nu. rewrite Q. destruct (ip_pos M (mv N f u)) as [L|E]; auto. exfalso. apply (H (vk N u) (vk_length _ _)). { apply nonzero_vk. exact Nu. }
    rewrite dot_v_r, Z0 by auto. f_equal. apply vk_ext. intros i Hi. apply (@ip_zero M (mv N f u)); auto.
Qed.
(* [[2; 1]; [1; 2]] is positive definite, [[1; 2]; [2; 1]] is not although its entries and its first corner are positive *)
Example C128_definite_ex : m_transpose 2 2 [[2; 1]; [1; 2]] = Ok [[2; 1]; [1; 2]] /\ positive_definite 2 [[2; 1]; [1; 2]] /\ ~ positive_definite 2 [[1; 2]; [2; 1]].
Proof.
  assert (E : forall a b c d, [[a; b]; [c; d]] = mk 2 2 (mget ro [[a; b]; [c; d]])) by reflexivity.
  assert (T : forall a b c, m_transpose 2 2 [[a; b]; [b; c]] = Ok [[a; b]; [b; c]]) by (intros; exact (m_transpose_mk 2 2 (mget ro [[a; b]; [b; c]]))).
  assert (Rr : forall a b c d, rect 2 2 [[a; b]; [c; d]]) by (intros; rewrite E; apply rect_mk). split; [apply T|]. split.
  - apply C128_sylvester; auto. intros k Hk. assert (k = 1 \/ k = 2)%nat as [->| ->] by lia.
    + exists 2. split; [|lra]. change (corner 1 [[2; 1]; [1; 2]]) with (mk 1 1 (fun _ _ => 2)). rewrite (m_det_mk r_ring). f_equal. cbn. ring.
    + exists 3. split; [|lra]. change (corner 2 [[2; 1]; [1; 2]]) with [[2; 1]; [1; 2]]. rewrite det2. f_equal. ring.
  - intros P. pose proof (proj1 (@C128_sylvester 2 [[1; 2]; [2; 1]] (Rr _ _ _ _) ltac:(lia) (T _ _ _)) P) as P'. destruct (P' 2%nat ltac:(lia)) as (d & D & L). change (corner 2 [[1; 2]; [2; 1]]) with [[1; 2]; [2; 1]] in D. rewrite det2 in D. apply Ok_inj in D. lra.
Qed.

Print Assumptions C128_sylvester.
Print Assumptions C128_inverse.
Print Assumptions C128_gram.
