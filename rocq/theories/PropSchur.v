(** C131: sums and element-wise products of positive definite matrices; the determinant and the diagonal. *)
From Coq Require Import Reals Lra Psatz Lia.
From Verif Require Import Spec SpecRing SpecDet AlgFacts MFacts DetFacts MatProofs SqProofs SquareModel RealInst RealFacts PropReal PropSquare PropLinear PropRank PropCond PropNearest PropDefinite PropCholesky PropLU.
Import ListNotations.
Set Implicit Arguments.
Local Open Scope R_scope.
Local Open Scope list_scope.

Local Notation ro := r_ops.
Local Notation det n A := (leibniz r_ring n A).

Lemma m_mul_fn : forall M N f g, m_mul ro M N (mk M N f) (mk M N g) = Ok (mk M N (fun i j => f i j * g i j)).
Proof. intros. unfold m_mul. apply m_zip_map_mk. reflexivity. Qed.
Lemma pd_nonneg : forall n A x, pd n A -> 0 <= quad n A x.
Proof.
  intros n A x P. destruct (Rle_dec 0 (quad n A x)) as [L|L]; auto. exfalso.
  assert (V : forall i, (i < n)%nat -> x i = 0). { intros j Hj. destruct (Req_dec (x j) 0) as [E|E]; auto. exfalso. apply L. left. apply P. exists j. auto. }
  apply L. rewrite (@quad_ext _ A x (fun _ => 0 * 0)) by (intros j Hj; rewrite V by auto; ring). rewrite (quad_scale _ A (fun _ => 0) 0). lra.
Qed.
Lemma pd_zero : forall n A x, pd n A -> quad n A x = 0 -> forall i, (i < n)%nat -> x i = 0.
Proof. intros n A x P E i Hi. destruct (Req_dec (x i) 0) as [|Nx]; auto. exfalso. assert (0 < quad n A x) by (apply P; exists i; auto). lra. Qed.
Lemma quad_expand : forall n A x, quad n A x = rsum n (fun i => rsum n (fun j => A i j * (x i * x j))).
Proof. intros. unfold quad, ip, mv. apply rsum_ext. intros i Hi. rewrite <- rsum_mul_l. apply rsum_ext. intros. ring. Qed.
Lemma quad_schur : forall n A B l x, (forall i j, (i < n)%nat -> (j < n)%nat -> A i j = sq n l i j) ->
  quad n (fun i j => A i j * B i j) x = rsum n (fun k => quad n B (fun i => x i * l i k)).
Proof.
  intros n A B l x H. rewrite quad_expand. rewrite (rsum_ext (fun k => quad n B (fun i => x i * l i k)) (fun k => rsum n (fun i => rsum n (fun j => B i j * ((x i * l i k) * (x j * l j k)))))) by (intros; apply quad_expand).
  rewrite (rsum_swap n n (fun k i => rsum n (fun j => B i j * (x i * l i k * (x j * l j k))))). apply rsum_ext. intros i Hi. rewrite (rsum_swap n n (fun k j => B i j * (x i * l i k * (x j * l j k)))). apply rsum_ext. intros j Hj. rewrite H by auto. unfold sq.
  rewrite (rsum_ext (fun k => B i j * (x i * l i k * (x j * l j k))) (fun k => (B i j * (x i * x j)) * (l i k * l j k))) by (intros; ring). rewrite rsum_mul_l. ring.
Qed.
Lemma schur_fn : forall n A B, sym n A -> pd n A -> pd n B -> pd n (fun i j => A i j * B i j).
Proof.
  intros n A B S PA PB x (i & Hi & Nx). destruct (chol_exists S PA) as (l & L & H). rewrite (@quad_schur n A B l x H).
  apply Rlt_le_trans with (quad n B (fun k => x k * l k i)).
  - apply PB. exists i. split; auto. pose proof (proj2 L i Hi). apply Rmult_integral_contrapositive_currified; auto. lra.
  - apply (@rsum_term_le n (fun k => quad n B (fun j => x j * l j k)) i); auto. intros. apply pd_nonneg. auto.
Qed.
Lemma had_fn : forall n A, sym n A -> pd n A -> 0 < det n A <= pivf n A /\ (det n A = pivf n A -> forall i j, (i < n)%nat -> (j < n)%nat -> i <> j -> A i j = 0).
Proof.
  induction n as [|n IH]; intros A S P. { rewrite det_0. cbn. split; [lra|]. intros. lia. }
  assert (Sn : sym n A) by (intros i j Hi Hj; apply S; lia). assert (Pn : pd n A). { apply sylvester_fn; auto. intros k Hk. apply (proj1 (sylvester_fn S) P). lia. }
  destruct (IH A Sn Pn) as ((D0 & D1) & Eq). destruct (@solve_fn n A (fun i => A i n)) as (p & Hp). { lra. }
  pose proof (proj1 (sylvester_fn S) P (Datatypes.S n) ltac:(lia)) as DS. pose proof (@border n A p Hp) as B.
  assert (Q : mv n A p n = quad n A p). { unfold quad, mv at 1. apply rsum_ext. intros k Hk. rewrite <- (Hp k Hk), (S n k) by lia. ring. }
  pose proof (@pd_nonneg n A p Pn) as Q0. rewrite Q in B. rewrite B in *. cbn [pivf]. set (q := quad n A p) in *. set (a := A n n) in *. set (d := det n A) in *. set (v := pivf n A) in *.
  assert (0 < a) by nra. split; [split; [auto|]|]. { assert (d * q >= 0) by nra. assert (0 <= (v - d) * a) by nra. nra. }
  intros E. assert (X : (v - d) * a + d * q = 0) by lra. assert (0 <= (v - d) * a) by nra. assert (0 <= d * q) by nra.
  assert (d * q = 0) by lra. assert (q0 : q = 0) by (destruct (Rmult_integral d q); auto; lra). assert ((v - d) * a = 0) by lra. assert (d = v) by (destruct (Rmult_integral (v - d) a); auto; lra).
  assert (Z : forall i, (i < n)%nat -> A i n = 0). { intros i Hi. rewrite Hp by auto. unfold mv. rewrite (rsum_ext _ (fun _ => 0)); [apply rsum_const0|]. intros k Hk. rewrite (@pd_zero n A p Pn q0 k Hk). ring. }
  intros i j Hi Hj Nij. destruct (Nat.eq_dec i n) as [->|Ni]. { rewrite S by auto. apply Z. lia. } destruct (Nat.eq_dec j n) as [->|Nj]; [apply Z; lia|]. apply Eq; auto; lia.
Qed.

Lemma quad_sum : forall n A B x, quad n (fun i j => A i j + B i j) x = quad n A x + quad n B x.
Proof. intros. rewrite !quad_expand, <- rsum_add. apply rsum_ext. intros i Hi. rewrite <- rsum_add. apply rsum_ext. intros. ring. Qed.
Lemma pd_sum : forall n A B, pd n A -> pd n B -> pd n (fun i j => A i j + B i j).
Proof. intros n A B PA PB x Hx. rewrite quad_sum. pose proof (PA x Hx). pose proof (PB x Hx). lra. Qed.
(** the last pivot is the least value of the form at a vector ending in 1 *)
Lemma pivot_min : forall n A, sym (S n) A -> pd (S n) A -> exists s x, 0 < det n A /\ 0 < s /\ det (S n) A = det n A * s /\ x n = 1 /\ quad (S n) A x = s /\ forall y, y n = 1 -> s <= quad (S n) A y.
Proof.
  intros n A S P. pose proof (proj1 (sylvester_fn S) P) as M. assert (D : 0 < det n A). { destruct n as [|n]; [rewrite det_0; lra|apply M; lia]. }
  assert (Sn : sym n A) by (intros i j Hi Hj; apply S; lia). assert (Pn : pd n A). { apply sylvester_fn; auto. intros k Hk. apply M. lia. }
  destruct (@solve_fn n A (fun i => A i n)) as (p & Hp). { lra. } pose proof (@border n A p Hp) as B. pose proof (M (Datatypes.S n) ltac:(lia)) as DS.
  exists (A n n - mv n A p n), (fun i => if Nat.eqb i n then 1 else - p i). rewrite Nat.eqb_refl. split; [exact D|]. split; [rewrite B in DS; nra|]. split; [exact B|]. split; [reflexivity|]. split.
  - rewrite (@quad_border n A p _ S Hp), Nat.eqb_refl. rewrite (@quad_ext n A _ (fun i => 0 * 0)). { rewrite (quad_scale n A (fun _ => 0) 0). ring. } intros i Hi. destruct (Nat.eqb_spec i n); [lia|]. ring.
  - intros y Hy. rewrite (@quad_border n A p y S Hp), Hy. pose proof (@pd_nonneg n A (fun i => y i + p i * 1) Pn). lra.
Qed.
Lemma det_sum_fn : forall n A B, sym (S n) A -> sym (S n) B -> pd (S n) A -> pd (S n) B ->
  det (S n) A + det (S n) B <= det (S n) (fun i j => A i j + B i j) /\ ((0 < n)%nat -> det (S n) A + det (S n) B < det (S n) (fun i j => A i j + B i j)).
Proof.
  induction n as [|n IH]; intros A B SA SB PA PB. { rewrite !det_1. split; [lra|]. intros. lia. }
  assert (SC : sym (S (S n)) (fun i j => A i j + B i j)). { intros i j Hi Hj. rewrite (SA i j), (SB i j) by auto. reflexivity. }
  destruct (pivot_min SA PA) as (a & xa & DA & Pa & EA & _ & _ & MA). destruct (pivot_min SB PB) as (b & xb & DB & Pb & EB & _ & _ & MB). destruct (pivot_min SC (pd_sum PA PB)) as (c & xc & DC & Pc & EC & X1 & XC & _).
  assert (L : a + b <= c). { rewrite <- XC, quad_sum. pose proof (MA xc X1). pose proof (MB xc X1). lra. }
  assert (Q : det (S n) A + det (S n) B <= det (S n) (fun i j => A i j + B i j)).
  { apply IH; try (intros i j Hi Hj; first [apply SA|apply SB]; lia); apply sylvester_fn; try (intros i j Hi Hj; first [apply SA|apply SB]; lia); intros k Hk; [apply (proj1 (sylvester_fn SA) PA)|apply (proj1 (sylvester_fn SB) PB)]; lia. }
  rewrite EA, EB, EC. assert (det (S n) A * a + det (S n) B * b < det (S n) (fun i j => A i j + B i j) * c); [|split; intros; lra].
  apply Rlt_le_trans with ((det (S n) A + det (S n) B) * (a + b)); [nra|]. apply Rmult_le_compat; lra.
Qed.

Theorem C131_schur : forall N a b m, rect N N a -> rect N N b -> (0 < N)%nat -> m_transpose N N a = Ok a -> m_transpose N N b = Ok b -> positive_definite N a -> positive_definite N b ->
  m_mul ro N N a b = Ok m -> m_transpose N N m = Ok m /\ positive_definite N m.
Proof.
  intros N a b m Ra Rb HN Sa Sb Pa Pb E. destruct (mk_ex ro Ra) as (f & ->), (mk_ex ro Rb) as (g & ->). rewrite m_mul_fn in E. apply Ok_inj in E. subst m. apply sym_iff in Sa, Sb. apply pd_iff in Pa, Pb; auto. split.
  - apply sym_iff. intros i j Hi Hj. rewrite (Sa i j), (Sb i j) by auto. reflexivity.
  - apply pd_iff; auto. apply schur_fn; auto.
Qed.
Theorem C131_sum : forall N a b m t, rect N N a -> rect N N b -> (0 < N)%nat -> positive_definite N a -> positive_definite N b -> 0 < t ->
  (m_add ro N N a b = Ok m \/ m_smul ro a t = Ok m) -> positive_definite N m.
Proof.
  intros N a b m t Ra Rb HN Pa Pb Ht E. destruct (mk_ex ro Ra) as (f & ->), (mk_ex ro Rb) as (g & ->). apply pd_iff in Pa, Pb; auto. rewrite (m_add_mk r_ring), (m_smul_mk r_ring) in E. destruct E as [E|E]; apply Ok_inj in E; subst m; apply pd_iff; auto; intros x Hx; pose proof (Pa x Hx) as A; pose proof (Pb x Hx) as B; rewrite quad_expand in *.
  - rewrite (rsum_ext _ (fun i => rsum N (fun j => f i j * (x i * x j)) + rsum N (fun j => g i j * (x i * x j)))). { rewrite rsum_add. lra. } intros i Hi. rewrite <- rsum_add. apply rsum_ext. intros. cbn. ring.
  - rewrite (rsum_ext _ (fun i => t * rsum N (fun j => f i j * (x i * x j)))). { rewrite rsum_mul_l. nra. } intros i Hi. rewrite <- rsum_mul_l. apply rsum_ext. intros. cbn. ring.
Qed.
(** [pivots N m] is the product of the diagonal entries. *)
Theorem C131_diagonal : forall N m d, rect N N m -> (0 < N)%nat -> m_transpose N N m = Ok m -> positive_definite N m -> m_det ro N m = Ok d ->
  0 < d <= pivots N m /\ (d = pivots N m <-> forall i j x, elt m i j = Some x -> i <> j -> x = 0).
Proof.
  intros N m d Rm HN S P E. destruct (mk_ex ro Rm) as (f & ->). apply sym_iff in S. apply pd_iff in P; auto. rewrite (m_det_mk r_ring) in E. apply Ok_inj in E. subst d. rewrite pivots_mk by lia. destruct (had_fn S P) as (B & Eq). split; [exact B|]. split.
  - intros H i j x X Nij. rewrite elt_mk in X. destruct (Nat.ltb_spec i N), (Nat.ltb_spec j N); try discriminate. cbn [andb] in X. injection X as <-. apply Eq; auto.
  - intros H. apply det_up. intros i j Hij Hi. apply (H i j (f i j)); [|lia]. rewrite elt_mk. assert (A : (j <? N)%nat = true) by (apply Nat.ltb_lt; lia). apply Nat.ltb_lt in Hi. rewrite A, Hi. reflexivity.
Qed.
(** One by one matrices give equality. *)
Theorem C131_det_sum : forall N a b m da db d, rect N N a -> rect N N b -> (0 < N)%nat -> m_transpose N N a = Ok a -> m_transpose N N b = Ok b -> positive_definite N a -> positive_definite N b ->
  m_add ro N N a b = Ok m -> m_det ro N a = Ok da -> m_det ro N b = Ok db -> m_det ro N m = Ok d -> da + db <= d /\ ((1 < N)%nat -> da + db < d).
Proof.
  intros N a b m da db d Ra Rb HN Sa Sb Pa Pb E Ea Eb Em. destruct (mk_ex ro Ra) as (f & ->), (mk_ex ro Rb) as (g & ->). rewrite (m_add_mk r_ring) in E. apply Ok_inj in E. subst m. apply sym_iff in Sa, Sb. apply pd_iff in Pa, Pb; auto.
  rewrite (m_det_mk r_ring) in Ea, Eb, Em. apply Ok_inj in Ea, Eb, Em. subst. destruct N as [|n]; [lia|]. destruct (det_sum_fn Sa Sb Pa Pb) as (H1 & H2). split; [exact H1|]. intros. apply H2. lia.
Qed.
(* [[2; 1]; [1; 2]] times itself, element by element, is [[4; 1]; [1; 4]]; its determinant 3 is below 2 * 2 *)
Example C131_ex : m_transpose 2 2 [[2; 1]; [1; 2]] = Ok [[2; 1]; [1; 2]] /\ positive_definite 2 [[2; 1]; [1; 2]] /\ m_mul ro 2 2 [[2; 1]; [1; 2]] [[2; 1]; [1; 2]] = Ok [[4; 1]; [1; 4]] /\ positive_definite 2 [[4; 1]; [1; 4]] /\
  m_det ro 2 [[2; 1]; [1; 2]] = Ok 3 /\ pivots 2 [[2; 1]; [1; 2]] = 4.
Proof.
  destruct C128_definite_ex as (S & P & _). assert (M : m_mul ro 2 2 [[2; 1]; [1; 2]] [[2; 1]; [1; 2]] = Ok [[4; 1]; [1; 4]]).
  { change [[2; 1]; [1; 2]] with (mk 2 2 (mget ro [[2; 1]; [1; 2]])). rewrite m_mul_fn. change [[4; 1]; [1; 4]] with (mk 2 2 (mget ro [[4; 1]; [1; 4]])). f_equal. apply mk_ext. intros i j Hi Hj. destruct i as [|[|]], j as [|[|]]; try lia; cbn; ring. }
  assert (Rm : rect 2 2 [[2; 1]; [1; 2]]) by exact (rect_mk 2 2 (mget ro [[2; 1]; [1; 2]])).
  split; [exact S|]. split; [exact P|]. split; [exact M|]. split; [apply (@C131_schur 2 _ _ _ Rm Rm ltac:(lia) S S P P M)|]. split; [rewrite det2; f_equal; ring|]. cbn. ring.
Qed.

Print Assumptions C131_schur.
Print Assumptions C131_sum.
Print Assumptions C131_diagonal.
Print Assumptions C131_det_sum.
