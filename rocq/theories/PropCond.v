(** C125: norms of products, perturbation of inverses and of solutions (condition numbers), equality in the triangle inequality. *)
From Coq Require Import Reals Lra Psatz Lia.
From Verif Require Import Spec SpecRing SpecDet AlgFacts MFacts MatProofs SquareModel RealInst RealFacts PropReal PropSquare PropLinear.
Import ListNotations.
Set Implicit Arguments.
Local Open Scope R_scope.
Local Open Scope list_scope.

Local Notation ro := r_ops.
Definition mm (M : nat) (f g : nat -> nat -> R) (i j : nat) : R := rsum M (fun k => f i k * g k j).
Definition mv (N : nat) (f : nat -> nat -> R) (u : nat -> R) (i : nat) : R := rsum N (fun k => f i k * u k).
Definition vm (M : nat) (u : nat -> R) (f : nat -> nat -> R) (j : nat) : R := rsum M (fun k => u k * f k j).
Definition nv (N : nat) (u : nat -> R) : R := sqrt (rsum N (fun i => u i * u i)).
Definition nm (M N : nat) (f : nat -> nat -> R) : R := sqrt (rsum M (fun i => rsum N (fun j => f i j * f i j))).

(** The code in these terms. *)
Lemma dot_r : forall L M N f g, (0 < M)%nat -> m_dot ro L M N (mk L M f) (mk M N g) = Ok (mk L N (mm M f g)).
Proof. intros. rewrite (m_dot_mk r_ring) by auto. reflexivity. Qed.
Lemma dot_v_r : forall M N f u, (0 < N)%nat -> m_dot_v ro M N (mk M N f) (vk N u) = Ok (vk M (mv N f u)).
Proof. intros. rewrite (m_dot_v_mk r_ring) by auto. reflexivity. Qed.
Lemma v_dot_r : forall M N f u, (0 < M)%nat -> v_dot_m ro M N (vk M u) (mk M N f) = Ok (vk N (vm M u f)).
Proof. intros. rewrite (v_dot_m_mk r_ring) by auto. reflexivity. Qed.
Lemma l2_r : forall N u, (0 < N)%nat -> l2 (vk N u) = Ok (nv N u).
Proof. intros. unfold l2. apply rv_norm_l2. auto. Qed.
Definition lsq (l : list R) : R := fold_right (fun x s => x * x + s) 0 l.
Lemma lsq_app : forall a b, lsq (a ++ b) = lsq a + lsq b.
Proof. induction a as [|x a IH]; intros b. { change (lsq b = 0 + lsq b). rewrite Rplus_0_l. reflexivity. } change (x * x + lsq (a ++ b) = x * x + lsq a + lsq b). rewrite IH. ring. Qed.
Lemma rsum_shift : forall n f, rsum (S n) f = f 0%nat + rsum n (fun i => f (S i)).
Proof. intros. unfold rsum. rewrite (bigsum_shift r_ring). reflexivity. Qed.
Lemma lsq_nth : forall l, bigsum r_ring (length l) (fun i => nth i l 0 * nth i l 0) = lsq l.
Proof. induction l as [|x l IH]. { reflexivity. } cbn [length]. change (bigsum r_ring) with rsum in *. rewrite rsum_shift. cbn [nth]. rewrite IH. reflexivity. Qed.
Lemma lsq_vk : forall N u, lsq (vk N u) = rsum N (fun i => u i * u i).
Proof.
  intros N u. rewrite <- lsq_nth, vk_length. change (bigsum r_ring) with rsum. apply rsum_ext. intros i Hi.
  rewrite (nth_error_nth (vk N u) i 0 (x := u i)); auto. rewrite nth_error_vk. apply Nat.ltb_lt in Hi. rewrite Hi. reflexivity.
Qed.
Lemma ml2_r : forall M N f, (0 < M)%nat -> (0 < N)%nat -> ml2 (mk M N f) = Ok (nm M N f).
Proof.
  intros M N f HM HN. destruct (flat_norms (rect_mk M N f) HM HN) as (_ & E & _). rewrite E.
  destruct (@C15_values (M * N) (concat (mk M N f)) (rect_concat_length (rect_mk M N f)) ltac:(nia)) as (_ & E2 & _). rewrite E2. unfold nm. do 2 f_equal.
  rewrite <- (rect_concat_length (rect_mk M N f)), lsq_nth. clear. unfold mk. revert f. induction M as [|M IH]; intros f. { reflexivity. }
  rewrite vk_S. cbn [concat]. rewrite lsq_app, lsq_vk, rsum_shift. f_equal. apply (IH (fun i => f (S i))).
Qed.

(** Sums of squares. *)
Lemma nv_pos : forall N u, 0 <= nv N u. Proof. intros. apply sqrt_pos. Qed.
Lemma nm_pos : forall M N f, 0 <= nm M N f. Proof. intros. apply sqrt_pos. Qed.
Lemma ss_pos : forall N u, 0 <= rsum N (fun i => u i * u i). Proof. intros. apply rsum_nonneg. intros. apply sqpos. Qed.
Lemma sm_pos : forall M N f, 0 <= rsum M (fun i => rsum N (fun j => f i j * f i j)). Proof. intros. apply rsum_nonneg. intros. apply ss_pos. Qed.
Lemma nv_sq : forall N u, nv N u * nv N u = rsum N (fun i => u i * u i). Proof. intros. apply sqrt_sqrt. apply ss_pos. Qed.
Lemma nm_sq : forall M N f, nm M N f * nm M N f = rsum M (fun i => rsum N (fun j => f i j * f i j)). Proof. intros. apply sqrt_sqrt. apply sm_pos. Qed.
Lemma nv_ext : forall N u v, (forall i, (i < N)%nat -> u i = v i) -> nv N u = nv N v.
Proof. intros. unfold nv. f_equal. apply rsum_ext. intros. rewrite H by auto. reflexivity. Qed.
Lemma nm_ext : forall M N f g, (forall i j, (i < M)%nat -> (j < N)%nat -> f i j = g i j) -> nm M N f = nm M N g.
Proof. intros. unfold nm. f_equal. apply rsum_ext. intros. apply rsum_ext. intros. rewrite H by auto. reflexivity. Qed.
Lemma rsum_swap : forall n m f, rsum n (fun i => rsum m (fun j => f i j)) = rsum m (fun j => rsum n (fun i => f i j)).
Proof. intros. apply (bigsum_swap r_ring). Qed.
Lemma rsum_mul_r : forall n c f, rsum n (fun i => f i * c) = rsum n f * c.
Proof. intros. rewrite Rmult_comm, <- rsum_mul_l. apply rsum_ext. intros. ring. Qed.
Lemma rsum_neg : forall n f, rsum n (fun i => - f i) = - rsum n f.
Proof. intros. transitivity (-1 * rsum n f). { rewrite <- rsum_mul_l. apply rsum_ext. intros. ring. } ring. Qed.
Lemma root_le : forall a b c, 0 <= a -> 0 <= b -> 0 <= c -> a * a <= b * b * (c * c) -> a <= b * c.
Proof. intros. apply Rsqr_incr_0_var; [|apply Rmult_le_pos; auto]. unfold Rsqr. nra. Qed.
Lemma mv_le : forall M N f u, nv M (mv N f u) <= nm M N f * nv N u.
Proof.
  intros. apply root_le; auto using nv_pos, nm_pos. rewrite !nv_sq, nm_sq, <- rsum_mul_r. apply rsum_le. intros i _. apply (cauchy N (f i) u).
Qed.
Lemma nm_transpose : forall M N f, nm M N f = nm N M (fun i j => f j i).
Proof. intros. unfold nm. f_equal. apply rsum_swap. Qed.
Lemma vm_le : forall M N f u, nv N (vm M u f) <= nv M u * nm M N f.
Proof.
  intros. rewrite Rmult_comm, nm_transpose. eapply Rle_trans; [|apply mv_le]. apply Req_le, nv_ext. intros. apply rsum_ext. intros. ring.
Qed.
Lemma mm_le : forall L M N f g, nm L N (mm M f g) <= nm L M f * nm M N g.
Proof.
  intros. apply root_le; auto using nm_pos. rewrite !nm_sq. rewrite <- rsum_mul_r. apply rsum_le. intros i _.
  eapply Rle_trans; [apply rsum_le; intros j _; apply (cauchy M (f i) (fun k => g k j))|]. rewrite rsum_mul_l. apply Rmult_le_compat_l; [apply ss_pos|]. rewrite (rsum_swap N M). apply Rle_refl.
Qed.
Lemma nv_add : forall N u v, (0 < N)%nat -> nv N (fun i => u i + v i) <= nv N u + nv N v.
Proof.
  intros N u v HN. destruct (@C15_l2_norm N HN (vk N u) (vk N v) 0 (vk_length _ _) (vk_length _ _)) as (x & y & E1 & E2 & _ & _ & _ & (w & z & E3 & E4 & T)).
  rewrite l2_r in E1, E2 by auto. apply Ok_inj in E1, E2. subst x y. rewrite (v_add_vk r_ring) in E3. apply Ok_inj in E3. subst w. rewrite l2_r in E4 by auto. apply Ok_inj in E4. subst z. exact T.
Qed.
Lemma nm_add : forall M N f g, (0 < M)%nat -> (0 < N)%nat -> nm M N (fun i j => f i j + g i j) <= nm M N f + nm M N g.
Proof.
  intros M N f g HM HN. destruct (C15_matrix_norms HM HN) as (_ & Q & _). destruct (Q (mk M N f) (mk M N g) 0 (rect_mk _ _ _) (rect_mk _ _ _)) as (x & y & E1 & E2 & _ & _ & _ & (w & z & E3 & E4 & T)).
  rewrite ml2_r in E1, E2 by auto. apply Ok_inj in E1, E2. subst x y. rewrite (m_add_mk r_ring) in E3. apply Ok_inj in E3. subst w. rewrite ml2_r in E4 by auto. apply Ok_inj in E4. subst z. exact T.
Qed.
Lemma nv_opp : forall N u, nv N (fun i => - u i) = nv N u.
Proof. intros. unfold nv. f_equal. apply rsum_ext. intros. ring. Qed.
Lemma nm_opp : forall M N f, nm M N (fun i j => - f i j) = nm M N f.
Proof. intros. unfold nm. f_equal. apply rsum_ext. intros. apply rsum_ext. intros. ring. Qed.
Lemma nv_zero : forall N u, nv N u = 0 <-> forall i, (i < N)%nat -> u i = 0.
Proof. intros. apply sqrt_sum_zero. Qed.
(* products *)
Lemma mv_mm : forall M N f g u i, mv N (mm M f g) u i = mv M f (mv N g u) i.
Proof.
  intros. unfold mv, mm. rewrite (rsum_ext _ (fun k => rsum M (fun l => f i l * (g l k * u k)))) by (intros; rewrite <- rsum_mul_r; apply rsum_ext; intros; ring).
  rewrite rsum_swap. apply rsum_ext. intros. rewrite rsum_mul_l. reflexivity.
Qed.
Lemma mm_assoc : forall M N f g h i j, mm N (mm M f g) h i j = mm M f (mm N g h) i j.
Proof. intros. exact (mv_mm M N f g (fun k => h k j) i). Qed.
Local Notation dl i j := (if Nat.eqb i j then 1 else 0).
Lemma mv_one : forall N u i, (i < N)%nat -> mv N (fun i j => dl i j) u i = u i.
Proof.
  intros N u i Hi. unfold mv. rewrite (rsum_ext _ (fun k => if Nat.eqb k i then u k else 0)). { apply (@bigsum_delta _ _ r_ring N i u Hi). }
  intros k _. rewrite (Nat.eqb_sym i k). destruct (Nat.eqb k i); ring.
Qed.
Lemma mm_one_l : forall N f i j, (i < N)%nat -> mm N (fun i j => dl i j) f i j = f i j.
Proof. intros. exact (mv_one (fun k => f k j) H). Qed.
Lemma mm_one_r : forall N f i j, (j < N)%nat -> mm N f (fun i j => dl i j) i j = f i j.
Proof.
  intros N f i j Hj. unfold mm. rewrite (rsum_ext _ (fun k => if Nat.eqb k j then f i k else 0)). { apply (@bigsum_delta _ _ r_ring N j (fun k => f i k) Hj). }
  intros k _. destruct (Nat.eqb k j); ring.
Qed.
Lemma mm_ext : forall L M N f f' g g', (forall i k, (i < L)%nat -> (k < M)%nat -> f i k = f' i k) -> (forall k j, (k < M)%nat -> (j < N)%nat -> g k j = g' k j) ->
  forall i j, (i < L)%nat -> (j < N)%nat -> mm M f g i j = mm M f' g' i j.
Proof. intros. apply rsum_ext. intros. rewrite H, H0 by auto. reflexivity. Qed.
Lemma mv_ext : forall M N f f' u u', (forall i k, (i < M)%nat -> (k < N)%nat -> f i k = f' i k) -> (forall k, (k < N)%nat -> u k = u' k) -> forall i, (i < M)%nat -> mv N f u i = mv N f' u' i.
Proof. intros. apply rsum_ext. intros. rewrite H, H0 by auto. reflexivity. Qed.
Lemma mm_add_l : forall M f f' g i j, mm M (fun a b => f a b + f' a b) g i j = mm M f g i j + mm M f' g i j.
Proof. intros. unfold mm. rewrite <- rsum_add. apply rsum_ext. intros. ring. Qed.
Lemma mm_add_r : forall M f g g' i j, mm M f (fun a b => g a b + g' a b) i j = mm M f g i j + mm M f g' i j.
Proof. intros. unfold mm. rewrite <- rsum_add. apply rsum_ext. intros. ring. Qed.
Lemma mm_opp_r : forall M f g i j, mm M f (fun a b => - g a b) i j = - mm M f g i j.
Proof. intros. unfold mm. rewrite <- rsum_neg. apply rsum_ext. intros. ring. Qed.
Lemma mv_add_l : forall N f f' u i, mv N (fun a b => f a b + f' a b) u i = mv N f u i + mv N f' u i.
Proof. intros. exact (mm_add_l N f f' (fun k _ => u k) i 0%nat). Qed.
Lemma mv_add_r : forall N f u u' i, mv N f (fun a => u a + u' a) i = mv N f u i + mv N f u' i.
Proof. intros. exact (mm_add_r N f (fun k _ => u k) (fun k _ => u' k) i 0%nat). Qed.
Lemma mv_opp_r : forall N f u i, mv N f (fun a => - u a) i = - mv N f u i.
Proof. intros. exact (mm_opp_r N f (fun k _ => u k) i 0%nat). Qed.

(** * Norms of products *)
(** ||A B|| <= ||A|| ||B||, |A x| <= ||A|| |x|, |x A| <= |x| ||A|| and ||x y^T|| = |x| |y|, Euclidean norms. *)
Theorem C125_product : forall L M N a b, rect L M a -> rect M N b -> (0 < L)%nat -> (0 < M)%nat -> (0 < N)%nat ->
  exists c x y z, m_dot ro L M N a b = Ok c /\ ml2 a = Ok x /\ ml2 b = Ok y /\ ml2 c = Ok z /\ z <= x * y.
Proof.
  intros L M N a b Ra Rb HL HM HN. destruct (mk_ex ro Ra) as (f & ->), (mk_ex ro Rb) as (g & ->). rewrite dot_r by auto. do 4 eexists. split; [reflexivity|]. rewrite !ml2_r by auto. do 3 (split; [reflexivity|]). apply mm_le.
Qed.
Theorem C125_vector : forall M N a u, rect M N a -> length u = N -> (0 < M)%nat -> (0 < N)%nat ->
  exists w x y z, m_dot_v ro M N a u = Ok w /\ ml2 a = Ok x /\ l2 u = Ok y /\ l2 w = Ok z /\ z <= x * y.
Proof.
  intros M N a u Ra Lu HM HN. destruct (mk_ex ro Ra) as (f & ->), (vk_ex ro u Lu) as (v & ->). rewrite dot_v_r by auto. do 4 eexists. split; [reflexivity|]. rewrite ml2_r, !l2_r by auto. do 3 (split; [reflexivity|]). apply mv_le.
Qed.
Theorem C125_row_vector : forall M N a u, rect M N a -> length u = M -> (0 < M)%nat -> (0 < N)%nat ->
  exists w x y z, v_dot_m ro M N u a = Ok w /\ l2 u = Ok x /\ ml2 a = Ok y /\ l2 w = Ok z /\ z <= x * y.
Proof.
  intros M N a u Ra Lu HM HN. destruct (mk_ex ro Ra) as (f & ->), (vk_ex ro u Lu) as (v & ->). rewrite v_dot_r by auto. do 4 eexists. split; [reflexivity|]. rewrite ml2_r, !l2_r by auto. do 3 (split; [reflexivity|]). apply vm_le.
Qed.
Theorem C125_outer : forall M N u v, length u = M -> length v = N -> (0 < M)%nat -> (0 < N)%nat ->
  exists c x y, m_outer ro M N u v = Ok c /\ l2 u = Ok x /\ l2 v = Ok y /\ ml2 c = Ok (x * y).
Proof.
  intros M N u v Lu Lv HM HN. destruct (vk_ex ro u Lu) as (f & ->), (vk_ex ro v Lv) as (g & ->). rewrite (m_outer_mk r_ring). do 3 eexists. split; [reflexivity|]. rewrite ml2_r, !l2_r by auto. do 2 (split; [reflexivity|]). f_equal.
  unfold nm, nv. rewrite <- sqrt_mult by apply ss_pos. f_equal. rewrite <- rsum_mul_r. apply rsum_ext. intros i _. rewrite <- rsum_mul_l. apply rsum_ext. intros j _. cbn. ring.
Qed.
Theorem C125_one : forall N, (0 < N)%nat -> (let! i := m_one ro N in ml2 i) = Ok (sqrt (INR N)).
Proof.
  intros N HN. rewrite m_one_mk. cbn [bind]. rewrite ml2_r by auto. unfold nm. do 2 f_equal. rewrite (rsum_ext _ (fun _ => 1)).
  - clear. induction N as [|N IH]; [reflexivity|]. rewrite rsum_S, IH, S_INR. reflexivity.
  - intros i Hi. rewrite (rsum_ext _ (fun j => if Nat.eqb j i then 1 else 0)). { apply (@bigsum_delta _ _ r_ring N i (fun _ => 1) Hi). } intros j _. rewrite (Nat.eqb_sym i j). cbn. destruct (Nat.eqb j i); ring.
Qed.

(** * Inverses *)
Lemma r_dec : forall x : R, x = o_zero ro \/ x <> o_zero ro. Proof. intros. apply Req_dec. Qed.
Lemma shrink : forall x q, 0 <= x -> q < 1 -> x <= q * x -> x = 0. Proof. intros. nra. Qed.
(* a matrix with a small defect from a left inverse is not singular *)
Lemma not_singular : forall N f, (0 < N)%nat -> (forall u, (forall i, (i < N)%nat -> mv N f u i = 0) -> nv N u = 0) -> exists d, m_det ro N (mk N N f) = Ok d /\ d <> 0.
Proof.
  intros N f HN H. pose proof (C30_leibniz r_ring (rect_mk N N f)) as D. eexists. split; [exact D|]. intros Z. rewrite Z in D. apply (proj1 (C108_singular r_field r_dec (rect_mk N N f))) in D.
  destruct D as (x & Nx & Lx & Hx). destruct (vk_ex ro x Lx) as (u & ->). rewrite dot_v_r, (@zeros_vk R ro) in Hx by auto. apply Ok_inj in Hx. pose proof (@vk_inj R N _ _ Hx) as K. cbn beta in K.
  pose proof (H u K) as Q. rewrite nv_zero in Q. apply nonzero_vk in Nx as (j & Hj & Nj). apply Nj, Q. auto.
Qed.
(* the inverse in terms of functions *)
Lemma inv_mk : forall N f d, (0 < N)%nat -> m_det ro N (mk N N f) = Ok d -> d <> 0 -> exists g, m_inv ro N (mk N N f) = Ok (mk N N g) /\
  (forall i j, (i < N)%nat -> (j < N)%nat -> mm N f g i j = dl i j) /\ (forall i j, (i < N)%nat -> (j < N)%nat -> mm N g f i j = dl i j).
Proof.
  intros N f d HN Hd Hz. destruct (C33_inverse r_field (rect_mk N N f) Hd Hz) as (b & E & Rb & (m1 & P1 & Q1) & (m2 & P2 & Q2)). destruct (mk_ex ro Rb) as (g & ->). exists g. split; auto.
  rewrite dot_r in P1, P2 by auto. rewrite m_one_mk in Q1, Q2. rewrite <- Q1 in P1. rewrite <- Q2 in P2. apply Ok_inj in P1, P2.
  split; intros i j Hi Hj; [apply (f_equal (fun m => mget ro m i j)) in P1; rewrite !mget_mk in P1 by auto; exact P1|apply (f_equal (fun m => mget ro m i j)) in P2; rewrite !mget_mk in P2 by auto; exact P2].
Qed.
(** ||A|| ||inv A|| >= sqrt N. *)
Theorem C125_condition_at_least : forall N a d, rect N N a -> (0 < N)%nat -> m_det ro N a = Ok d -> d <> 0 -> exists b x y,
  m_inv ro N a = Ok b /\ ml2 a = Ok x /\ ml2 b = Ok y /\ sqrt (INR N) <= x * y.
Proof.
  intros N a d Ra HN Hd Hz. destruct (mk_ex ro Ra) as (f & ->). destruct (inv_mk _ HN Hd Hz) as (g & E & P & _). rewrite E. do 3 eexists. split; [reflexivity|]. rewrite !ml2_r by auto. do 2 (split; [reflexivity|]).
  eapply Rle_trans; [|apply (mm_le N N N f g)]. pose proof (C125_one HN) as O. rewrite m_one_mk in O. cbn [bind] in O. rewrite ml2_r in O by auto. apply Ok_inj in O. rewrite <- O. apply Req_le, nm_ext. intros. rewrite P by auto. reflexivity.
Qed.
(** If ||E|| ||inv A|| < 1 then A + E is invertible too, and its inverse is near that of A; so the distance from A to the
    next singular matrix is at least 1 / ||inv A||. *)
Theorem C125_neighbour : forall N a e d b x y, rect N N a -> rect N N e -> (0 < N)%nat -> m_det ro N a = Ok d -> d <> 0 -> m_inv ro N a = Ok b ->
  ml2 e = Ok x -> ml2 b = Ok y -> x * y < 1 -> exists s d' c k z w, m_add ro N N a e = Ok s /\ m_det ro N s = Ok d' /\ d' <> 0 /\ m_inv ro N s = Ok c /\ ml2 c = Ok z /\ z * (1 - x * y) <= y /\
  m_sub ro N N c b = Ok k /\ ml2 k = Ok w /\ w * (1 - x * y) <= x * y * y.
Proof.
  intros N a e d b x y Ra Re HN Hd Hz Hb Hx Hy L. destruct (mk_ex ro Ra) as (f & ->), (mk_ex ro Re) as (h & ->). destruct (inv_mk _ HN Hd Hz) as (g & E & P1 & P2). rewrite E in Hb. apply Ok_inj in Hb. subst b.
  rewrite ml2_r in Hx, Hy by auto. apply Ok_inj in Hx, Hy. subst x y. set (s := fun i j => f i j + h i j).
  assert (A : m_add ro N N (mk N N f) (mk N N h) = Ok (mk N N s)) by (rewrite (m_add_mk r_ring); reflexivity). rewrite A.
  assert (K : forall u i, (i < N)%nat -> u i = mv N g (mv N f u) i). { intros u i Hi. rewrite <- mv_mm. rewrite <- (mv_one u Hi) at 1. apply (@mv_ext N N); auto. intros. symmetry. apply P2; auto. }
  destruct (@not_singular N s HN) as (d' & D1 & D2).
  { intros u Hu. apply (@shrink (nv N u) (nm N N h * nm N N g)); auto using nv_pos. rewrite (@nv_ext N u (fun i => - mv N g (mv N h u) i)) at 1.
    - rewrite nv_opp. eapply Rle_trans; [apply mv_le|]. rewrite (Rmult_comm (nm N N h)), Rmult_assoc. apply Rmult_le_compat_l; auto using nm_pos. apply mv_le.
    - intros i Hi. rewrite <- mv_opp_r. rewrite (K u i Hi) at 1. apply (@mv_ext N N); auto. intros k Hk. specialize (Hu k Hk). unfold s in Hu. rewrite mv_add_l in Hu. lra. }
  destruct (inv_mk _ HN D1 D2) as (c & E' & P1' & P2').
  assert (Q : forall i j, (i < N)%nat -> (j < N)%nat -> c i j = g i j + - mm N g (mm N h c) i j).
  { intros i j Hi Hj. assert (X : mm N g (mm N s c) i j = g i j). { rewrite <- (mm_one_r g i Hj). apply (@mm_ext N N N); auto. }
    rewrite (@mm_ext N N N g g (mm N s c) (fun k l => mm N f c k l + mm N h c k l)) in X by (auto; intros; apply mm_add_l). rewrite mm_add_r in X. rewrite <- mm_assoc in X. rewrite (@mm_ext N N N (mm N g f) (fun i j => dl i j) c c) in X by auto. rewrite mm_one_l in X by auto. lra. }
  assert (B : nm N N (fun i j => - mm N g (mm N h c) i j) <= nm N N g * (nm N N h * nm N N c)). { rewrite nm_opp. eapply Rle_trans; [apply mm_le|]. apply Rmult_le_compat_l; auto using nm_pos. apply mm_le. }
  assert (C : nm N N c <= nm N N g + nm N N g * (nm N N h * nm N N c)). { rewrite (nm_ext c _ Q) at 1. eapply Rle_trans; [apply nm_add; auto|]. lra. }
  exists (mk N N s), d', (mk N N c), (mk N N (fun i j => c i j - g i j)), (nm N N c), (nm N N (fun i j => c i j - g i j)).
  rewrite !ml2_r by auto. do 5 (split; [auto|]). split; [lra|]. split; [rewrite (m_sub_mk r_ring); reflexivity|]. split; auto.
  rewrite (@nm_ext N N (fun i j => c i j - g i j) (fun i j => - mm N g (mm N h c) i j)) by (intros; rewrite Q at 1 by auto; ring).
  set (w := nm N N (fun i j => - mm N g (mm N h c) i j)) in *. pose proof (nm_pos N N g). pose proof (nm_pos N N h). pose proof (nm_pos N N c). set (q := nm N N h * nm N N g) in *.
  apply Rle_trans with (nm N N g * (nm N N h * nm N N c) * (1 - q)). { apply Rmult_le_compat_r; auto. lra. }
  replace (nm N N g * (nm N N h * nm N N c) * (1 - q)) with (q * (nm N N c * (1 - q))) by (unfold q; ring). apply Rmult_le_compat_l; [apply Rmult_le_pos; auto|]. unfold q. lra.
Qed.
Corollary C125_distance_to_singular : forall N a e d b x y s, rect N N a -> rect N N e -> (0 < N)%nat -> m_det ro N a = Ok d -> d <> 0 -> m_inv ro N a = Ok b ->
  ml2 e = Ok x -> ml2 b = Ok y -> m_add ro N N a e = Ok s -> m_det ro N s = Ok 0 -> 1 <= x * y.
Proof.
  intros N a e d b x y s Ra Re HN Hd Hz Hb Hx Hy Hs H0. destruct (Rle_dec 1 (x * y)) as [L|L]; auto. exfalso.
  destruct (@C125_neighbour N a e d b x y) as (s' & d' & _ & _ & _ & _ & E1 & E2 & E3 & _); auto. { lra. } rewrite Hs in E1. apply Ok_inj in E1. subst s'. rewrite H0 in E2. apply Ok_inj in E2. auto.
Qed.
(** A small residual certifies an approximate inverse: if ||1 - A X|| < 1 then A is invertible and inv A is near X. *)
Theorem C125_residual : forall N a x p i r t q, rect N N a -> rect N N x -> (0 < N)%nat -> m_dot ro N N N a x = Ok p -> m_one ro N = Ok i -> m_sub ro N N i p = Ok r ->
  ml2 r = Ok q -> ml2 x = Ok t -> q < 1 -> exists d b k w, m_det ro N a = Ok d /\ d <> 0 /\ m_inv ro N a = Ok b /\ m_sub ro N N b x = Ok k /\ ml2 k = Ok w /\ w * (1 - q) <= q * t.
Proof.
  intros N a x p i r t q Ra Rx HN Hp Hi Hr Hq Ht L. destruct (mk_ex ro Ra) as (f & ->), (mk_ex ro Rx) as (h & ->). rewrite dot_r in Hp by auto. apply Ok_inj in Hp. subst p. rewrite m_one_mk in Hi. apply Ok_inj in Hi. subst i.
  rewrite (m_sub_mk r_ring) in Hr. apply Ok_inj in Hr. subst r. rewrite ml2_r in Hq, Ht by auto. apply Ok_inj in Hq, Ht. subst q t. set (r := fun i j : nat => r_sub r_ring (if Nat.eqb i j then o_one ro else o_zero ro) (mm N f h i j)) in *.
  assert (Hr : forall i j, dl i j = mm N f h i j + r i j) by (intros; unfold r; cbn; ring).
  (* A is regular: use rows *)
  pose proof (C30_leibniz r_ring (rect_mk N N f)) as D. set (d := leibniz _ _ _) in D. assert (Dz : d <> 0).
  { intros Z. rewrite Z in D. apply (proj1 (C108_rows r_field r_dec (rect_mk N N f))) in D. destruct D as (y & Ny & Ly & Hy). destruct (vk_ex ro y Ly) as (u & ->). rewrite v_dot_r, (@zeros_vk R ro) in Hy by auto. apply Ok_inj in Hy. pose proof (@vk_inj R N _ _ Hy) as K. cbn beta in K.
    assert (Q : nv N u = 0).
    { apply (@shrink (nv N u) (nm N N r)); auto using nv_pos. rewrite Rmult_comm. eapply Rle_trans; [|apply vm_le]. apply Req_le, nv_ext. intros j Hj.
      assert (X : vm N u (fun a b => dl a b) j = vm N u (mm N f h) j + vm N u r j). { unfold vm. rewrite <- rsum_add. apply rsum_ext. intros k _. rewrite Hr. ring. }
      assert (Y : vm N u (mm N f h) j = 0).
      { unfold vm, mm. rewrite (rsum_ext _ (fun k => rsum N (fun l => u k * f k l * h l j))) by (intros; rewrite <- rsum_mul_l; apply rsum_ext; intros; ring). rewrite rsum_swap. rewrite (rsum_ext _ (fun _ => 0)); [apply rsum_const0|]. intros l Hl. rewrite rsum_mul_r. fold (vm N u f l). rewrite K by auto. change (o_zero ro) with 0. ring. }
      rewrite Y in X. rewrite Rplus_0_l in X. rewrite <- X. symmetry. exact (mm_one_r (fun _ k => u k) 0%nat Hj). }
    rewrite nv_zero in Q. apply nonzero_vk in Ny as (j & Hj & Nj). apply Nj, Q. auto. }
  destruct (inv_mk _ HN D Dz) as (g & E & P1 & P2). exists d, (mk N N g), (mk N N (fun i j => g i j - h i j)), (nm N N (fun i j => g i j - h i j)).
  split; auto. split; auto. split; auto. split; [rewrite (m_sub_mk r_ring); reflexivity|]. rewrite ml2_r by auto. split; auto.
  assert (Q : forall i j, (i < N)%nat -> (j < N)%nat -> g i j - h i j = mm N g r i j).
  { intros i j Hi Hj. rewrite <- (mm_one_r g i Hj). rewrite (@mm_ext N N N g g (fun i j => dl i j) (fun i j => mm N f h i j + r i j)) by auto. rewrite mm_add_r, <- mm_assoc. rewrite (@mm_ext N N N (mm N g f) (fun i j => dl i j) h h) by auto. rewrite mm_one_l by auto. ring. }
  rewrite (nm_ext _ _ Q). pose proof (mm_le N N N g r) as B. pose proof (nm_pos N N r). pose proof (nm_pos N N g).
  assert (C : nm N N g <= nm N N h + nm N N (mm N g r)). { rewrite (@nm_ext N N g (fun i j => h i j + mm N g r i j)) at 1 by (intros; rewrite <- Q by auto; ring). apply nm_add; auto. }
  set (w := nm N N (mm N g r)) in *. nra.
Qed.
(** * Systems: A x = b *)
(** Changing b by e changes the solution by at most cond(A) = ||A|| ||inv A|| times the relative change. *)
Theorem C125_right_hand_side : forall N a d b x x' u u' e v ka kb nx ne nb nd, rect N N a -> (0 < N)%nat -> m_det ro N a = Ok d -> d <> 0 -> m_inv ro N a = Ok b ->
  solves ro N a x u -> solves ro N a x' u' -> v_sub ro N u' u = Ok e -> v_sub ro N x' x = Ok v ->
  ml2 a = Ok ka -> ml2 b = Ok kb -> l2 x = Ok nx -> l2 u = Ok nb -> l2 e = Ok ne -> l2 v = Ok nd -> nd * nb <= ka * kb * ne * nx.
Proof.
  intros N a d b x x' u u' e v ka kb nx ne nb nd Ra HN Hd Hz Hb (Lx & Hx) (Lx' & Hx') He Hv Ka Kb Nx Nb Ne Nd.
  destruct (mk_ex ro Ra) as (f & ->). destruct (inv_mk _ HN Hd Hz) as (g & E & P1 & P2). rewrite E in Hb. apply Ok_inj in Hb. subst b. destruct (vk_ex ro x Lx) as (p & ->), (vk_ex ro x' Lx') as (p' & ->).
  rewrite dot_v_r in Hx, Hx' by auto. apply Ok_inj in Hx, Hx'. subst u u'. rewrite (v_sub_vk r_ring) in He, Hv. apply Ok_inj in He, Hv. subst e v. rewrite ml2_r in Ka, Kb by auto. rewrite l2_r in Nx, Nb, Ne, Nd by auto. apply Ok_inj in Ka, Kb, Nx, Nb, Ne, Nd. subst ka kb nx nb ne nd.
  set (w := fun i => r_sub r_ring (p' i) (p i)). set (e := fun i => r_sub r_ring (mv N f p' i) (mv N f p i)).
  assert (W : forall i, (i < N)%nat -> w i = mv N g e i).
  { intros i Hi. rewrite <- (mv_one w Hi). rewrite (@mv_ext N N (fun i j => dl i j) (mm N g f) w w) by (auto; intros; symmetry; apply P2; auto). rewrite mv_mm. apply (@mv_ext N N); auto. intros k Hk. unfold w, e. cbn. unfold mv, Rminus. rewrite <- rsum_neg, <- rsum_add. apply rsum_ext. intros. ring. }
  pose proof (mv_le N N f p) as B1. assert (B2 : nv N w <= nm N N g * nv N e) by (rewrite (nv_ext _ _ W); apply mv_le).
  replace (nm N N f * nm N N g * nv N e * nv N p) with ((nm N N g * nv N e) * (nm N N f * nv N p)) by ring. apply Rmult_le_compat; auto using nv_pos.
Qed.
(** Changing A by e changes the solution by at most ||e|| ||inv A|| times the new solution. *)
Theorem C125_matrix : forall N a e s d b x x' u v ke kb nx nx' nd, rect N N a -> rect N N e -> (0 < N)%nat -> m_det ro N a = Ok d -> d <> 0 -> m_inv ro N a = Ok b ->
  m_add ro N N a e = Ok s -> solves ro N a x u -> solves ro N s x' u -> v_sub ro N x' x = Ok v ->
  ml2 e = Ok ke -> ml2 b = Ok kb -> l2 x = Ok nx -> l2 x' = Ok nx' -> l2 v = Ok nd -> nd <= ke * kb * nx' /\ nd * (1 - ke * kb) <= ke * kb * nx.
Proof.
  intros N a e s d b x x' u v ke kb nx nx' nd Ra Re HN Hd Hz Hb Hs (Lx & Hx) (Lx' & Hx') Hv Ke Kb Nx Nx' Nd.
  destruct (mk_ex ro Ra) as (f & ->), (mk_ex ro Re) as (h & ->). destruct (inv_mk _ HN Hd Hz) as (g & E & P1 & P2). rewrite E in Hb. apply Ok_inj in Hb. subst b. destruct (vk_ex ro x Lx) as (p & ->), (vk_ex ro x' Lx') as (p' & ->).
  assert (A : m_add ro N N (mk N N f) (mk N N h) = Ok (mk N N (fun i j => f i j + h i j))) by (rewrite (m_add_mk r_ring); reflexivity). rewrite A in Hs. apply Ok_inj in Hs. subst s.
  rewrite dot_v_r in Hx, Hx' by auto. apply Ok_inj in Hx. subst u. apply Ok_inj in Hx'. pose proof (@vk_inj R N _ _ Hx') as K. cbn beta in K. clear Hx'. rewrite (v_sub_vk r_ring) in Hv. apply Ok_inj in Hv. subst v. rewrite ml2_r in Ke, Kb by auto. rewrite l2_r in Nx, Nx', Nd by auto. apply Ok_inj in Ke, Kb, Nx, Nx', Nd. subst ke kb nx nx' nd.
  set (w := fun i => r_sub r_ring (p' i) (p i)).
  assert (W : forall i, (i < N)%nat -> w i = - mv N g (mv N h p') i).
  { intros i Hi. rewrite <- (mv_one w Hi). rewrite (@mv_ext N N (fun i j => dl i j) (mm N g f) w w) by (auto; intros; symmetry; apply P2; auto). rewrite mv_mm, <- mv_opp_r. apply (@mv_ext N N); auto. intros k Hk. specialize (K k Hk). rewrite mv_add_l in K.
    transitivity (mv N f p' k - mv N f p k); [|lra]. unfold w. cbn. unfold mv, Rminus. rewrite <- rsum_neg, <- rsum_add. apply rsum_ext. intros. ring. }
  assert (B : nv N w <= nm N N h * nm N N g * nv N p'). { rewrite (nv_ext _ _ W), nv_opp. eapply Rle_trans; [apply mv_le|]. rewrite (Rmult_comm (nm N N h)), Rmult_assoc. apply Rmult_le_compat_l; auto using nm_pos. apply mv_le. }
  split; auto. assert (C : nv N p' <= nv N p + nv N w). { rewrite (@nv_ext N p' (fun i => p i + w i)) by (intros; unfold w; cbn; ring). apply nv_add. auto. }
  pose proof (Rmult_le_pos _ _ (nm_pos N N h) (nm_pos N N g)). nra.
Qed.

(** * The geometry of the Euclidean norm *)
Theorem C125_parallelogram : forall N x y, length x = N -> length y = N -> (0 < N)%nat -> exists s t a b p q c,
  v_add ro N x y = Ok s /\ v_sub ro N x y = Ok t /\ l2 x = Ok a /\ l2 y = Ok b /\ l2 s = Ok p /\ l2 t = Ok q /\ v_dot ro N x y = Ok c /\
  p * p + q * q = 2 * (a * a + b * b) /\ p * p - q * q = 4 * c.
Proof.
  intros N x y Lx Ly HN. destruct (vk_ex ro x Lx) as (f & ->), (vk_ex ro y Ly) as (g & ->). rewrite (v_add_vk r_ring), (v_sub_vk r_ring), (v_dot_vk r_ring) by auto. do 7 eexists. do 2 (split; [reflexivity|]). rewrite !l2_r by auto. do 5 (split; [reflexivity|]).
  change (bigsum r_ring) with rsum. cbn [r_add r_sub r_mul r_ring c_ring CRing_of_theory]. rewrite !nv_sq. cbn. split.
  - rewrite <- rsum_add. rewrite <- rsum_add, <- rsum_mul_l. apply rsum_ext. intros. ring.
  - unfold Rminus at 1. rewrite <- rsum_neg, <- rsum_add, <- rsum_mul_l. apply rsum_ext. intros. ring.
Qed.
(** |x + y| = |x| + |y| exactly if the vectors point in the same direction. *)
Theorem C125_triangle_equality : forall N x y s a b c, length x = N -> length y = N -> (0 < N)%nat -> v_add ro N x y = Ok s -> l2 x = Ok a -> l2 y = Ok b -> l2 s = Ok c ->
  (c = a + b <-> v_smul ro x b = v_smul ro y a).
Proof.
  intros N x y s a b c Lx Ly HN Hs Ha Hb Hc. destruct (vk_ex ro x Lx) as (f & ->), (vk_ex ro y Ly) as (g & ->). rewrite (v_add_vk r_ring) in Hs. apply Ok_inj in Hs. subst s. rewrite l2_r in Ha, Hb, Hc by auto. apply Ok_inj in Ha, Hb, Hc. subst a b c. rewrite !(v_smul_vk r_ring).
  cbn [r_add r_sub r_mul r_ring c_ring CRing_of_theory]. pose proof (nv_pos N f). pose proof (nv_pos N g). set (a := nv N f) in *. set (b := nv N g) in *.
  assert (C : nv N (fun i => f i + g i) * nv N (fun i => f i + g i) = a * a + b * b + 2 * rsum N (fun i => f i * g i)). { unfold a, b. rewrite !nv_sq, <- rsum_mul_l, <- !rsum_add. apply rsum_ext. intros. ring. }
  assert (D : rsum N (fun i => (f i * b - g i * a) * (f i * b - g i * a)) = 2 * (a * b) * (a * b - rsum N (fun i => f i * g i))).
  { transitivity (b * b * rsum N (fun i => f i * f i) + a * a * rsum N (fun i => g i * g i) + (- (2 * (a * b))) * rsum N (fun i => f i * g i)). { rewrite <- !rsum_mul_l, <- !rsum_add. apply rsum_ext. intros. ring. } rewrite <- !nv_sq. fold a b. ring. }
  pose proof (nv_pos N (fun i => f i + g i)) as P. set (c := nv N (fun i => f i + g i)) in *. set (w := rsum N (fun i => f i * g i)) in *. split.
  - intros E. assert (W : w = a * b) by (rewrite E in C; lra). rewrite W in D. f_equal. apply vk_ext. intros i Hi. assert (Z : nv N (fun i => f i * b - g i * a) = 0) by (unfold nv; rewrite D; replace (2 * (a * b) * (a * b - a * b)) with 0 by ring; apply sqrt_0).
    rewrite nv_zero in Z. specialize (Z i Hi). cbn beta in Z. lra.
  - intros E. apply Ok_inj in E. pose proof (@vk_inj R N _ _ E) as K. cbn beta in K.
    assert (Z : 2 * (a * b) * (a * b - w) = 0). { rewrite <- D. rewrite (rsum_ext _ (fun _ => 0)); [apply rsum_const0|]. intros i Hi. specialize (K i Hi). revert K. cbn. intros K. rewrite K. ring. }
    assert (W : w = a * b).
    { destruct (Req_dec a 0) as [A0|A0]; [|destruct (Req_dec b 0) as [B0|B0]].
      - pose proof A0 as A1. unfold a in A1. rewrite nv_zero in A1. rewrite A0, Rmult_0_l. unfold w. rewrite (rsum_ext _ (fun _ => 0)); [apply rsum_const0|]. intros i Hi. rewrite A1 by auto. ring.
      - pose proof B0 as B1. unfold b in B1. rewrite nv_zero in B1. rewrite B0, Rmult_0_r. unfold w. rewrite (rsum_ext _ (fun _ => 0)); [apply rsum_const0|]. intros i Hi. rewrite B1 by auto. ring.
      - apply Rmult_integral in Z as [Z|Z]; [|lra]. apply Rmult_integral in Z as [Z|Z]; [lra|]. apply Rmult_integral in Z. tauto. }
    rewrite W in C. apply Rsqr_inj; auto; [lra|]. unfold Rsqr. lra.
Qed.

(** * Concrete cases *)
Lemma det2 : forall a b c d, m_det ro 2 [[a; b]; [c; d]] = Ok (a * d - b * c).
Proof. intros. transitivity (m_det ro 2 (mk 2 2 (mget ro [[a; b]; [c; d]]))); [reflexivity|]. rewrite (C30_leibniz r_ring (rect_mk _ _ _)). f_equal. cbn -[r_ring]. cbn. ring. Qed.
Lemma ml2_2 : forall a b c d, ml2 [[a; b]; [c; d]] = Ok (sqrt (a * a + b * b + c * c + d * d)).
Proof. intros. change [[a; b]; [c; d]] with (mk 2 2 (mget ro [[a; b]; [c; d]])). rewrite ml2_r by lia. unfold nm, rsum. do 2 f_equal. cbn. ring. Qed.
Lemma l2_2 : forall a b, l2 [a; b] = Ok (sqrt (a * a + b * b)).
Proof. intros. change [a; b] with (vk 2 (fun i => nth i [a; b] 0)). rewrite l2_r by lia. unfold nv, rsum. do 2 f_equal. cbn. ring. Qed.
Definition exA : list (list R) := [[3; 0]; [0; 4]].
Definition exB : list (list R) := [[/ 3; 0]; [0; / 4]].
Definition exE : list (list R) := [[-1; 0]; [0; 0]].
Example C125_inverse_ex : rect 2 2 exA /\ rect 2 2 exE /\ m_det ro 2 exA = Ok 12 /\ m_inv ro 2 exA = Ok exB /\ ml2 exA = Ok 5 /\ ml2 exB = Ok (5 / 12) /\ ml2 exE = Ok 1 /\ 1 * (5 / 12) < 1.
Proof.
  assert (RA : rect 2 2 exA) by (apply (rect_mk 2 2 (mget ro exA))). assert (D : m_det ro 2 exA = Ok 12) by (unfold exA; rewrite det2; f_equal; ring).
  split; auto. split; [apply (rect_mk 2 2 (mget ro exE))|]. split; auto. repeat split.
  - assert (P : both_return (m_dot ro 2 2 2 exA exB) (m_one ro 2)).
    { exists (mk 2 2 (fun i j => dl i j)). rewrite m_one_mk. split; [|reflexivity]. change exA with (mk 2 2 (mget ro exA)). change exB with (mk 2 2 (mget ro exB)). rewrite dot_r by lia. f_equal. apply mk_ext. intros i j Hi Hj. unfold mm, rsum. destruct i as [|[|]], j as [|[|]]; try lia; cbn; field. }
    apply (C33_unique r_field RA (rect_mk 2 2 (mget ro exB)) P).
  - unfold exA. rewrite ml2_2. f_equal. replace (_ + _) with (5 * 5) by ring. apply sqrt_square. lra.
  - unfold exB. rewrite ml2_2. f_equal. replace (_ + _) with (5 / 12 * (5 / 12)) by field. apply sqrt_square. lra.
  - unfold exE. rewrite ml2_2. f_equal. replace (_ + _) with (1 * 1) by ring. apply sqrt_square. lra.
  - lra.
Qed.
(* 1 - A X for X a bit off the inverse has norm 3/5 *)
Definition exX : list (list R) := [[2 / 15; 0]; [0; / 4]].
Example C125_residual_ex : exists p r, m_dot ro 2 2 2 exA exX = Ok p /\ (let! i := m_one ro 2 in m_sub ro 2 2 i p) = Ok r /\ ml2 r = Ok (3 / 5) /\ 3 / 5 < 1.
Proof.
  exists [[2 / 5; 0]; [0; 1]], [[3 / 5; 0]; [0; 0]]. repeat split.
  - change exA with (mk 2 2 (mget ro exA)). change exX with (mk 2 2 (mget ro exX)). rewrite dot_r by lia. change [[2 / 5; 0]; [0; 1]] with (mk 2 2 (mget ro [[2 / 5; 0]; [0; 1]])). f_equal. apply mk_ext. intros i j Hi Hj. unfold mm, rsum. destruct i as [|[|]], j as [|[|]]; try lia; cbn; field.
  - rewrite m_one_mk. cbn [bind]. change [[2 / 5; 0]; [0; 1]] with (mk 2 2 (mget ro [[2 / 5; 0]; [0; 1]])). change [[3 / 5; 0]; [0; 0]] with (mk 2 2 (mget ro [[3 / 5; 0]; [0; 0]])). rewrite (m_sub_mk r_ring). f_equal. apply mk_ext. intros i j Hi Hj. destruct i as [|[|]], j as [|[|]]; try lia; cbn; field.
  - rewrite ml2_2. f_equal. replace (_ + _) with (3 / 5 * (3 / 5)) by field. apply sqrt_square. lra.
  - lra.
Qed.
(* a system and the same system with another right hand side, with a condition number of 25 / 12 *)
Example C125_system_ex : solves ro 2 exA [1; 2] [3; 8] /\ solves ro 2 exA [2; 2] [6; 8] /\ v_sub ro 2 [6; 8] [3; 8] = Ok [3; 0] /\ l2 [3; 0] = Ok 3 /\ v_sub ro 2 [2; 2] [1; 2] = Ok [1; 0] /\ l2 [1; 0] = Ok 1.
Proof.
  assert (V : forall a b c d, a = c -> b = d -> @Ok (list R) [a; b] = Ok [c; d]) by (intros; subst; auto).
  assert (M : forall a b, solves ro 2 exA [a; b] [3 * a; 4 * b]).
  { intros. split; auto. change exA with (mk 2 2 (mget ro exA)). change [a; b] with (vk 2 (fun i => nth i [a; b] 0)). rewrite dot_v_r by lia. apply V; unfold mv, rsum; cbn; ring. }
  assert (E : forall a b c d, v_sub ro 2 [a; b] [c; d] = Ok [a - c; b - d]) by reflexivity.
  split. { replace [3; 8] with [3 * 1; 4 * 2] by (f_equal; [ring|f_equal; ring]). apply M. }
  split. { replace [6; 8] with [3 * 2; 4 * 2] by (f_equal; [ring|f_equal; ring]). apply M. }
  rewrite !E, !l2_2. split; [apply V; ring|]. split; [f_equal; replace (_ + _) with (3 * 3) by ring; apply sqrt_square; lra|]. split; [apply V; ring|]. f_equal. replace (_ + _) with (1 * 1) by ring. apply sqrt_square. lra.
Qed.
(* [3 4] + [6 8] points the same way, [3 4] + [4 3] does not *)
Example C125_triangle_ex : l2 [3; 4] = Ok 5 /\ l2 [6; 8] = Ok 10 /\ l2 [3 + 6; 4 + 8] = Ok (5 + 10) /\ v_smul ro [3; 4] 10 = v_smul ro [6; 8] 5 /\ l2 [4; 3] = Ok 5 /\ v_smul ro [3; 4] 5 <> v_smul ro [4; 3] 5.
Proof.
  assert (W : forall a b c, v_smul ro [a; b] c = Ok [a * c; b * c]) by reflexivity. rewrite !W, !l2_2.
  split; [f_equal; replace (_ + _) with (5 * 5) by ring; apply sqrt_square; lra|]. split; [f_equal; replace (_ + _) with (10 * 10) by ring; apply sqrt_square; lra|].
  split; [f_equal; replace (_ + _) with (15 * 15) by ring; rewrite sqrt_square; lra|]. split; [do 2 f_equal; [ring|f_equal; ring]|]. split; [f_equal; replace (_ + _) with (5 * 5) by ring; apply sqrt_square; lra|].
  intros E. apply Ok_inj in E. apply (f_equal (fun l => nth 0 l 0)) in E. cbn in E. lra.
Qed.

Print Assumptions C125_product.
Print Assumptions C125_vector.
Print Assumptions C125_row_vector.
Print Assumptions C125_outer.
Print Assumptions C125_one.
Print Assumptions C125_condition_at_least.
Print Assumptions C125_neighbour.
Print Assumptions C125_distance_to_singular.
Print Assumptions C125_residual.
Print Assumptions C125_right_hand_side.
Print Assumptions C125_matrix.
Print Assumptions C125_parallelogram.
Print Assumptions C125_triangle_equality.
