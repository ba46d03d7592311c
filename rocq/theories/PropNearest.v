(** C126: nearest points: projections, orthonormal rows, least squares, and reflections in hyperplanes. *)
From Coq Require Import Reals Lra Psatz Lia.
From Verif Require Import Spec SpecRing SpecDet AlgFacts MFacts DetFacts MatProofs SqProofs SquareModel RealInst RealFacts PropReal PropSquare PropLinear PropVolume PropRank PropCond.
Import ListNotations.
Set Implicit Arguments.
Local Open Scope R_scope.
Local Open Scope list_scope.

Local Notation ro := r_ops.
Local Notation dl i j := (if Nat.eqb i j then 1 else 0).
(** The distance of two points, and how far [a x] is from [b]. *)
Definition dist (N : nat) (x y : list R) : res R := let! d := v_sub ro N x y in l2 d.
Definition misfit (M N : nat) (a : list (list R)) (b x : list R) : res R := let! w := m_dot_v ro M N a x in dist M w b.
(** 1 - 2 w w^T / (w . w): the reflection in the hyperplane orthogonal to [w]. *)
Definition mirror (N : nat) (w : list R) : res (list (list R)) :=
  let! c := v_dot ro N w w in let! p := m_outer ro N N w w in let! s := m_smul ro p (2 / c) in let! i := m_one ro N in m_sub ro N N i s.

Definition ip (N : nat) (u v : nat -> R) : R := rsum N (fun i => u i * v i).
Lemma dot_rr : forall N u v, (0 < N)%nat -> v_dot ro N (vk N u) (vk N v) = Ok (ip N u v).
Proof. intros. rewrite (v_dot_vk r_ring) by auto. reflexivity. Qed.
Lemma sub_rr : forall N u v, v_sub ro N (vk N u) (vk N v) = Ok (vk N (fun i => u i - v i)).
Proof. intros. rewrite (v_sub_vk r_ring). reflexivity. Qed.
Lemma smul_rr : forall N u t, v_smul ro (vk N u) t = Ok (vk N (fun i => u i * t)).
Proof. intros. rewrite (v_smul_vk r_ring). reflexivity. Qed.
Lemma dist_r : forall N u v, (0 < N)%nat -> dist N (vk N u) (vk N v) = Ok (nv N (fun i => u i - v i)).
Proof. intros. unfold dist. rewrite sub_rr. cbn [bind]. apply l2_r. auto. Qed.
Lemma nv_ip : forall N u, nv N u * nv N u = ip N u u. Proof. intros. apply nv_sq. Qed.
Lemma ip_pos : forall N u, 0 <= ip N u u. Proof. intros. apply ss_pos. Qed.
Lemma ip_zero : forall N (u : nat -> R), ip N u u = 0 -> forall i, (i < N)%nat -> u i = 0.
Proof. intros N u H. apply nv_zero. unfold nv. fold (ip N u u). rewrite H. apply sqrt_0. Qed.
Lemma ip_comm : forall N u v, ip N u v = ip N v u. Proof. intros. apply rsum_ext. intros. ring. Qed.
Lemma ip_ext : forall N u u' v v', (forall i, (i < N)%nat -> u i = u' i) -> (forall i, (i < N)%nat -> v i = v' i) -> ip N u v = ip N u' v'.
Proof. intros. apply rsum_ext. intros. rewrite H, H0 by auto. reflexivity. Qed.
Lemma ip_sub_l : forall N u v w, ip N (fun i => u i - v i) w = ip N u w - ip N v w.
Proof. intros. unfold ip, Rminus. rewrite <- rsum_neg, <- rsum_add. apply rsum_ext. intros. ring. Qed.
Lemma ip_sub_r : forall N u v w, ip N w (fun i => u i - v i) = ip N w u - ip N w v.
Proof. intros. rewrite ip_comm, ip_sub_l, !(ip_comm N w). reflexivity. Qed.
Lemma ip_mul_l : forall N u v t, ip N (fun i => u i * t) v = t * ip N u v.
Proof. intros. unfold ip. rewrite <- rsum_mul_l. apply rsum_ext. intros. ring. Qed.
Lemma ip_mul_r : forall N u v t, ip N u (fun i => v i * t) = t * ip N u v.
Proof. intros. rewrite ip_comm, ip_mul_l, ip_comm. reflexivity. Qed.
(* moving a matrix to the other side *)
Lemma ip_adj : forall M N f u r, ip M (mv N f u) r = ip N u (vm M r f).
Proof.
  intros. unfold ip, mv, vm. rewrite (rsum_ext _ (fun i => rsum N (fun k => u k * (r i * f i k)))) by (intros; rewrite <- rsum_mul_r; apply rsum_ext; intros; ring).
  rewrite rsum_swap. apply rsum_ext. intros. rewrite rsum_mul_l. reflexivity.
Qed.
Lemma nv_le : forall N N' u v, ip N u u <= ip N' v v -> nv N u <= nv N' v.
Proof. intros. apply sqrt_le_1_alt. exact H. Qed.
Lemma nv_eq_ip : forall N N' u v, nv N u = nv N' v -> ip N u u = ip N' v v.
Proof. intros. rewrite <- !nv_ip, H. reflexivity. Qed.
Lemma nonzero_ip : forall N u, nonzero ro (vk N u) -> 0 < ip N u u.
Proof.
  intros N u H. apply nonzero_vk in H as (j & Hj & Nj). destruct (ip_pos N u) as [L|E]; auto. exfalso. apply Nj. apply (@ip_zero N u); auto.
Qed.

(** * The nearest point of a line *)
(** For w other than zero, (v . w) / (w . w) * w is the multiple of w nearest to v, and the rest is orthogonal to w. *)
Theorem C126_projection : forall N v w, length v = N -> length w = N -> (0 < N)%nat -> nonzero ro w ->
  exists a c p e n, v_dot ro N v w = Ok a /\ v_dot ro N w w = Ok c /\ 0 < c /\ v_smul ro w (a / c) = Ok p /\ v_sub ro N v p = Ok e /\ v_dot ro N e w = Ok 0 /\ dist N v p = Ok n /\
  forall t, exists q m, v_smul ro w t = Ok q /\ dist N v q = Ok m /\ n <= m /\ (m = n -> t = a / c).
Proof.
  intros N v w Lv Lw HN Nw. destruct (vk_ex ro v Lv) as (f & ->), (vk_ex ro w Lw) as (g & ->). pose proof (nonzero_ip _ _ Nw) as C. set (a := ip N f g). set (c := ip N g g) in *.
  exists a, c, (vk N (fun i => g i * (a / c))), (vk N (fun i => f i - g i * (a / c))), (nv N (fun i => f i - g i * (a / c))). rewrite !dot_rr, smul_rr, sub_rr, dist_r by auto. do 5 (split; [auto|]).
  split. { f_equal. rewrite ip_sub_l, ip_mul_l. fold a c. field. lra. } split; auto.
  intros t. exists (vk N (fun i => g i * t)), (nv N (fun i => f i - g i * t)). rewrite smul_rr, dist_r by auto. do 2 (split; [auto|]).
  assert (E : forall s, ip N (fun i => f i - g i * s) (fun i => f i - g i * s) = ip N f f - 2 * s * a + s * s * c).
  { intros s. rewrite ip_sub_l, !ip_sub_r, !ip_mul_l, !ip_mul_r, (ip_comm N g f). fold a c. ring. }
  assert (D : ip N (fun i => f i - g i * t) (fun i => f i - g i * t) = ip N (fun i => f i - g i * (a / c)) (fun i => f i - g i * (a / c)) + (t - a / c) * (t - a / c) * c). { rewrite !E. field. lra. }
  pose proof (sqpos (t - a / c)) as Q. split.
  - apply nv_le. rewrite D. nra.
  - intros H. apply nv_eq_ip in H. rewrite D in H. assert (Z : (t - a / c) * (t - a / c) * c = 0) by lra. apply Rmult_integral in Z as [Z|Z]; [|lra]. apply Rmult_integral in Z. lra.
Qed.

(** * Orthonormal rows *)
Lemma onorm_ip : forall M N f, (forall i j, (i < M)%nat -> (j < M)%nat -> ip N (f i) (f j) = dl i j) -> forall y z, ip N (vm M y f) (vm M z f) = ip M y z.
Proof.
  intros M N f H y z. rewrite <- ip_adj. apply ip_ext; auto. intros i Hi. unfold mv.
  transitivity (rsum M (fun k => y k * ip N (f k) (f i))).
  - rewrite (@rsum_ext N _ (fun k => rsum M (fun l => y l * (f l k * f i k)))). 2: { intros k _. unfold vm. rewrite Rmult_comm, <- rsum_mul_r. apply rsum_ext. intros. ring. } rewrite rsum_swap. apply rsum_ext. intros. rewrite rsum_mul_l. reflexivity.
  - rewrite (rsum_ext _ (fun k => if Nat.eqb k i then y k else 0)). { apply (@bigsum_delta _ _ r_ring M i y Hi). } intros k Hk. rewrite H by auto. destruct (Nat.eqb k i); ring.
Qed.
(** If the rows of an M x N matrix are orthonormal then M <= N; the components m x of x along the rows are at most as long as
    x, and p, the combination of the rows with these components, is the nearest combination to x; x is one itself exactly if its components are as long as x. *)
Theorem C126_orthonormal : forall M N m t x, rect M N m -> (0 < M)%nat -> (0 < N)%nat -> m_transpose M N m = Ok t -> m_dot ro M N M m t = m_one ro M -> length x = N ->
  (M <= N)%nat /\ exists y p n nx ny, m_dot_v ro M N m x = Ok y /\ v_dot_m ro M N y m = Ok p /\ l2 x = Ok nx /\ l2 y = Ok ny /\ ny <= nx /\ (ny = nx <-> p = x) /\
  dist N x p = Ok n /\ nx * nx = ny * ny + n * n /\ forall z, length z = M -> exists q k, v_dot_m ro M N z m = Ok q /\ dist N x q = Ok k /\ n <= k /\ (k = n -> z = y).
Proof.
  intros M N m t x Rm HM HN Ht Ho Lx. destruct (mk_ex ro Rm) as (f & ->), (vk_ex ro x Lx) as (u & ->). rewrite m_transpose_mk in Ht. apply Ok_inj in Ht. subst t.
  split. { destruct (Nat.le_gt_cases M N) as [L|L]; auto. exfalso. pose proof (C119_low_rank r_ring (rect_mk M N f) (rect_mk N M (fun i j => f j i)) HN L) as Z. rewrite Ho in Z. pose proof (C31_one r_ring M) as D. rewrite Z in D. apply Ok_inj in D. cbn in D. lra. }
  rewrite dot_r, m_one_mk in Ho by auto. apply Ok_inj in Ho.
  assert (H : forall i j, (i < M)%nat -> (j < M)%nat -> ip N (f i) (f j) = dl i j). { intros i j Hi Hj. apply (f_equal (fun m => mget ro m i j)) in Ho. rewrite !mget_mk in Ho by auto. exact Ho. }
  pose proof (@onorm_ip M N f H) as K. set (y := mv N f u). 
  assert (I : forall z, ip N (fun i => u i - vm M z f i) (fun i => u i - vm M z f i) = ip N u u - ip M y y + ip M (fun i => y i - z i) (fun i => y i - z i)).
  { intros z. rewrite !ip_sub_l, !ip_sub_r, K, (ip_comm N (vm M z f) u), <- ip_adj. fold y. rewrite (ip_comm M z y). ring. }
  assert (I0 : ip N (fun i => u i - vm M y f i) (fun i => u i - vm M y f i) = ip N u u - ip M y y). { rewrite I, !ip_sub_l, !ip_sub_r. ring. }
  exists (vk M y), (vk N (vm M y f)), (nv N (fun i => u i - vm M y f i)), (nv N u), (nv M y). rewrite dot_v_r, v_dot_r, !l2_r, dist_r by auto. do 4 (split; [auto|]).
  pose proof (ip_pos N (fun i => u i - vm M y f i)) as P. split; [apply nv_le; lra|]. split; [|split; [auto|split; [rewrite !nv_ip; lra|]]].
  - split.
    + intros E. apply nv_eq_ip in E. apply vk_ext. intros i Hi. assert (Z : ip N (fun i => u i - vm M y f i) (fun i => u i - vm M y f i) = 0) by lra. pose proof (@ip_zero _ _ Z _ Hi) as W. cbn beta in W. lra.
    + intros E. pose proof (@vk_inj R N _ _ E) as W. cbn beta in W. unfold nv. fold (ip M y y) (ip N u u). f_equal. rewrite (@ip_ext N _ (fun _ => 0) _ (fun _ => 0)) in I0 by (intros; rewrite W by auto; ring). unfold ip at 1 in I0. rewrite (rsum_ext _ (fun _ => 0)), rsum_const0 in I0 by (intros; ring). lra.
  - intros z Lz. destruct (vk_ex ro z Lz) as (g & ->). exists (vk N (vm M g f)), (nv N (fun i => u i - vm M g f i)). rewrite v_dot_r, dist_r by auto. do 2 (split; [auto|]). pose proof (ip_pos M (fun i => y i - g i)) as Q. split; [apply nv_le; rewrite I0, (I g); lra|].
    intros E. apply nv_eq_ip in E. rewrite I0, (I g) in E. apply vk_ext. intros i Hi. assert (Z : ip M (fun i => y i - g i) (fun i => y i - g i) = 0) by lra. pose proof (@ip_zero _ _ Z _ Hi) as W. cbn beta in W. lra.
Qed.

(** * Least squares *)
Lemma misfit_r : forall M N f b u, (0 < M)%nat -> (0 < N)%nat -> misfit M N (mk M N f) (vk M b) (vk N u) = Ok (nv M (fun i => mv N f u i - b i)).
Proof. intros. unfold misfit. rewrite dot_v_r by auto. cbn [bind]. apply dist_r. auto. Qed.
Lemma mv_sub : forall N f u v i, mv N f (fun k => u k - v k) i = mv N f u i - mv N f v i.
Proof. intros. unfold mv, Rminus. rewrite <- rsum_neg, <- rsum_add. apply rsum_ext. intros. ring. Qed.
Lemma mv_scale : forall N f u t i, mv N f (fun k => u k * t) i = mv N f u i * t.
Proof. intros. unfold mv. rewrite <- rsum_mul_r. apply rsum_ext. intros. ring. Qed.
(* moving from u by d *)
Lemma misfit_move : forall M N f b u d, let r := fun i => mv N f u i - b i in
  ip M (fun i => mv N f (fun k => u k - d k) i - b i) (fun i => mv N f (fun k => u k - d k) i - b i) = ip M r r - 2 * ip N d (vm M r f) + ip M (mv N f d) (mv N f d).
Proof.
  intros. rewrite <- ip_adj. rewrite (@ip_ext M _ (fun i => r i - mv N f d i) _ (fun i => r i - mv N f d i)) by (intros; unfold r; rewrite mv_sub; ring).
  rewrite ip_sub_l, !ip_sub_r, (ip_comm M (mv N f d) r). ring.
Qed.
Lemma descend : forall p q, 0 <= p -> 0 <= q -> (forall t, 0 <= t * t * q - 2 * t * p) -> p = 0.
Proof.
  intros p q Hp Hq H. destruct Hp as [Hp|]; auto. exfalso. specialize (H (p / (q + 1))). assert (K : p / (q + 1) * (p / (q + 1)) * q - 2 * (p / (q + 1)) * p = - (p * p) * (q + 2) / ((q + 1) * (q + 1))) by (field; lra).
  rewrite K in H. assert (0 < p * p * (q + 2) / ((q + 1) * (q + 1))). { apply Rdiv_lt_0_compat; nra. } unfold Rdiv in *. rewrite Ropp_mult_distr_l_reverse in H. rewrite Ropp_mult_distr_l_reverse in H. lra.
Qed.
Lemma normal_iff : forall M N f b u, (forall j, (j < N)%nat -> vm M (mv N f u) f j = vm M b f j) <-> (forall v, nv M (fun i => mv N f u i - b i) <= nv M (fun i => mv N f v i - b i)).
Proof.
  intros M N f b u. set (r := fun i => mv N f u i - b i). set (g := vm M r f).
  assert (G : forall j, g j = vm M (mv N f u) f j - vm M b f j). { intros. unfold g, vm, r, Rminus. rewrite <- rsum_neg, <- rsum_add. apply rsum_ext. intros. ring. }
  split.
  - intros H v. apply nv_le. rewrite (@ip_ext M (fun i => mv N f v i - b i) (fun i => mv N f (fun k => u k - (u k - v k)) i - b i) (fun i => mv N f v i - b i) (fun i => mv N f (fun k => u k - (u k - v k)) i - b i)); try (intros; f_equal; apply (@mv_ext M N); auto; intros; ring).
    rewrite misfit_move. fold r g. rewrite (@ip_ext N (fun k => u k - v k) (fun k => u k - v k) g (fun _ => 0)) by (auto; intros; rewrite G, H by auto; ring). unfold ip at 3. rewrite (rsum_ext _ (fun _ => 0)), rsum_const0 by (intros; ring).
    pose proof (ip_pos M (mv N f (fun k => u k - v k))). lra.
  - intros H. assert (Z : ip N g g = 0).
    { apply (@descend _ (ip M (mv N f g) (mv N f g))); auto using ip_pos. intros t. specialize (H (fun k => u k - g k * t)).
      assert (L : ip M r r <= ip M (fun i => mv N f (fun k => u k - g k * t) i - b i) (fun i => mv N f (fun k => u k - g k * t) i - b i)). { rewrite <- !nv_ip. apply Rmult_le_compat; auto using nv_pos. }
      rewrite (misfit_move M N f b u (fun k => g k * t)) in L. fold r g in L. rewrite ip_mul_l in L.
      rewrite (@ip_ext M (mv N f (fun k => g k * t)) (fun i => mv N f g i * t) (mv N f (fun k => g k * t)) (fun i => mv N f g i * t)) in L by (intros; apply mv_scale). rewrite ip_mul_l, ip_mul_r in L. lra. }
    intros j Hj. pose proof (@ip_zero _ g Z _ Hj) as W. rewrite G in W. lra.
Qed.
Lemma mv_S : forall N f u i, mv (S N) f u i = mv N f u i + f i N * u N. Proof. intros. unfold mv. apply rsum_S. Qed.
(* the normal equations always have a solution: one column after the other *)
Lemma normal_exists : forall M N f c, exists u, forall j, (j < N)%nat -> ip M (fun i => c i - mv N f u i) (fun i => f i j) = 0.
Proof.
  intros M N f. induction N as [|N IH]; intros c. { exists (fun _ => 0). intros. lia. }
  destruct (IH (fun i => f i N)) as (p & Hp). destruct (IH c) as (u & Hu). set (e := fun i => f i N - mv N f p i) in *. set (r := fun i => c i - mv N f u i) in *.
  assert (X : exists t, ip M r e = t * ip M e e).
  { destruct (Req_dec (ip M e e) 0) as [Z|Z]; [|exists (ip M r e / ip M e e); field; auto]. exists 0. rewrite Rmult_0_l. unfold ip. rewrite (rsum_ext _ (fun _ => 0)), rsum_const0; auto. intros i Hi. rewrite (@ip_zero M e Z i Hi). ring. }
  destruct X as (t & Ht). exists (fun k => if Nat.ltb k N then u k - p k * t else t).
  assert (Q : forall i, c i - mv (S N) f (fun k => if Nat.ltb k N then u k - p k * t else t) i = r i - e i * t).
  { intros i. rewrite mv_S. cbn beta. rewrite Nat.ltb_irrefl. assert (W : mv N f (fun k => if Nat.ltb k N then u k - p k * t else t) i = mv N f (fun k => u k - p k * t) i).
    { apply (@mv_ext (S i) N); auto. intros k Hk. apply Nat.ltb_lt in Hk. rewrite Hk. reflexivity. } rewrite W, mv_sub, mv_scale. unfold r, e. ring. }
  assert (A : forall j, (j < N)%nat -> ip M (fun i => r i - e i * t) (fun i => f i j) = 0). { intros j Hj. rewrite ip_sub_l, ip_mul_l. rewrite Hu, Hp by auto. ring. }
  intros j Hj. rewrite (@ip_ext M _ (fun i => r i - e i * t) _ (fun i => f i j)) by auto. destruct (Nat.eq_dec j N) as [->|Nj]; [|apply A; lia].
  rewrite (@ip_ext M (fun i => r i - e i * t) (fun i => r i - e i * t) (fun i => f i N) (fun i => e i - mv N f p i * -1)) by (auto; intros; unfold e; ring). rewrite ip_sub_r, ip_mul_r, ip_sub_l, ip_mul_l, Ht.
  rewrite (ip_comm M _ (mv N f p)), ip_adj. unfold ip at 3. rewrite (rsum_ext _ (fun _ => 0)), rsum_const0; [ring|]. intros k Hk. replace (vm M (fun i => r i - e i * t) f k) with 0; [ring|]. symmetry. apply A. auto.
Qed.
(** Some x always makes |a x - b| least, *)
Theorem C126_exists : forall M N a b, rect M N a -> (0 < M)%nat -> (0 < N)%nat -> length b = M ->
  exists x k, length x = N /\ misfit M N a b x = Ok k /\ forall y, length y = N -> exists l, misfit M N a b y = Ok l /\ k <= l.
Proof.
  intros M N a b Ra HM HN Lb. destruct (mk_ex ro Ra) as (f & ->), (vk_ex ro b Lb) as (c & ->). destruct (normal_exists M N f c) as (u & Hu).
  exists (vk N u), (nv M (fun i => mv N f u i - c i)). split; [apply vk_length|]. split; [apply misfit_r; auto|]. intros y Ly. destruct (vk_ex ro y Ly) as (v & ->). eexists. rewrite misfit_r by auto. split; [reflexivity|].
  revert v Ly. cut (forall v, nv M (fun i => mv N f u i - c i) <= nv M (fun i => mv N f v i - c i)); [auto|]. apply normal_iff. intros j Hj. specialize (Hu j Hj). rewrite ip_sub_l in Hu. unfold vm. unfold ip in Hu. lra.
Qed.
(** x makes |a x - b| least exactly if it satisfies the normal equations a^T (a x) = a^T b. *)
Theorem C126_normal_equations : forall M N a t b x w, rect M N a -> (0 < M)%nat -> (0 < N)%nat -> length b = M -> length x = N -> m_transpose M N a = Ok t -> m_dot_v ro M N a x = Ok w ->
  exists k, misfit M N a b x = Ok k /\ (m_dot_v ro N M t w = m_dot_v ro N M t b <-> forall y, length y = N -> exists l, misfit M N a b y = Ok l /\ k <= l).
Proof.
  intros M N a t b x w Ra HM HN Lb Lx Ht Hw. destruct (mk_ex ro Ra) as (f & ->), (vk_ex ro b Lb) as (c & ->), (vk_ex ro x Lx) as (u & ->). rewrite m_transpose_mk in Ht. rewrite dot_v_r in Hw by auto. apply Ok_inj in Ht, Hw. subst t w.
  eexists. rewrite misfit_r by auto. split; [reflexivity|]. rewrite !dot_v_r by auto.
  assert (T : forall v j, mv M (fun i j => f j i) v j = vm M v f j) by (intros; apply rsum_ext; intros; ring).
  assert (Q : Ok (vk N (mv M (fun i j => f j i) (mv N f u))) = Ok (vk N (mv M (fun i j => f j i) c)) <-> forall j, (j < N)%nat -> vm M (mv N f u) f j = vm M c f j).
  { split; [intros E j Hj; apply Ok_inj in E; pose proof (@vk_inj R N _ _ E j Hj) as W; cbn beta in W; rewrite !T in W; exact W|intros E; f_equal; apply vk_ext; intros; rewrite !T; auto]. }
  rewrite Q, normal_iff. split.
  - intros H y Ly. destruct (vk_ex ro y Ly) as (v & ->). eexists. rewrite misfit_r by auto. split; [reflexivity|]. apply H.
  - intros H v. destruct (H (vk N v) (vk_length _ _)) as (l & E & L). rewrite misfit_r in E by auto. apply Ok_inj in E. subst l. exact L.
Qed.
(** and all such x give the same a x. *)
Theorem C126_fit_unique : forall M N a b x y k, rect M N a -> (0 < M)%nat -> (0 < N)%nat -> length b = M -> length x = N -> length y = N -> misfit M N a b x = Ok k -> misfit M N a b y = Ok k ->
  (forall z, length z = N -> exists l, misfit M N a b z = Ok l /\ k <= l) -> exists w, m_dot_v ro M N a x = Ok w /\ m_dot_v ro M N a y = Ok w.
Proof.
  intros M N a b x y k Ra HM HN Lb Lx Ly Kx Ky H. destruct (mk_ex ro Ra) as (f & ->), (vk_ex ro b Lb) as (c & ->), (vk_ex ro x Lx) as (u & ->), (vk_ex ro y Ly) as (v & ->). rewrite misfit_r in Kx, Ky by auto. apply Ok_inj in Kx, Ky.
  assert (Nu : forall j, (j < N)%nat -> vm M (mv N f u) f j = vm M c f j). { apply normal_iff. intros z. destruct (H (vk N z) (vk_length _ _)) as (l & E & L). rewrite misfit_r in E by auto. apply Ok_inj in E. rewrite Kx, E. exact L. }
  pose proof (misfit_move M N f c u (fun i => u i - v i)) as Q. cbn zeta in Q. set (r := fun i => mv N f u i - c i) in *.
  assert (G : ip N (fun i => u i - v i) (vm M r f) = 0). { unfold ip. rewrite (rsum_ext _ (fun _ => 0)); [apply rsum_const0|]. intros j Hj. replace (vm M r f j) with 0; [ring|]. specialize (Nu j Hj). unfold vm, r in *. rewrite (rsum_ext _ (fun i => mv N f u i * f i j + - (c i * f i j))) by (intros; ring). rewrite rsum_add, rsum_neg. lra. }
  rewrite G in Q. rewrite (@ip_ext M (fun i => mv N f (fun k => u k - (u k - v k)) i - c i) (fun i => mv N f v i - c i) (fun i => mv N f (fun k => u k - (u k - v k)) i - c i) (fun i => mv N f v i - c i)) in Q by (intros; f_equal; apply (@mv_ext M N); auto; intros; ring).
  assert (E : ip M r r = ip M (fun i => mv N f v i - c i) (fun i => mv N f v i - c i)) by (apply nv_eq_ip; congruence). rewrite <- E in Q. assert (Z : ip M (mv N f (fun i => u i - v i)) (mv N f (fun i => u i - v i)) = 0) by lra.
  exists (vk M (mv N f u)). rewrite !dot_v_r by auto. split; [auto|]. f_equal. apply vk_ext. intros i Hi. pose proof (@ip_zero M _ Z i Hi) as W. rewrite mv_sub in W. lra.
Qed.
(** a^T a is singular exactly if the columns of a are linearly dependent; *)
Theorem C126_independent : forall M N a t g d, rect M N a -> (0 < M)%nat -> (0 < N)%nat -> m_transpose M N a = Ok t -> m_dot ro N M N t a = Ok g -> m_det ro N g = Ok d ->
  (d = 0 <-> exists x, nonzero ro x /\ length x = N /\ m_dot_v ro M N a x = Ok (repeat 0 M)).
Proof.
  intros M N a t g d Ra HM HN Ht Hg Hd. destruct (mk_ex ro Ra) as (f & ->). rewrite m_transpose_mk in Ht. apply Ok_inj in Ht. subst t.
  rewrite (@C112_dependent N M (mk N M (fun i j => f j i)) (mk M N f) HM (rect_mk _ _ _) (m_transpose_mk N M (fun i j => f j i)) g d Hg Hd).
  assert (Z : forall u, v_dot_m ro N M (vk N u) (mk N M (fun i j => f j i)) = m_dot_v ro M N (mk M N f) (vk N u)). { intros. rewrite v_dot_r, dot_v_r by auto. f_equal. apply vk_ext. intros. apply rsum_ext. intros. ring. }
  split; intros (x & Nx & Lx & E); exists x; (split; [auto|split; [auto|]]); destruct (vk_ex ro x Lx) as (u & ->); rewrite Z in * || rewrite <- Z in *; exact E.
Qed.
(** otherwise inv (a^T a) (a^T b) makes |a x - b| least, and nothing else does. *)
Theorem C126_least_squares : forall M N a t g d b, rect M N a -> (0 < M)%nat -> (0 < N)%nat -> length b = M -> m_transpose M N a = Ok t -> m_dot ro N M N t a = Ok g -> m_det ro N g = Ok d -> d <> 0 ->
  exists x k, (let! i := m_inv ro N g in let! c := m_dot_v ro N M t b in m_dot_v ro N N i c) = Ok x /\ length x = N /\ misfit M N a b x = Ok k /\
  forall y, length y = N -> exists l, misfit M N a b y = Ok l /\ k <= l /\ (l = k -> y = x).
Proof.
  intros M N a t g d b Ra HM HN Lb Ht Hg Hd Hz. destruct (mk_ex ro Ra) as (f & ->), (vk_ex ro b Lb) as (c & ->). rewrite m_transpose_mk in Ht. apply Ok_inj in Ht. subst t. rewrite dot_r in Hg by auto. apply Ok_inj in Hg. subst g.
  set (h := mm M (fun i j => f j i) f) in *. set (ct := mv M (fun i j => f j i) c).
  destruct (@C108_solve R ro r_field N (mk N N h) d (vk N ct) (rect_mk _ _ _) Hd Hz (vk_length _ _)) as (x & E & (Lx & Hx) & U).
  assert (T : forall v j, mv M (fun i j => f j i) v j = vm M v f j) by (intros; apply rsum_ext; intros; ring).
  assert (W : forall v, (forall j, (j < N)%nat -> vm M (mv N f v) f j = vm M c f j) -> solves ro N (mk N N h) (vk N v) (vk N ct)).
  { intros v H. split; [apply vk_length|]. rewrite dot_v_r by auto. f_equal. apply vk_ext. intros j Hj. unfold h, ct. rewrite mv_mm, !T. auto. }
  destruct (vk_ex ro x Lx) as (u & ->). rewrite dot_v_r in Hx by auto. apply Ok_inj in Hx. pose proof (@vk_inj R N _ _ Hx) as K. cbn beta in K.
  assert (Nu : forall j, (j < N)%nat -> vm M (mv N f u) f j = vm M c f j). { intros j Hj. specialize (K j Hj). unfold h, ct in K. rewrite mv_mm, !T in K. exact K. }
  exists (vk N u), (nv M (fun i => mv N f u i - c i)). split; [|split; [apply vk_length|split; [apply misfit_r; auto|]]].
  { rewrite <- E. destruct (m_inv ro N (mk N N h)); auto. cbn [bind]. rewrite dot_v_r by auto. reflexivity. }
  intros y Ly. destruct (vk_ex ro y Ly) as (v & ->). exists (nv M (fun i => mv N f v i - c i)). split; [apply misfit_r; auto|]. pose proof (proj1 (normal_iff M N f c u) Nu) as L. split; auto.
  intros Q. apply U. apply W. apply normal_iff. intros z. rewrite Q. apply L.
Qed.

(** * Reflections *)
Lemma mirror_mk : forall N w, (0 < N)%nat -> mirror N (vk N w) = Ok (mk N N (fun i j => dl i j - w i * w j * (2 / ip N w w))).
Proof. intros. unfold mirror. rewrite dot_rr by auto. cbn [bind]. rewrite (m_outer_mk r_ring). cbn [bind]. rewrite (m_smul_mk r_ring). cbn [bind]. rewrite m_one_mk. cbn [bind]. rewrite (m_sub_mk r_ring). reflexivity. Qed.
Lemma mirror_mv : forall N w u i, (i < N)%nat -> mv N (fun i j => dl i j - w i * w j * (2 / ip N w w)) u i = u i - w i * (2 * ip N w u / ip N w w).
Proof.
  intros N w u i Hi. rewrite <- (mv_one u Hi). replace (w i * (2 * ip N w u / ip N w w)) with (w i * (2 / ip N w w) * ip N w u) by (unfold Rdiv; ring). unfold mv, Rminus. replace (ip N w u) with (rsum N (fun k => w k * u k)) by reflexivity. rewrite <- rsum_mul_l, <- rsum_neg, <- rsum_add. apply rsum_ext. intros. ring.
Qed.
Lemma mirror_ip : forall N w u v, 0 < ip N w w -> ip N (fun i => u i - w i * (2 * ip N w u / ip N w w)) (fun i => v i - w i * (2 * ip N w v / ip N w w)) = ip N u v.
Proof. intros. rewrite ip_sub_l, !ip_sub_r, !ip_mul_l, !ip_mul_r, (ip_comm N u w). field. lra. Qed.
(** The reflection takes w to -w and leaves exactly the vectors orthogonal to w as they are; *)
Theorem C126_mirror : forall N w m, length w = N -> (0 < N)%nat -> nonzero ro w -> mirror N w = Ok m ->
  rect N N m /\ m_dot_v ro N N m w = v_neg ro w /\ forall v, length v = N -> (m_dot_v ro N N m v = Ok v <-> v_dot ro N v w = Ok 0).
Proof.
  intros N w m Lw HN Nw Hm. destruct (vk_ex ro w Lw) as (g & ->). pose proof (nonzero_ip _ _ Nw) as C. rewrite mirror_mk in Hm by auto. apply Ok_inj in Hm. subst m. split; [apply rect_mk|]. split.
  - rewrite dot_v_r by auto. rewrite (v_neg_vk r_ring). f_equal. apply vk_ext. intros i Hi. rewrite mirror_mv by auto. cbn. field. lra.
  - intros v Lv. destruct (vk_ex ro v Lv) as (u & ->). rewrite dot_v_r, dot_rr by auto. split.
    + intros E. apply Ok_inj in E. pose proof (@vk_inj R N _ _ E) as K. cbn beta in K. f_equal. apply nonzero_vk in Nw as (j & Hj & Nj). specialize (K j Hj). rewrite mirror_mv in K by auto. assert (Z : g j * (2 * ip N g u / ip N g g) = 0) by lra. apply Rmult_integral in Z as [Z|Z]; [contradiction|].
      rewrite ip_comm. apply (Rmult_eq_reg_l (2 / ip N g g)). { rewrite Rmult_0_r, <- Z. unfold Rdiv. ring. } apply Rgt_not_eq. apply Rdiv_lt_0_compat; lra.
    + intros E. apply Ok_inj in E. f_equal. apply vk_ext. intros i Hi. rewrite mirror_mv by auto. rewrite (ip_comm N g u), E. field. lra.
Qed.
(** it is its own inverse and transpose, keeps dot products, and its determinant is -1; *)
Theorem C126_mirror_orthogonal : forall N w m, length w = N -> (0 < N)%nat -> nonzero ro w -> mirror N w = Ok m ->
  m_transpose N N m = Ok m /\ m_dot ro N N N m m = m_one ro N /\ m_det ro N m = Ok (-1) /\ m_inv ro N m = Ok m /\
  forall u v, length u = N -> length v = N -> exists x y, m_dot_v ro N N m u = Ok x /\ m_dot_v ro N N m v = Ok y /\ v_dot ro N x y = v_dot ro N u v.
Proof.
  intros N w m Lw HN Nw Hm. destruct (vk_ex ro w Lw) as (g & ->). pose proof (nonzero_ip _ _ Nw) as C. rewrite mirror_mk in Hm by auto. apply Ok_inj in Hm. subst m.
  assert (I : m_dot ro N N N (mk N N (fun i j => dl i j - g i * g j * (2 / ip N g g))) (mk N N (fun i j => dl i j - g i * g j * (2 / ip N g g))) = m_one ro N).
  { rewrite dot_r, m_one_mk by auto. f_equal. apply mk_ext. intros i j Hi Hj. set (h := fun i j : nat => dl i j - g i * g j * (2 / ip N g g)). change (mv N h (fun k => h k j) i = dl i j). unfold h at 1. rewrite mirror_mv by auto.
    assert (Q : ip N g (fun k => h k j) = - g j). { unfold h. rewrite (@ip_ext N g g _ (fun k => dl k j - g k * (g j * (2 / ip N g g)))) by (auto; intros; ring). rewrite ip_sub_r, ip_mul_r. rewrite ip_comm. replace (ip N (fun k => dl k j) g) with (g j). { field. lra. } rewrite <- (mv_one g Hj) at 1. apply rsum_ext. intros k _. rewrite (Nat.eqb_sym j k). reflexivity. }
    rewrite Q. unfold h. field. lra. }
  split. { rewrite m_transpose_mk. f_equal. apply mk_ext. intros i j _ _. rewrite (Nat.eqb_sym i j). ring. } split; auto. split; [|split].
  - rewrite (m_det_mk r_ring). f_equal. pose proof (sylvester r_ring N 1 (fun i _ => - (g i * (2 / ip N g g))) (fun _ j => g j)) as Q.
    transitivity (leibniz r_ring N (fun i j => r_add r_ring (if Nat.eqb i j then o_one ro else o_zero ro) (bigsum r_ring 1 (fun k => r_mul r_ring (- (g i * (2 / ip N g g))) (g j))))).
    + apply leibniz_ext. intros i j _ _. cbn. ring.
    + rewrite Q. clear Q I. assert (L : forall A, leibniz r_ring 1 A = A 0%nat 0%nat) by (intros; cbn; ring). rewrite L. change (1 + rsum N (fun k => g k * - (g k * (2 / ip N g g))) = -1). rewrite (rsum_ext _ (fun k => - (2 / ip N g g) * (g k * g k))) by (intros; ring). rewrite rsum_mul_l. fold (ip N g g). field. lra.
  - apply (C33_unique r_field (rect_mk _ _ _) (rect_mk _ _ _)). exists (mk N N (fun i j => dl i j)). rewrite I. split; apply m_one_mk.
  - intros x y Lx Ly. destruct (vk_ex ro x Lx) as (u & ->), (vk_ex ro y Ly) as (v & ->). do 2 eexists. rewrite !dot_v_r by auto. do 2 (split; [reflexivity|]). rewrite !dot_rr by auto. f_equal. rewrite <- (@mirror_ip N g u v C). apply ip_ext; intros; apply mirror_mv; auto.
Qed.
(** and of two different vectors of equal length, the reflection along their difference takes each to the other. *)
Theorem C126_mirror_between : forall N u v w m k, length u = N -> length v = N -> (0 < N)%nat -> l2 u = Ok k -> l2 v = Ok k -> u <> v -> v_sub ro N u v = Ok w -> mirror N w = Ok m ->
  m_dot_v ro N N m u = Ok v /\ m_dot_v ro N N m v = Ok u.
Proof.
  intros N u v w m k Lu Lv HN Ku Kv Huv Hw Hm. destruct (vk_ex ro u Lu) as (f & ->), (vk_ex ro v Lv) as (h & ->). rewrite sub_rr in Hw. apply Ok_inj in Hw. subst w. rewrite mirror_mk in Hm by auto. apply Ok_inj in Hm. subst m. rewrite l2_r in Ku, Kv by auto. rewrite <- Kv in Ku. apply Ok_inj in Ku. apply nv_eq_ip in Ku. rewrite !dot_v_r by auto.
  set (w := fun i => f i - h i) in *. assert (W : ip N w w = 2 * (ip N f f - ip N f h)). { unfold w. rewrite ip_sub_l, !ip_sub_r, (ip_comm N h f), <- Ku. ring. }
  assert (C : ip N w w <> 0). { intros Z. apply Huv. apply vk_ext. intros i Hi. pose proof (@ip_zero _ w Z _ Hi) as Q. unfold w in Q. lra. }
  assert (A : ip N w f = ip N w w / 2). { rewrite W. unfold w. rewrite ip_sub_l, (ip_comm N h f). field. }
  assert (B : ip N w h = - (ip N w w / 2)). { rewrite W. unfold w. rewrite ip_sub_l, <- Ku. field. }
  split; f_equal; apply vk_ext; intros i Hi; rewrite mirror_mv by auto; fold w; rewrite ?A, ?B; set (c := ip N w w) in *; change (w i) with (f i - h i); field; auto.
Qed.

(** * Concrete cases *)
Lemma ok2 : forall a b c d : R, a = c -> b = d -> @Ok (list R) [a; b] = Ok [c; d]. Proof. intros. subst. auto. Qed.
(* the line through [1; 0] and the point [3; 4]: nearest is [3; 0], at distance 4 *)
Example C126_projection_ex : nonzero ro [1; 0] /\ v_dot ro 2 [3; 4] [1; 0] = Ok 3 /\ v_dot ro 2 [1; 0] [1; 0] = Ok 1 /\ v_smul ro [1; 0] (3 / 1) = Ok [3; 0] /\ dist 2 [3; 4] [3; 0] = Ok 4 /\
  dist 2 [3; 4] [0; 0] = Ok 5.
Proof.
  assert (V : forall a b c d, v_dot ro 2 [a; b] [c; d] = Ok (a * c + b * d)) by (intros; change [a; b] with (vk 2 (fun i => nth i [a; b] 0)); change [c; d] with (vk 2 (fun i => nth i [c; d] 0)); rewrite dot_rr by lia; unfold ip, rsum; f_equal; cbn; ring).
  assert (W : forall a b c, v_smul ro [a; b] c = Ok [a * c; b * c]) by reflexivity. assert (D : forall a b c d, dist 2 [a; b] [c; d] = Ok (sqrt ((a - c) * (a - c) + (b - d) * (b - d)))) by (intros; apply l2_2).
  split. { exists 0%nat, 1. split; [reflexivity|]. cbn. lra. } rewrite !V, W, !D. split; [f_equal; ring|]. split; [f_equal; ring|]. split; [apply ok2; field|]. split.
  - f_equal. replace (_ + _) with (4 * 4) by ring. apply sqrt_square. lra.
  - f_equal. replace (_ + _) with (5 * 5) by ring. apply sqrt_square. lra.
Qed.
(* one orthonormal row in the plane *)
Example C126_orthonormal_ex : rect 1 2 [[3 / 5; 4 / 5]] /\ m_transpose 1 2 [[3 / 5; 4 / 5]] = Ok [[3 / 5]; [4 / 5]] /\ m_dot ro 1 2 1 [[3 / 5; 4 / 5]] [[3 / 5]; [4 / 5]] = m_one ro 1.
Proof.
  split. { apply (rect_mk 1 2 (mget ro [[3 / 5; 4 / 5]])). } split. { exact (m_transpose_mk 1 2 (mget ro [[3 / 5; 4 / 5]])). }
  change [[3 / 5; 4 / 5]] with (mk 1 2 (mget ro [[3 / 5; 4 / 5]])). change [[3 / 5]; [4 / 5]] with (mk 2 1 (mget ro [[3 / 5]; [4 / 5]])). rewrite dot_r, m_one_mk by lia. f_equal. apply mk_ext. intros i j Hi Hj. unfold mm, rsum. destruct i, j; try lia. cbn. field.
Qed.
(* the number nearest to 0 and 2 is 1 *)
Example C126_least_squares_ex : let a := [[1]; [1]] in let t := [[1; 1]] in rect 2 1 a /\ m_transpose 2 1 a = Ok t /\ m_dot ro 1 2 1 t a = Ok [[2]] /\ m_det ro 1 [[2]] = Ok 2 /\
  m_dot_v ro 2 1 a [1] = Ok [1; 1] /\ m_dot_v ro 1 2 t [1; 1] = m_dot_v ro 1 2 t [0; 2].
Proof.
  cbn zeta. split. { apply (rect_mk 2 1 (fun _ _ => 1)). } split. { exact (m_transpose_mk 2 1 (fun _ _ => 1)). }
  change [[1]; [1]] with (mk 2 1 (fun _ _ => 1)). change [[1; 1]] with (mk 1 2 (fun _ _ => 1)). change [1; 1] with (vk 2 (fun _ => 1)) at 2. change [0; 2] with (vk 2 (fun i => nth i [0; 2] 0)). change [1] with (vk 1 (fun _ => 1)).
  rewrite dot_r, !dot_v_r by lia. split; [change [[2]] with (mk 1 1 (fun _ _ => 2)); f_equal; apply mk_ext; intros; unfold mm, rsum; cbn; ring|].
  split. { change [[2]] with (mk 1 1 (fun _ _ => 2)). rewrite (m_det_mk r_ring). f_equal. cbn. ring. }
  split. { apply ok2; unfold mv, rsum; cbn; ring. }
  f_equal. apply vk_ext. intros i Hi. unfold mv, rsum. cbn. ring.
Qed.
Example C126_mirror_ex : nonzero ro [1; 0] /\ mirror 2 [1; 0] = Ok [[-1; 0]; [0; 1]] /\ l2 [3; 4] = Ok 5 /\ l2 [4; 3] = Ok 5 /\ v_sub ro 2 [3; 4] [4; 3] = Ok [-1; 1] /\ mirror 2 [-1; 1] = Ok [[0; 1]; [1; 0]].
Proof.
  assert (M : forall a b, mirror 2 [a; b] = Ok (mk 2 2 (fun i j => dl i j - nth i [a; b] 0 * nth j [a; b] 0 * (2 / (a * a + b * b))))).
  { intros. change [a; b] with (vk 2 (fun i => nth i [a; b] 0)). rewrite mirror_mk by lia. f_equal. apply mk_ext. intros i j Hi Hj. replace (ip 2 (fun k => nth k [a; b] 0) (fun k => nth k [a; b] 0)) with (a * a + b * b) by (unfold ip, rsum; cbn; ring). reflexivity. }
  split. { exists 0%nat, 1. split; [reflexivity|]. cbn. lra. } rewrite !M, !l2_2.
  split. { change [[-1; 0]; [0; 1]] with (mk 2 2 (mget ro [[-1; 0]; [0; 1]])). f_equal. apply mk_ext. intros i j Hi Hj. destruct i as [|[|]], j as [|[|]]; try lia; cbn; field. }
  split; [f_equal; replace (_ + _) with (5 * 5) by ring; apply sqrt_square; lra|]. split; [f_equal; replace (_ + _) with (5 * 5) by ring; apply sqrt_square; lra|].
  split. { change (v_sub ro 2 [3; 4] [4; 3]) with (@Ok (list R) [3 - 4; 4 - 3]). apply ok2; ring. }
  change [[0; 1]; [1; 0]] with (mk 2 2 (mget ro [[0; 1]; [1; 0]])). f_equal. apply mk_ext. intros i j Hi Hj. destruct i as [|[|]], j as [|[|]]; try lia; cbn; field.
Qed.

Print Assumptions C126_projection.
Print Assumptions C126_orthonormal.
Print Assumptions C126_exists.
Print Assumptions C126_normal_equations.
Print Assumptions C126_fit_unique.
Print Assumptions C126_independent.
Print Assumptions C126_least_squares.
Print Assumptions C126_mirror.
Print Assumptions C126_mirror_orthogonal.
Print Assumptions C126_mirror_between.
