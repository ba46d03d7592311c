(** C102: rotations and rigid motions.  Every rotation matrix is the matrix of a [Rotation3] (of exactly two, which
    differ in sign) or of exactly one [Rotation2]; every distance- and orientation-preserving map of the space or of
    the plane is a [Chain<Shift, Rotation3>] or [Chain<Shift, Rotation2>]. *)
From Coq Require Import Reals Lra Psatz Field Lia.
From Verif Require Import SpecTransform SpecFacts MFacts AlgFacts CxFacts RealInst RealFacts PropReal PropAlgebra PropSquare PropTransform
  PropToLinear PropComplex PropRot.
Set Implicit Arguments.
Local Open Scope R_scope.
Local Open Scope list_scope.

(** * Specification: maps of R^n (lists of [n] reals) *)
Fixpoint dist2 (x y : list R) : R :=
  match x, y with a :: x', b :: y' => (a - b) * (a - b) + dist2 x' y' | _, _ => 0 end.
(** Distance-preserving. *)
Definition isometry (n : nat) (f : list R -> list R) : Prop :=
  (forall x, length x = n -> length (f x) = n) /\
  (forall x y, length x = n -> length y = n -> dist2 (f x) (f y) = dist2 x y).
(** The signed volume (area) of the edges from [p] to [a], [b], [c]. *)
Definition volume (p a b c : list R) : R :=
  match p, a, b, c with
  | [p1; p2; p3], [a1; a2; a3], [b1; b2; b3], [c1; c2; c3] =>
      (a1 - p1) * ((b2 - p2) * (c3 - p3) - (c2 - p2) * (b3 - p3))
    - (b1 - p1) * ((a2 - p2) * (c3 - p3) - (c2 - p2) * (a3 - p3))
    + (c1 - p1) * ((a2 - p2) * (b3 - p3) - (b2 - p2) * (a3 - p3))
  | _, _, _, _ => 0
  end.
Definition area (p a b : list R) : R :=
  match p, a, b with
  | [p1; p2], [a1; a2], [b1; b2] => (a1 - p1) * (b2 - p2) - (b1 - p1) * (a2 - p2)
  | _, _, _ => 0
  end.
(** It keeps the corner of the unit cube (square) right-handed (counterclockwise). *)
Definition keeps_orientation3 (f : list R -> list R) : Prop := 0 < volume (f [0; 0; 0]) (f [1; 0; 0]) (f [0; 1; 0]) (f [0; 0; 1]).
Definition keeps_orientation2 (f : list R -> list R) : Prop := 0 < area (f [0; 0]) (f [1; 0]) (f [0; 1]).

(** * Three dimensions *)
Lemma sq3 : forall x y z, x * x + y * y + z * z = 0 -> x = 0 /\ y = 0 /\ z = 0.
Proof. intros x y z H. pose proof (Rle_0_sqr x). pose proof (Rle_0_sqr y). pose proof (Rle_0_sqr z). unfold Rsqr in *. repeat split; apply Rsqr_0_uniq; unfold Rsqr; lra. Qed.

(* orthonormal with determinant 1: the third is the cross product of the others *)
Lemma cross_third : forall a1 a2 a3 b1 b2 b3 c1 c2 c3,
  a1 * a1 + a2 * a2 + a3 * a3 = 1 -> b1 * b1 + b2 * b2 + b3 * b3 = 1 -> c1 * c1 + c2 * c2 + c3 * c3 = 1 ->
  a1 * b1 + a2 * b2 + a3 * b3 = 0 ->
  c1 * (a2 * b3 - a3 * b2) + c2 * (a3 * b1 - a1 * b3) + c3 * (a1 * b2 - a2 * b1) = 1 ->
  c1 = a2 * b3 - a3 * b2 /\ c2 = a3 * b1 - a1 * b3 /\ c3 = a1 * b2 - a2 * b1.
Proof.
  intros a1 a2 a3 b1 b2 b3 c1 c2 c3 A B C AB D.
  assert (Z : (c1 - (a2 * b3 - a3 * b2)) * (c1 - (a2 * b3 - a3 * b2)) + (c2 - (a3 * b1 - a1 * b3)) * (c2 - (a3 * b1 - a1 * b3)) +
              (c3 - (a1 * b2 - a2 * b1)) * (c3 - (a1 * b2 - a2 * b1)) = 0).
  { transitivity ((c1 * c1 + c2 * c2 + c3 * c3) - 2 * (c1 * (a2 * b3 - a3 * b2) + c2 * (a3 * b1 - a1 * b3) + c3 * (a1 * b2 - a2 * b1)) +
      ((a1 * a1 + a2 * a2 + a3 * a3) * (b1 * b1 + b2 * b2 + b3 * b3) - (a1 * b1 + a2 * b2 + a3 * b3) * (a1 * b1 + a2 * b2 + a3 * b3))).
    - ring.
    - rewrite A, B, C, AB, D. ring. }
  apply sq3 in Z. lra.
Qed.

(* a 3x3 matrix with columns a, b, c *)
Record so3 (a1 a2 a3 b1 b2 b3 c1 c2 c3 : R) : Prop := {
  so_aa : a1 * a1 + a2 * a2 + a3 * a3 = 1; so_bb : b1 * b1 + b2 * b2 + b3 * b3 = 1; so_cc : c1 * c1 + c2 * c2 + c3 * c3 = 1;
  so_ab : a1 * b1 + a2 * b2 + a3 * b3 = 0; so_bc : b1 * c1 + b2 * c2 + b3 * c3 = 0; so_ca : c1 * a1 + c2 * a2 + c3 * a3 = 0;
  so_det : c1 * (a2 * b3 - a3 * b2) + c2 * (a3 * b1 - a1 * b3) + c3 * (a1 * b2 - a2 * b1) = 1 }.

Lemma so3_quat : forall a1 a2 a3 b1 b2 b3 c1 c2 c3, so3 a1 a2 a3 b1 b2 b3 c1 c2 c3 ->
  exists w i j k, w * w + i * i + j * j + k * k = 1 /\
    a1 = w * w + i * i - j * j - k * k /\ b1 = 2 * (i * j - w * k) /\ c1 = 2 * (i * k + w * j) /\
    a2 = 2 * (i * j + w * k) /\ b2 = w * w - i * i + j * j - k * k /\ c2 = 2 * (j * k - w * i) /\
    a3 = 2 * (i * k - w * j) /\ b3 = 2 * (j * k + w * i) /\ c3 = w * w - i * i - j * j + k * k.
Proof.
  intros a1 a2 a3 b1 b2 b3 c1 c2 c3 [AA BB CC AB BC CA D].
  destruct (@cross_third a1 a2 a3 b1 b2 b3 c1 c2 c3 AA BB CC AB D) as (C1 & C2 & C3).
  destruct (@cross_third b1 b2 b3 c1 c2 c3 a1 a2 a3 BB CC AA BC) as (A1 & A2 & A3); [lra|].
  destruct (@cross_third c1 c2 c3 a1 a2 a3 b1 b2 b3 CC AA BB CA) as (B1 & B2 & B3); [lra|].
  (* rows *)
  assert (R11 : a1 * a1 + b1 * b1 + c1 * c1 = 1). { rewrite A1 at 2. rewrite B1 at 2. rewrite C1 at 2. lra. }
  assert (R22 : a2 * a2 + b2 * b2 + c2 * c2 = 1). { rewrite A2 at 2. rewrite B2 at 2. rewrite C2 at 2. lra. }
  assert (R33 : a3 * a3 + b3 * b3 + c3 * c3 = 1). { rewrite A3 at 2. rewrite B3 at 2. rewrite C3 at 2. lra. }
  assert (R12 : a1 * a2 + b1 * b2 + c1 * c2 = 0). { rewrite A2. rewrite B2. rewrite C2. ring. }
  assert (R23 : a2 * a3 + b2 * b3 + c2 * c3 = 0). { rewrite A3. rewrite B3. rewrite C3. ring. }
  assert (R31 : a3 * a1 + b3 * b1 + c3 * c1 = 0). { rewrite A1. rewrite B1. rewrite C1. ring. }
  (* four times the products of two components *)
  set (WW := 1 + a1 + b2 + c3). set (II := 1 + a1 - b2 - c3). set (JJ := 1 - a1 + b2 - c3). set (KK := 1 - a1 - b2 + c3).
  set (WI := b3 - c2). set (WJ := c1 - a3). set (WK := a2 - b1). set (IJ := a2 + b1). set (IK := c1 + a3). set (JK := b3 + c2).
  assert (S4 : WW + II + JJ + KK = 4) by (unfold WW, II, JJ, KK; ring).
  assert (Build : forall w i j k, w * w = WW / 4 -> i * i = II / 4 -> j * j = JJ / 4 -> k * k = KK / 4 ->
    w * i = WI / 4 -> w * j = WJ / 4 -> w * k = WK / 4 -> i * j = IJ / 4 -> i * k = IK / 4 -> j * k = JK / 4 ->
    exists w i j k, w * w + i * i + j * j + k * k = 1 /\
    a1 = w * w + i * i - j * j - k * k /\ b1 = 2 * (i * j - w * k) /\ c1 = 2 * (i * k + w * j) /\
    a2 = 2 * (i * j + w * k) /\ b2 = w * w - i * i + j * j - k * k /\ c2 = 2 * (j * k - w * i) /\
    a3 = 2 * (i * k - w * j) /\ b3 = 2 * (j * k + w * i) /\ c3 = w * w - i * i - j * j + k * k).
  { intros w i j k ww ii jj kk wi wj wk ij ik jk. exists w, i, j, k. rewrite ww, ii, jj, kk, wi, wj, wk, ij, ik, jk.
    unfold WW, II, JJ, KK, WI, WJ, WK, IJ, IK, JK. lra. }
  assert (Root : forall P, 0 < P -> exists s, s <> 0 /\ s * s = P).
  { intros P HP. exists (sqrt P). split; [apply Rgt_not_eq, sqrt_lt_R0; auto|]. apply sqrt_sqrt. lra. }
  assert (Pos : 0 < WW \/ 0 < II \/ 0 < JJ \/ 0 < KK) by lra.
  assert (Fr : forall s x y P Q, s <> 0 -> s * s = P -> x * y = P * Q -> x / (2 * s) * (y / (2 * s)) = Q / 4).
  { intros s x y P Q H H1 H2. replace (x / (2 * s) * (y / (2 * s))) with (x * y / (4 * (s * s))) by (field; auto). rewrite H2, H1. field. rewrite <- H1. apply Rmult_integral_contrapositive. auto. }
  assert (Fs : forall s x, s <> 0 -> s / 2 * (x / (2 * s)) = x / 4) by (intros; field; auto).
  assert (Fss : forall s P, s * s = P -> s / 2 * (s / 2) = P / 4) by (intros s P <-; field).
  destruct Pos as [P|[P|[P|P]]]; destruct (Root _ P) as (s & Hs & Es).
  - apply (Build (s / 2) (WI / (2 * s)) (WJ / (2 * s)) (WK / (2 * s))); auto; eapply Fr; eauto; unfold WW, II, JJ, KK, WI, WJ, WK, IJ, IK, JK; lra.
  - apply (Build (WI / (2 * s)) (s / 2) (IJ / (2 * s)) (IK / (2 * s))); auto; try (rewrite (Rmult_comm _ (s / 2)); auto; fail); eapply Fr; eauto; unfold WW, II, JJ, KK, WI, WJ, WK, IJ, IK, JK; lra.
  - apply (Build (WJ / (2 * s)) (IJ / (2 * s)) (s / 2) (JK / (2 * s))); auto; try (rewrite (Rmult_comm _ (s / 2)); auto; fail); eapply Fr; eauto; unfold WW, II, JJ, KK, WI, WJ, WK, IJ, IK, JK; lra.
  - apply (Build (WK / (2 * s)) (IK / (2 * s)) (JK / (2 * s)) (s / 2)); auto; try (rewrite (Rmult_comm _ (s / 2)); auto; fail); eapply Fr; eauto; unfold WW, II, JJ, KK, WI, WJ, WK, IJ, IK, JK; lra.
Qed.

(** * Isometries of [N]-space *)
Section Isometry.
  Local Open Scope nat_scope.
  Context (N : nat).
  Local Notation S := (bigsum r_ring N).
  Lemma dist2_vk : forall f g, dist2 (vk N f) (vk N g) = S (fun i => ((f i - g i) * (f i - g i))%R).
  Proof.
    induction N as [|n IH]; intros f g; [reflexivity|]. rewrite !vk_S. cbn [dist2]. rewrite (bigsum_shift r_ring). rewrite IH. reflexivity.
  Qed.
  Lemma S_add : forall f g, S (fun i => (f i + g i)%R) = (S f + S g)%R.
  Proof. exact (bigsum_add r_ring N). Qed.
  Lemma S_mull : forall c f, S (fun i => (c * f i)%R) = (c * S f)%R.
  Proof. exact (bigsum_mul_l r_ring N). Qed.
  Lemma S_swap : forall f, S (fun i => S (fun j => f i j)) = S (fun j => S (fun i => f i j)).
  Proof. exact (bigsum_swap r_ring N N). Qed.
  Lemma S_delta : forall k (f : nat -> R), k < N -> S (fun i => if i =? k then f i else 0%R) = f k.
  Proof. exact (@bigsum_delta R r_ops r_ring N). Qed.

  Context (f : list R -> list R) (Hf : isometry N f).
  Let base (j i : nat) : R := if i =? j then 1%R else 0%R.
  Let o0 : list R := vk N (fun _ => 0%R).
  (* components of f x - f 0 *)
  Let g (x : nat -> R) (i : nat) : R := (nth i (f (vk N x)) 0 - nth i (f o0) 0)%R.
  Lemma f_vk : forall x, f (vk N x) = vk N (fun i => nth i (f (vk N x)) 0%R).
  Proof using Hf. intros x. apply vk_of. apply Hf. apply vk_length. Qed.
  Lemma g_dist : forall x y, S (fun i => ((g x i - g y i) * (g x i - g y i))%R) = S (fun i => ((x i - y i) * (x i - y i))%R).
  Proof using Hf.
    intros x y. rewrite <- (dist2_vk x y). rewrite <- (proj2 Hf (vk N x) (vk N y)) by apply vk_length. rewrite (f_vk x), (f_vk y), dist2_vk.
    apply bigsum_ext. intros i _. unfold g. cbn. ring.
  Qed.
  Lemma g_norm : forall x, S (fun i => (g x i * g x i)%R) = S (fun i => (x i * x i)%R).
  Proof using Hf.
    intros x. transitivity (S (fun i => ((x i - 0) * (x i - 0))%R)).
    - rewrite <- (g_dist x (fun _ => 0%R)). apply bigsum_ext. intros i _. unfold g. fold o0. cbn. ring.
    - apply bigsum_ext. intros i _. cbn. ring.
  Qed.
  Lemma sq_expand : forall a b : nat -> R, S (fun i => ((a i - b i) * (a i - b i))%R) =
    (S (fun i => (a i * a i)%R) + -2 * S (fun i => (a i * b i)%R) + S (fun i => (b i * b i)%R))%R.
  Proof. intros. rewrite <- S_mull, <- !S_add. apply bigsum_ext. intros. cbn. ring. Qed.
  Lemma g_dot : forall x y, S (fun i => (g x i * g y i)%R) = S (fun i => (x i * y i)%R).
  Proof using Hf. intros x y. pose proof (g_dist x y) as D. rewrite !sq_expand, !g_norm in D. lra. Qed.
  Let A (i j : nat) : R := g (base j) i.
  Lemma g_linear : forall x i, i < N -> g x i = S (fun j => (A i j * x j)%R).
  Proof using Hf.
    intros x i Hi. assert (Z : S (fun i => ((g x i - S (fun j => (A i j * x j)%R)) * (g x i - S (fun j => (A i j * x j)%R)))%R) = 0%R).
    { rewrite sq_expand, g_norm.
      assert (E1 : S (fun i => (g x i * S (fun j => (A i j * x j)%R))%R) = S (fun j => (x j * x j)%R)).
      { transitivity (S (fun i => S (fun j => (g x i * (A i j * x j))%R))).
        - apply bigsum_ext. intros. cbn. rewrite S_mull. reflexivity.
        - rewrite S_swap. apply bigsum_ext. intros j Hj. transitivity (x j * S (fun k => (g x k * g (base j) k)%R))%R.
          + rewrite <- S_mull. apply bigsum_ext. intros. unfold A. cbn. ring.
          + rewrite g_dot. f_equal. rewrite <- (S_delta x Hj) at 1. apply bigsum_ext. intros k _. unfold base. destruct (k =? j); cbn; ring. }
      assert (E2 : S (fun i => (S (fun j => (A i j * x j)%R) * S (fun j => (A i j * x j)%R))%R) = S (fun j => (x j * x j)%R)).
      { transitivity (S (fun i => S (fun j => S (fun k => (A i j * x j * (A i k * x k))%R)))).
        - apply bigsum_ext. intros i0 _. rewrite <- (bigsum_mul_r r_ring). apply bigsum_ext. intros j _.
          change (A i0 j * x j * S (fun k => (A i0 k * x k)%R) = S (fun k => (A i0 j * x j * (A i0 k * x k))%R))%R. rewrite S_mull. reflexivity.
        - rewrite S_swap. apply bigsum_ext. intros j Hj. rewrite S_swap.
          transitivity (S (fun k => if k =? j then (x k * x k)%R else 0%R)); [|apply (S_delta (fun k => (x k * x k)%R)); auto].
          apply bigsum_ext. intros k Hk. transitivity (x j * x k * S (fun i => (g (base j) i * g (base k) i)%R))%R.
          + rewrite <- S_mull. apply bigsum_ext. intros. unfold A. cbn. ring.
          + rewrite g_dot. transitivity (x j * x k * base j k)%R; [f_equal|].
            * rewrite <- (S_delta (base j) Hk). apply bigsum_ext. intros i0 _. unfold base. destruct (i0 =? j), (i0 =? k); cbn; ring.
            * unfold base. destruct (Nat.eqb_spec k j); [subst; ring|ring]. }
      rewrite E1, E2. ring. }
    pose proof (@rsum_zero N (fun i => ((g x i - S (fun j => (A i j * x j)%R)) * (g x i - S (fun j => (A i j * x j)%R)))%R)) as Q.
    assert (P : forall i, i < N -> (0 <= (g x i - S (fun j => (A i j * x j)%R)) * (g x i - S (fun j => (A i j * x j)%R)))%R) by (intros; apply Rle_0_sqr).
    specialize (Q P Z i Hi). apply Rsqr_0_uniq in Q. lra.
  Qed.
  Lemma A_ortho : forall j k, j < N -> k < N -> S (fun i => (A i j * A i k)%R) = (if j =? k then 1 else 0)%R.
  Proof using Hf.
    intros j k Hj Hk. unfold A. rewrite g_dot. transitivity (base j k).
    - rewrite <- (S_delta (base j) Hk). apply bigsum_ext. intros i0 _. unfold base. destruct (i0 =? j), (i0 =? k); cbn; ring.
    - unfold base. rewrite Nat.eqb_sym. reflexivity.
  Qed.
  Lemma isometry_affine : 0 < N -> exists s m, length s = N /\ rect N N m /\
    (let! t := m_transpose N N m in m_dot r_ops N N N t m) = m_one r_ops N /\
    s = f (vk N (fun _ => 0%R)) /\ (forall i j, i < N -> j < N -> mget r_ops m i j = (nth i (f (vk N (base j))) 0 - nth i (f o0) 0)%R) /\
    forall x, length x = N -> t_apply (affine_transform r_ops N) (s, m) x = Ok (f x).
  Proof using Hf.
    intros H. exists (f o0), (mk N N A). split; [apply Hf, vk_length|]. split; [apply rect_mk|]. split; [|split; [reflexivity|split]].
    - rewrite m_transpose_mk. cbn [bind]. rewrite (m_dot_mk r_ring), m_one_mk by auto. f_equal. apply mk_ext. intros i j Hi Hj.
      exact (A_ortho Hi Hj).
    - intros. rewrite mget_mk by auto. reflexivity.
    - intros x L. rewrite (@vk_of _ N x 0%R L). set (h := fun i => nth i x 0%R). cbn [t_apply affine_transform chain_transform linear_transform shift_transform fst snd].
      rewrite (m_dot_v_mk r_ring) by auto. cbn [bind]. assert (E0 : f o0 = vk N (fun i => nth i (f o0) 0%R)) by exact (f_vk (fun _ => 0%R)). rewrite E0 at 1. rewrite (v_add_vk r_ring). f_equal. rewrite f_vk. apply vk_ext. intros i Hi.
      pose proof (g_linear h Hi) as G. change (S (fun j => (A i j * h j)%R) + nth i (f o0) 0 = nth i (f (vk N h)) 0)%R. rewrite <- G. unfold g. ring.
  Qed.
End Isometry.

(** The transformation [a] of the kind [t] is the map [f] of [n]-space. *)
Definition is_map {A : Type} (n : nat) (t : Transform (list R) A) (a : A) (f : list R -> list R) : Prop :=
  forall x, length x = n -> t_apply t a x = Ok (f x).
(** The columns of the square matrix [m] are orthonormal. *)
Definition orthogonal (N : nat) (m : list (list R)) : Prop :=
  rect N N m /\ (let! t := m_transpose N N m in m_dot r_ops N N N t m) = m_one r_ops N.

Lemma ortho_entries : forall N m, (0 < N)%nat -> orthogonal N m -> forall j k, (j < N)%nat -> (k < N)%nat ->
  bigsum r_ring N (fun i => mget r_ops m i j * mget r_ops m i k) = if (j =? k)%nat then 1 else 0.
Proof.
  intros N m H (Rm & E) j k Hj Hk. destruct (mk_ex r_ops Rm) as (h & ->). rewrite m_transpose_mk in E. cbn [bind] in E.
  rewrite (m_dot_mk r_ring), m_one_mk in E by auto. apply Ok_inj in E. apply (f_equal (fun v => mget r_ops v j k)) in E. rewrite !mget_mk in E by auto.
  transitivity (bigsum r_ring N (fun i => h i j * h i k)); [|exact E]. apply bigsum_ext. intros i Hi. rewrite !mget_mk by auto. reflexivity.
Qed.

(** ** [Affine]: every distance-preserving map of [N]-space is an [Affine] with an orthogonal matrix, *)
Theorem C102_isometry : forall N f, (0 < N)%nat -> isometry N f ->
  exists s m, length s = N /\ orthogonal N m /\ is_map N (affine_transform r_ops N) (s, m) f.
Proof.
  intros N f H Hf. destruct (isometry_affine Hf H) as (s & m & L & Rm & O & _ & _ & E). exists s, m. split; [auto|]. split; [split; auto|exact E].
Qed.
(** of one only, *)
Theorem C102_isometry_unique : forall N f s m s' m', (0 < N)%nat -> length s = N -> length s' = N -> rect N N m -> rect N N m' ->
  is_map N (affine_transform r_ops N) (s, m) f -> is_map N (affine_transform r_ops N) (s', m') f -> s = s' /\ m = m'.
Proof.
  intros N f s m s' m' H L L' Rm Rm' E E'.
  destruct (mk_ex r_ops Rm) as (h & ->). destruct (mk_ex r_ops Rm') as (h' & ->).
  assert (V : forall s h x, length s = N -> t_apply (affine_transform r_ops N) (s, mk N N h) (vk N x) =
    Ok (vk N (fun i => bigsum r_ring N (fun k => h i k * x k) + nth i s 0))).
  { intros s0 h0 x L0. cbn [t_apply affine_transform chain_transform linear_transform shift_transform fst snd].
    rewrite (m_dot_v_mk r_ring) by auto. cbn [bind]. rewrite (@vk_of _ N s0 0 L0) at 1. rewrite (v_add_vk r_ring). reflexivity. }
  assert (Q : forall x i, (i < N)%nat -> bigsum r_ring N (fun k => h i k * x k) + nth i s 0 = bigsum r_ring N (fun k => h' i k * x k) + nth i s' 0).
  { intros x i Hi. specialize (E (vk N x) (vk_length _ _)). specialize (E' (vk N x) (vk_length _ _)). rewrite V in E, E' by auto.
    rewrite <- E' in E. apply Ok_inj in E. apply (f_equal (fun v => nth i v 0)) in E. rewrite !nth_vk in E by auto. exact E. }
  assert (Es : s = s').
  { rewrite (@vk_of _ N s 0 L), (@vk_of _ N s' 0 L'). apply vk_ext. intros i Hi. pose proof (Q (fun _ => 0) i Hi) as X.
    assert (Z : forall h : nat -> nat -> R, bigsum r_ring N (fun k => h i k * 0) = 0).
    { intros h0. transitivity (bigsum r_ring N (fun _ => 0)); [|apply (bigsum_zero r_ring)]. apply bigsum_ext. intros. ring. }
    rewrite !Z in X. lra. }
  split; auto. apply mk_ext. intros i j Hi Hj. pose proof (Q (fun k => if (k =? j)%nat then 1 else 0) i Hi) as X.
  assert (Z : forall h : nat -> nat -> R, bigsum r_ring N (fun k => h i k * (if (k =? j)%nat then 1 else 0)) = h i j).
  { intros h0. rewrite <- (S_delta (fun k => h0 i k) Hj). apply bigsum_ext. intros k _. destruct (k =? j)%nat; ring. }
  rewrite !Z, Es in X. lra.
Qed.
(** and every such [Affine] is one. *)
Theorem C102_isometry_conv : forall N f s m, (0 < N)%nat -> length s = N -> orthogonal N m ->
  is_map N (affine_transform r_ops N) (s, m) f -> isometry N f.
Proof.
  intros N f s m H L O E. pose proof (ortho_entries H O) as D. destruct O as (Rm & _). destruct (mk_ex r_ops Rm) as (h & ->).
  assert (V : forall x, f (vk N x) = vk N (fun i => bigsum r_ring N (fun k => h i k * x k) + nth i s 0)).
  { intros x. specialize (E (vk N x) (vk_length _ _)). cbn [t_apply affine_transform chain_transform linear_transform shift_transform fst snd] in E.
    rewrite (m_dot_v_mk r_ring) in E by auto. cbn [bind] in E. rewrite (@vk_of _ N s 0 L) in E at 1. rewrite (v_add_vk r_ring) in E. apply Ok_inj in E. rewrite <- E. reflexivity. }
  split.
  - intros x Lx. rewrite (@vk_of _ N x 0 Lx), V. apply vk_length.
  - intros x y Lx Ly. rewrite (@vk_of _ N x 0 Lx), (@vk_of _ N y 0 Ly), !V, !dist2_vk. set (z := fun i => nth i x 0 - nth i y 0).
    transitivity (bigsum r_ring N (fun i => bigsum r_ring N (fun k => h i k * z k) * bigsum r_ring N (fun k => h i k * z k))).
    { apply bigsum_ext. intros i Hi.
      assert (Z : bigsum r_ring N (fun k => h i k * nth k x 0) + nth i s 0 - (bigsum r_ring N (fun k => h i k * nth k y 0) + nth i s 0) = bigsum r_ring N (fun k => h i k * z k)).
      { transitivity (bigsum r_ring N (fun k => h i k * nth k x 0) + -1 * bigsum r_ring N (fun k => h i k * nth k y 0)); [ring|]. rewrite <- S_mull, <- S_add.
        apply bigsum_ext. intros. unfold z. cbn. ring. }
      rewrite <- !Z. reflexivity. }
    transitivity (bigsum r_ring N (fun i => bigsum r_ring N (fun j => bigsum r_ring N (fun k => h i j * z j * (h i k * z k))))).
    { apply bigsum_ext. intros i _. rewrite <- (bigsum_mul_r r_ring). apply bigsum_ext. intros j _.
      change (h i j * z j * bigsum r_ring N (fun k => h i k * z k) = bigsum r_ring N (fun k => h i j * z j * (h i k * z k))). rewrite S_mull. reflexivity. }
    rewrite S_swap. apply bigsum_ext. intros j Hj. rewrite S_swap.
    transitivity (bigsum r_ring N (fun k => if (k =? j)%nat then z k * z k else 0)); [|apply (S_delta (fun k => z k * z k)); auto].
    apply bigsum_ext. intros k Hk. transitivity (z j * z k * bigsum r_ring N (fun i => h i j * h i k)).
    { rewrite <- S_mull. apply bigsum_ext. intros. cbn. ring. }
    pose proof (D j k Hj Hk) as X. replace (bigsum r_ring N (fun i => h i j * h i k)) with (if (j =? k)%nat then 1 else 0).
    { rewrite Nat.eqb_sym. destruct (Nat.eqb_spec k j); [subst; ring|ring]. }
    rewrite <- X. apply bigsum_ext. intros i Hi. rewrite !mget_mk by auto. reflexivity.
Qed.

(** ** [Rotation3]: a matrix is the matrix of a unit [Rotation3] iff it is a rotation matrix, *)
Lemma list3 : forall A (l : list A), length l = 3%nat -> exists a b c, l = [a; b; c].
Proof. intros A l H. destruct l as [|a [|b [|c [|d l]]]]; try discriminate. eauto. Qed.
Lemma list2 : forall A (l : list A), length l = 2%nat -> exists a b, l = [a; b].
Proof. intros A l H. destruct l as [|a [|b [|c l]]]; try discriminate. eauto. Qed.
Lemma mat3 : forall m : list (list R), rect 3 3 m -> exists a1 a2 a3 b1 b2 b3 c1 c2 c3, m = [[a1; b1; c1]; [a2; b2; c2]; [a3; b3; c3]].
Proof.
  intros m (L & F). apply list3 in L as (u & v & w & ->). rewrite !Forall_cons_iff in F. destruct F as (H1 & H2 & H3 & _).
  apply list3 in H1 as (? & ? & ? & ->), H2 as (? & ? & ? & ->), H3 as (? & ? & ? & ->). repeat eexists.
Qed.
Lemma mat2 : forall m : list (list R), rect 2 2 m -> exists a1 a2 b1 b2, m = [[a1; b1]; [a2; b2]].
Proof.
  intros m (L & F). apply list2 in L as (u & v & ->). rewrite !Forall_cons_iff in F. destruct F as (H1 & H2 & _).
  apply list2 in H1 as (? & ? & ->), H2 as (? & ? & ->). repeat eexists.
Qed.
Lemma ortho3 : forall a1 a2 a3 b1 b2 b3 c1 c2 c3, orthogonal 3 [[a1; b1; c1]; [a2; b2; c2]; [a3; b3; c3]] ->
  a1 * a1 + a2 * a2 + a3 * a3 = 1 /\ b1 * b1 + b2 * b2 + b3 * b3 = 1 /\ c1 * c1 + c2 * c2 + c3 * c3 = 1 /\
  a1 * b1 + a2 * b2 + a3 * b3 = 0 /\ b1 * c1 + b2 * c2 + b3 * c3 = 0 /\ c1 * a1 + c2 * a2 + c3 * a3 = 0.
Proof.
  intros until c3. intros O. pose proof (ortho_entries (Nat.lt_0_succ 2) O) as D.
  pose proof (D 0%nat 0%nat ltac:(lia) ltac:(lia)) as D1. pose proof (D 1%nat 1%nat ltac:(lia) ltac:(lia)) as D2. pose proof (D 2%nat 2%nat ltac:(lia) ltac:(lia)) as D3.
  pose proof (D 0%nat 1%nat ltac:(lia) ltac:(lia)) as D4. pose proof (D 1%nat 2%nat ltac:(lia) ltac:(lia)) as D5. pose proof (D 2%nat 0%nat ltac:(lia) ltac:(lia)) as D6.
  cbn in D1, D2, D3, D4, D5, D6. lra.
Qed.
Lemma ortho2 : forall a1 a2 b1 b2, orthogonal 2 [[a1; b1]; [a2; b2]] -> a1 * a1 + a2 * a2 = 1 /\ b1 * b1 + b2 * b2 = 1 /\ a1 * b1 + a2 * b2 = 0.
Proof.
  intros until b2. intros O. pose proof (ortho_entries (Nat.lt_0_succ 1) O) as D.
  pose proof (D 0%nat 0%nat ltac:(lia) ltac:(lia)) as D1. pose proof (D 1%nat 1%nat ltac:(lia) ltac:(lia)) as D2. pose proof (D 0%nat 1%nat ltac:(lia) ltac:(lia)) as D4.
  cbn in D1, D2, D4. lra.
Qed.
Lemma two_r : forall eps, o_add r_ops (o_one r_ops) (o_one r_ops) = Ok (f_two (r_float eps)).
Proof. intros. cbn. unfold ok2. f_equal; lra. Qed.
Theorem C102_rot3_matrix : forall eps m, orthogonal 3 m -> m_det r_ops 3 m = Ok 1 ->
  exists r, unit_q r_ops r /\ rot3_to_linear r_ops (r_float eps) r = Ok m.
Proof.
  intros eps m O D. destruct (mat3 (proj1 O)) as (a1 & a2 & a3 & b1 & b2 & b3 & c1 & c2 & c3 & ->). pose proof (ortho3 O) as (AA & BB & CC & AB & BC & CA).
  rewrite (m_det_33 r_ring) in D. apply Ok_inj in D. cbn in D.
  destruct (@so3_quat a1 a2 a3 b1 b2 b3 c1 c2 c3) as (w & i & j & k & U & E1 & E2 & E3 & E4 & E5 & E6 & E7 & E8 & E9).
  { constructor; auto. lra. }
  exists (Qt w i j k). split; [apply unit_q_r; auto|]. rewrite (rot3_to_linear_unit r_ring (r_float eps) (two_r eps)) by exact U.
  rewrite E1, E2, E3, E4, E5, E6, E7, E8, E9. f_equal. cbn. listeq; ring.
Qed.
(** of that [Rotation3] and its negation only. *)
Lemma quat_sign : forall w i j k w' i' j' k', w * w + i * i + j * j + k * k = 1 -> w' * w' + i' * i' + j' * j' + k' * k' = 1 ->
  w * w + i * i - j * j - k * k = w' * w' + i' * i' - j' * j' - k' * k' -> w * w - i * i + j * j - k * k = w' * w' - i' * i' + j' * j' - k' * k' ->
  w * w - i * i - j * j + k * k = w' * w' - i' * i' - j' * j' + k' * k' ->
  i * j - w * k = i' * j' - w' * k' -> i * j + w * k = i' * j' + w' * k' -> i * k + w * j = i' * k' + w' * j' -> i * k - w * j = i' * k' - w' * j' ->
  j * k - w * i = j' * k' - w' * i' -> j * k + w * i = j' * k' + w' * i' ->
  Qt w' i' j' k' = Qt w i j k \/ Qt w' i' j' k' = Qt (- w) (- i) (- j) (- k).
Proof.
  intros w i j k w' i' j' k' U U' H1 H2 H3 H4 H5 H6 H7 H8 H9.
  set (d := w * w' + i * i' + j * j' + k * k').
  assert (Ew : w' * w' = w * w) by lra. assert (Ei : i' * i' = i * i) by lra. assert (Ej : j' * j' = j * j) by lra. assert (Ek : k' * k' = k * k) by lra.
  assert (E1 : w' * i' = w * i) by lra. assert (E2 : w' * j' = w * j) by lra. assert (E3 : w' * k' = w * k) by lra.
  assert (E4 : i' * j' = i * j) by lra. assert (E5 : i' * k' = i * k) by lra. assert (E6 : j' * k' = j * k) by lra.
  assert (D : d * d = 1).
  { transitivity ((w * w) * (w' * w') + (i * i) * (i' * i') + (j * j) * (j' * j') + (k * k) * (k' * k') +
      2 * ((w * i) * (w' * i') + (w * j) * (w' * j') + (w * k) * (w' * k') + (i * j) * (i' * j') + (i * k) * (i' * k') + (j * k) * (j' * k'))).
    - unfold d. ring.
    - rewrite Ew, Ei, Ej, Ek, E1, E2, E3, E4, E5, E6. transitivity ((w * w + i * i + j * j + k * k) * (w * w + i * i + j * j + k * k)); [ring|]. rewrite U. ring. }
  assert (Z4 : forall a b c e, a * a + b * b + c * c + e * e = 0 -> a = 0 /\ b = 0 /\ c = 0 /\ e = 0).
  { intros a b c e H. pose proof (Rle_0_sqr a). pose proof (Rle_0_sqr b). pose proof (Rle_0_sqr c). pose proof (Rle_0_sqr e). unfold Rsqr in *. repeat split; apply Rsqr_0_uniq; unfold Rsqr; lra. }
  assert (P : d = 1 \/ d = -1). { assert (Q : (d - 1) * (d + 1) = 0) by lra. apply Rmult_integral in Q. lra. }
  destruct P as [P|P]; [left|right].
  - destruct (Z4 (w' - w) (i' - i) (j' - j) (k' - k)); [|f_equal; lra]. transitivity ((w * w + i * i + j * j + k * k) + (w' * w' + i' * i' + j' * j' + k' * k') - 2 * d); [unfold d; ring|lra].
  - destruct (Z4 (w' + w) (i' + i) (j' + j) (k' + k)); [|f_equal; lra]. transitivity ((w * w + i * i + j * j + k * k) + (w' * w' + i' * i' + j' * j' + k' * k') + 2 * d); [unfold d; ring|lra].
Qed.
Theorem C102_rot3_unique : forall r r' : quat R, unit_q r_ops r -> unit_q r_ops r' ->
  (forall x, length x = 3%nat -> t_apply (rot3_transform r_ops) r' x = t_apply (rot3_transform r_ops) r x) ->
  Ok r' = Ok r \/ Ok r' = q_neg r_ops r.
Proof.
  intros [w i j k] [w' i' j' k'] U U' H. apply unit_q_r in U, U'. rewrite (q_neg_v r_ring).
  pose proof (H [1; 0; 0] eq_refl) as X1. pose proof (H [0; 1; 0] eq_refl) as X2. pose proof (H [0; 0; 1] eq_refl) as X3. rewrite !(rot3_apply_v r_ring) in X1, X2, X3.
  apply Ok_inj in X1, X2, X3. cbn in X1, X2, X3.
  assert (I3 : forall a b c a' b' c' : R, [a; b; c] = [a'; b'; c'] -> a = a' /\ b = b' /\ c = c') by (intros; inversion H0; auto).
  apply I3 in X1 as (? & ? & ?), X2 as (? & ? & ?), X3 as (? & ? & ?).
  destruct (@quat_sign w i j k w' i' j' k'); auto; try lra; rewrite H9; [left|right]; reflexivity.
Qed.

(** ** Rigid motions of the space: the maps that keep distances and orientation are the [Chain<Shift, Rotation3>], *)
Lemma rigid3_v : forall s1 s2 s3 w i j k x y z, t_apply (rigid3_transform r_ops) ([s1; s2; s3], Qt w i j k) [x; y; z] = Ok
  [ (w * w + i * i - j * j - k * k) * x + ((i * j - w * k) + (i * j - w * k)) * y + ((i * k + w * j) + (i * k + w * j)) * z + s1;
    ((i * j + w * k) + (i * j + w * k)) * x + (w * w - i * i + j * j - k * k) * y + ((j * k - w * i) + (j * k - w * i)) * z + s2;
    ((i * k - w * j) + (i * k - w * j)) * x + ((j * k + w * i) + (j * k + w * i)) * y + (w * w - i * i - j * j + k * k) * z + s3 ].
Proof.
  intros. unfold rigid3_transform. cbn [t_apply chain_transform fst snd]. rewrite (rot3_apply_v r_ring). cbn [bind].
  cbn [t_apply shift_transform]. rewrite (v_add_3 r_ring). reflexivity.
Qed.
Lemma affine3_v : forall s1 s2 s3 a1 a2 a3 b1 b2 b3 c1 c2 c3 x y z,
  t_apply (affine_transform r_ops 3) ([s1; s2; s3], [[a1; b1; c1]; [a2; b2; c2]; [a3; b3; c3]]) [x; y; z] = Ok
  [a1 * x + b1 * y + c1 * z + s1; a2 * x + b2 * y + c2 * z + s2; a3 * x + b3 * y + c3 * z + s3].
Proof.
  intros. unfold affine_transform. cbn [t_apply chain_transform linear_transform shift_transform fst snd]. rewrite (m_dot_v_33 r_ring). cbn [bind].
  rewrite (v_add_3 r_ring). reflexivity.
Qed.
(* an isometry of the space, by its columns *)
Lemma isometry3 : forall f, isometry 3 f -> exists s1 s2 s3 a1 a2 a3 b1 b2 b3 c1 c2 c3,
  (a1 * a1 + a2 * a2 + a3 * a3 = 1 /\ b1 * b1 + b2 * b2 + b3 * b3 = 1 /\ c1 * c1 + c2 * c2 + c3 * c3 = 1 /\
   a1 * b1 + a2 * b2 + a3 * b3 = 0 /\ b1 * c1 + b2 * c2 + b3 * c3 = 0 /\ c1 * a1 + c2 * a2 + c3 * a3 = 0) /\
  (forall x y z, f [x; y; z] = [a1 * x + b1 * y + c1 * z + s1; a2 * x + b2 * y + c2 * z + s2; a3 * x + b3 * y + c3 * z + s3]) /\
  let d := c1 * (a2 * b3 - a3 * b2) + c2 * (a3 * b1 - a1 * b3) + c3 * (a1 * b2 - a2 * b1) in
  d * d = 1 /\ volume (f [0; 0; 0]) (f [1; 0; 0]) (f [0; 1; 0]) (f [0; 0; 1]) = d.
Proof.
  intros f Hf. destruct (@C102_isometry 3 f ltac:(lia) Hf) as (s & m & L & O & E). apply list3 in L as (s1 & s2 & s3 & ->).
  destruct (mat3 (proj1 O)) as (a1 & a2 & a3 & b1 & b2 & b3 & c1 & c2 & c3 & ->). pose proof (ortho3 O) as D. exists s1, s2, s3, a1, a2, a3, b1, b2, b3, c1, c2, c3.
  split; [exact D|].
  assert (V : forall x y z, f [x; y; z] = [a1 * x + b1 * y + c1 * z + s1; a2 * x + b2 * y + c2 * z + s2; a3 * x + b3 * y + c3 * z + s3]).
  { intros. specialize (E [x; y; z] eq_refl). rewrite affine3_v in E. apply Ok_inj in E. auto. }
  split; [exact V|]. split.
  - destruct D as (AA & BB & CC & AB & BC & CA).
    transitivity ((a1 * a1 + a2 * a2 + a3 * a3) * ((b1 * b1 + b2 * b2 + b3 * b3) * (c1 * c1 + c2 * c2 + c3 * c3) - (b1 * c1 + b2 * c2 + b3 * c3) * (b1 * c1 + b2 * c2 + b3 * c3))
      - (a1 * b1 + a2 * b2 + a3 * b3) * ((a1 * b1 + a2 * b2 + a3 * b3) * (c1 * c1 + c2 * c2 + c3 * c3) - (b1 * c1 + b2 * c2 + b3 * c3) * (c1 * a1 + c2 * a2 + c3 * a3))
      + (c1 * a1 + c2 * a2 + c3 * a3) * ((a1 * b1 + a2 * b2 + a3 * b3) * (b1 * c1 + b2 * c2 + b3 * c3) - (b1 * b1 + b2 * b2 + b3 * b3) * (c1 * a1 + c2 * a2 + c3 * a3))).
    + ring.
    + rewrite AA, BB, CC, AB, BC, CA. ring.
  - rewrite !V. unfold volume. ring.
Qed.
Theorem C102_motion3 : forall f, isometry 3 f -> keeps_orientation3 f ->
  exists s r, length s = 3%nat /\ unit_q r_ops r /\ is_map 3 (rigid3_transform r_ops) (s, r) f.
Proof.
  intros f Hf K. destruct (isometry3 Hf) as (s1 & s2 & s3 & a1 & a2 & a3 & b1 & b2 & b3 & c1 & c2 & c3 & (AA & BB & CC & AB & BC & CA) & V & DD & Vol).
  unfold keeps_orientation3 in K. rewrite Vol in K. set (d := c1 * (a2 * b3 - a3 * b2) + c2 * (a3 * b1 - a1 * b3) + c3 * (a1 * b2 - a2 * b1)) in *.
  assert (D1 : d = 1). { assert (Q : (d - 1) * (d + 1) = 0) by lra. apply Rmult_integral in Q. lra. }
  destruct (@so3_quat a1 a2 a3 b1 b2 b3 c1 c2 c3) as (w & i & j & k & U & E1 & E2 & E3 & E4 & E5 & E6 & E7 & E8 & E9).
  { constructor; auto. }
  exists [s1; s2; s3], (Qt w i j k). split; [reflexivity|]. split; [apply unit_q_r; auto|]. intros x L. apply list3 in L as (x1 & x2 & x3 & ->).
  rewrite rigid3_v, V, E1, E2, E3, E4, E5, E6, E7, E8, E9. f_equal. listeq; ring.
Qed.
(** and nothing else, *)
Theorem C102_motion3_conv : forall f s r, length s = 3%nat -> unit_q r_ops r -> is_map 3 (rigid3_transform r_ops) (s, r) f ->
  isometry 3 f /\ keeps_orientation3 f.
Proof.
  intros f s [w i j k] L U E. apply unit_q_r in U. apply list3 in L as (s1 & s2 & s3 & ->).
  pose proof (fun x y z => eq_trans (eq_sym (E [x; y; z] eq_refl)) (rigid3_v s1 s2 s3 w i j k x y z)) as V.
  set (n := w * w + i * i + j * j + k * k) in U.
  split; [split|].
  - intros x L. apply list3 in L as (x1 & x2 & x3 & ->). specialize (V x1 x2 x3). apply Ok_inj in V. rewrite V. reflexivity.
  - intros x y L L'. apply list3 in L as (x1 & x2 & x3 & ->). apply list3 in L' as (y1 & y2 & y3 & ->).
    pose proof (V x1 x2 x3) as X. pose proof (V y1 y2 y3) as Y. apply Ok_inj in X, Y. rewrite X, Y. cbn [dist2].
    transitivity (n * n * ((x1 - y1) * (x1 - y1) + ((x2 - y2) * (x2 - y2) + ((x3 - y3) * (x3 - y3) + 0)))); [unfold n; ring|rewrite U; ring].
  - unfold keeps_orientation3. pose proof (V 0 0 0) as X0. pose proof (V 1 0 0) as X1. pose proof (V 0 1 0) as X2. pose proof (V 0 0 1) as X3.
    apply Ok_inj in X0, X1, X2, X3. rewrite X0, X1, X2, X3. unfold volume.
    match goal with |- 0 < ?e => replace e with (n * n * n); [rewrite U; lra|unfold n; ring] end.
Qed.
(** each for exactly one shift and, up to sign, exactly one rotation. *)
Theorem C102_motion3_unique : forall f s r s' r', length s = 3%nat -> length s' = 3%nat -> unit_q r_ops r -> unit_q r_ops r' ->
  is_map 3 (rigid3_transform r_ops) (s, r) f -> is_map 3 (rigid3_transform r_ops) (s', r') f ->
  s' = s /\ (Ok r' = Ok r \/ Ok r' = q_neg r_ops r).
Proof.
  intros f s r s' r' L L' U U' E E'. apply list3 in L as (s1 & s2 & s3 & ->). apply list3 in L' as (s1' & s2' & s3' & ->).
  assert (Q : forall x y z, t_apply (rigid3_transform r_ops) ([s1'; s2'; s3'], r') [x; y; z] = t_apply (rigid3_transform r_ops) ([s1; s2; s3], r) [x; y; z]).
  { intros. rewrite E, E' by reflexivity. reflexivity. }
  assert (I3 : forall a b c a' b' c' : R, Ok [a; b; c] = Ok [a'; b'; c'] -> a = a' /\ b = b' /\ c = c') by (intros; inversion H; auto).
  destruct r as [w i j k], r' as [w' i' j' k'].
  pose proof (Q 0 0 0) as Q0. rewrite !rigid3_v in Q0. apply I3 in Q0 as (Z1 & Z2 & Z3).
  assert (S1 : s1' = s1) by lra. assert (S2 : s2' = s2) by lra. assert (S3 : s3' = s3) by lra. split; [congruence|].
  apply C102_rot3_unique; auto. intros x L. apply list3 in L as (x1 & x2 & x3 & ->). specialize (Q x1 x2 x3). rewrite !rigid3_v in Q. apply I3 in Q as (Y1 & Y2 & Y3).
  rewrite !(rot3_apply_v r_ring). f_equal. cbn. listeq; lra.
Qed.
(** The other isometries are the same maps after [Scale(-1)]. *)
Theorem C102_mirror3 : forall f inv, isometry 3 f -> ~ keeps_orientation3 f ->
  exists s r, length s = 3%nat /\ unit_q r_ops r /\
    forall x, length x = 3%nat -> (let! y := t_apply (scale_transform r_ops inv) (-1) x in t_apply (rigid3_transform r_ops) (s, r) y) = Ok (f x).
Proof.
  intros f inv Hf K. destruct (isometry3 Hf) as (s1 & s2 & s3 & a1 & a2 & a3 & b1 & b2 & b3 & c1 & c2 & c3 & (AA & BB & CC & AB & BC & CA) & V & DD & Vol).
  unfold keeps_orientation3 in K. rewrite Vol in K. set (d := c1 * (a2 * b3 - a3 * b2) + c2 * (a3 * b1 - a1 * b3) + c3 * (a1 * b2 - a2 * b1)) in *.
  assert (D1 : d = -1). { assert (Q : (d - 1) * (d + 1) = 0) by lra. apply Rmult_integral in Q. lra. }
  destruct (@so3_quat (- a1) (- a2) (- a3) (- b1) (- b2) (- b3) (- c1) (- c2) (- c3)) as (w & i & j & k & U & E1 & E2 & E3 & E4 & E5 & E6 & E7 & E8 & E9).
  { constructor; try lra. transitivity (- d); [unfold d; ring|lra]. }
  exists [s1; s2; s3], (Qt w i j k). split; [reflexivity|]. split; [apply unit_q_r; auto|]. intros x L. apply list3 in L as (x1 & x2 & x3 & ->).
  cbn [t_apply scale_transform]. rewrite (v_smul_3 r_ring). cbn [bind]. change (r_mul r_ring) with Rmult. rewrite rigid3_v, V. f_equal.
  rewrite <- (Ropp_involutive a1), <- (Ropp_involutive a2), <- (Ropp_involutive a3), <- (Ropp_involutive b1), <- (Ropp_involutive b2), <- (Ropp_involutive b3),
    <- (Ropp_involutive c1), <- (Ropp_involutive c2), <- (Ropp_involutive c3), E1, E2, E3, E4, E5, E6, E7, E8, E9. listeq; ring.
Qed.

(** ** Rigid motions of the plane *)
Lemma so2 : forall a1 a2 b1 b2, a1 * a1 + a2 * a2 = 1 -> b1 * b1 + b2 * b2 = 1 -> a1 * b1 + a2 * b2 = 0 ->
  let d := a1 * b2 - b1 * a2 in d * d = 1 /\ b1 = - d * a2 /\ b2 = d * a1.
Proof.
  intros a1 a2 b1 b2 A B AB d.
  assert (D : d * d = 1). { transitivity ((a1 * a1 + a2 * a2) * (b1 * b1 + b2 * b2) - (a1 * b1 + a2 * b2) * (a1 * b1 + a2 * b2)); [unfold d; ring|rewrite A, B, AB; ring]. }
  split; auto. split.
  - transitivity ((a1 * a1 + a2 * a2) * b1 - a1 * (a1 * b1 + a2 * b2)); [rewrite A, AB; ring|]. unfold d. ring.
  - transitivity ((a1 * a1 + a2 * a2) * b2 - a2 * (a1 * b1 + a2 * b2)); [rewrite A, AB; ring|]. unfold d. ring.
Qed.
Theorem C102_rot2_matrix : forall m, orthogonal 2 m -> m_det r_ops 2 m = Ok 1 -> exists r, unit_c r_ops r /\ rot2_to_linear r_ops r = Ok m.
Proof.
  intros m O D. destruct (mat2 (proj1 O)) as (a1 & a2 & b1 & b2 & ->). pose proof (ortho2 O) as (A & B & AB).
  rewrite (m_det_22 r_ring) in D. apply Ok_inj in D. change (a1 * b2 - b1 * a2 = 1) in D. destruct (so2 A B AB) as (_ & E1 & E2). rewrite D in E1, E2.
  exists (Cx a1 a2). split; [apply unit_c_r; auto|]. rewrite (rot2_to_linear_v r_ring). f_equal. change (r_opp r_ring) with Ropp. listeq; lra.
Qed.
Lemma rigid2_v : forall s1 s2 c s x y, t_apply (rigid2_transform r_ops) ([s1; s2], Cx c s) [x; y] = Ok [x * c - y * s + s1; x * s + y * c + s2].
Proof.
  intros. unfold rigid2_transform. cbn [t_apply chain_transform fst snd]. rewrite (rot2_apply_v r_ring). cbn [bind t_apply shift_transform]. rewrite (v_add_2 r_ring). reflexivity.
Qed.
Lemma isometry2 : forall f, isometry 2 f -> exists s1 s2 a1 a2 d, a1 * a1 + a2 * a2 = 1 /\ (d = 1 \/ d = -1) /\
  (forall x y, f [x; y] = [a1 * x - d * a2 * y + s1; a2 * x + d * a1 * y + s2]) /\ area (f [0; 0]) (f [1; 0]) (f [0; 1]) = d.
Proof.
  intros f Hf. destruct (@C102_isometry 2 f ltac:(lia) Hf) as (s & m & L & O & E). apply list2 in L as (s1 & s2 & ->).
  destruct (mat2 (proj1 O)) as (a1 & a2 & b1 & b2 & ->). pose proof (ortho2 O) as (A & B & AB). destruct (so2 A B AB) as (D & E1 & E2). revert D E1 E2. generalize (a1 * b2 - b1 * a2). intros d D E1 E2.
  exists s1, s2, a1, a2, d. split; auto. split. { assert (Q : (d - 1) * (d + 1) = 0) by lra. apply Rmult_integral in Q. lra. }
  assert (V : forall x y, f [x; y] = [a1 * x - d * a2 * y + s1; a2 * x + d * a1 * y + s2]).
  { intros. specialize (E [x; y] eq_refl). unfold affine_transform in E. cbn [t_apply chain_transform linear_transform shift_transform fst snd] in E.
    rewrite (m_dot_v_22 r_ring) in E. cbn [bind] in E. rewrite (v_add_2 r_ring) in E. apply Ok_inj in E. rewrite <- E. cbn. rewrite E1 at 1. rewrite E2 at 1. listeq; ring. }
  split; auto. rewrite !V. unfold area. transitivity (d * (a1 * a1 + a2 * a2)); [ring|rewrite A; ring].
Qed.
Theorem C102_motion2 : forall f, isometry 2 f -> keeps_orientation2 f ->
  exists s r, length s = 2%nat /\ unit_c r_ops r /\ is_map 2 (rigid2_transform r_ops) (s, r) f.
Proof.
  intros f Hf K. destruct (isometry2 Hf) as (s1 & s2 & a1 & a2 & d & A & D & V & Ar). unfold keeps_orientation2 in K. rewrite Ar in K. clear Ar.
  assert (Ed : d = 1) by lra. subst d. exists [s1; s2], (Cx a1 a2). split; [reflexivity|]. split; [apply unit_c_r; auto|]. intros x L. apply list2 in L as (x1 & x2 & ->).
  rewrite rigid2_v, V. f_equal. listeq; ring.
Qed.
Theorem C102_motion2_conv : forall f s r, length s = 2%nat -> unit_c r_ops r -> is_map 2 (rigid2_transform r_ops) (s, r) f ->
  isometry 2 f /\ keeps_orientation2 f.
Proof.
  intros f s [c t] L U E. apply unit_c_r in U. apply list2 in L as (s1 & s2 & ->).
  pose proof (fun x y => eq_trans (eq_sym (E [x; y] eq_refl)) (rigid2_v s1 s2 c t x y)) as V. split; [split|].
  - intros x L. apply list2 in L as (x1 & x2 & ->). specialize (V x1 x2). apply Ok_inj in V. rewrite V. reflexivity.
  - intros x y L L'. apply list2 in L as (x1 & x2 & ->). apply list2 in L' as (y1 & y2 & ->).
    pose proof (V x1 x2) as X. pose proof (V y1 y2) as Y. apply Ok_inj in X, Y. rewrite X, Y. cbn [dist2].
    transitivity ((c * c + t * t) * ((x1 - y1) * (x1 - y1) + ((x2 - y2) * (x2 - y2) + 0))); [ring|rewrite U; ring].
  - unfold keeps_orientation2. pose proof (V 0 0) as X0. pose proof (V 1 0) as X1. pose proof (V 0 1) as X2.
    apply Ok_inj in X0, X1, X2. rewrite X0, X1, X2. unfold area.
    match goal with |- 0 < ?e => replace e with (c * c + t * t); [rewrite U; lra|ring] end.
Qed.
Theorem C102_motion2_unique : forall f s r s' r', length s = 2%nat -> length s' = 2%nat ->
  is_map 2 (rigid2_transform r_ops) (s, r) f -> is_map 2 (rigid2_transform r_ops) (s', r') f -> s' = s /\ r' = r.
Proof.
  intros f s [c t] s' [c' t'] L L' E E'. apply list2 in L as (s1 & s2 & ->). apply list2 in L' as (s1' & s2' & ->).
  assert (I2 : forall a b a' b' : R, Ok [a; b] = Ok [a'; b'] -> a = a' /\ b = b') by (intros; inversion H; auto).
  assert (Q : forall x y, Ok [x * c' - y * t' + s1'; x * t' + y * c' + s2'] = Ok [x * c - y * t + s1; x * t + y * c + s2]).
  { intros. rewrite <- !rigid2_v, E, E' by reflexivity. reflexivity. }
  pose proof (I2 _ _ _ _ (Q 0 0)). pose proof (I2 _ _ _ _ (Q 1 0)). assert (s1' = s1) by lra. assert (s2' = s2) by lra. assert (c' = c) by lra. assert (t' = t) by lra. subst. auto.
Qed.
(** The other isometries of the plane are the same maps after the mirror image in the x axis. *)
Theorem C102_mirror2 : forall f, isometry 2 f -> ~ keeps_orientation2 f ->
  exists s r, length s = 2%nat /\ unit_c r_ops r /\
    forall x y, (let! p := t_apply (linear_transform r_ops 2) [[1; 0]; [0; -1]] [x; y] in t_apply (rigid2_transform r_ops) (s, r) p) = Ok (f [x; y]).
Proof.
  intros f Hf K. destruct (isometry2 Hf) as (s1 & s2 & a1 & a2 & d & A & D & V & Ar). unfold keeps_orientation2 in K. rewrite Ar in K. clear Ar.
  assert (Ed : d = -1) by lra. subst d. exists [s1; s2], (Cx a1 a2). split; [reflexivity|]. split; [apply unit_c_r; auto|]. intros x y.
  cbn [t_apply linear_transform]. rewrite (m_dot_v_22 r_ring). cbn [bind]. change (r_mul r_ring) with Rmult. change (r_add r_ring) with Rplus. rewrite rigid2_v, V. f_equal. listeq; ring.
Qed.

(** Concrete cases: a quarter turn about the z axis with a step, and the mirror image in a plane. *)
Definition quarter (x : list R) : list R := match x with [a; b; c] => [1 - b; a; c + 2] | _ => [] end.
Definition mirror (x : list R) : list R := match x with [a; b; c] => [a; b; - c] | _ => [] end.
Example C102_example : (isometry 3 quarter /\ keeps_orientation3 quarter) /\ (isometry 3 mirror /\ ~ keeps_orientation3 mirror) /\
  (orthogonal 3 [[0; -1; 0]; [1; 0; 0]; [0; 0; 1]] /\ m_det r_ops 3 [[0; -1; 0]; [1; 0; 0]; [0; 0; 1]] = Ok 1).
Proof.
  split; [split; [split|]|split; [split; [split|]|split; [split|]]].
  - intros x L. apply list3 in L as (a & b & c & ->). reflexivity.
  - intros x y L L'. apply list3 in L as (a & b & c & ->). apply list3 in L' as (a' & b' & c' & ->). cbn [quarter dist2]. ring.
  - unfold keeps_orientation3, quarter, volume. lra.
  - intros x L. apply list3 in L as (a & b & c & ->). reflexivity.
  - intros x y L L'. apply list3 in L as (a & b & c & ->). apply list3 in L' as (a' & b' & c' & ->). cbn [mirror dist2]. ring.
  - unfold keeps_orientation3, mirror, volume. lra.
  - split; [reflexivity|repeat constructor].
  - match goal with |- context [m_transpose 3 3 ?m] => change (m_transpose 3 3 m) with (Ok (mk 3 3 (fun i j => mget r_ops m j i))) end.
    cbn [bind]. unfold mk, vk. cbn [seq map mget nth]. rewrite (m_dot_33 r_ring). rewrite m_one_mk. unfold mk, vk. cbn [seq map Nat.eqb]. f_equal. cbn. listeq; lra.
  - rewrite (m_det_33 r_ring). f_equal. cbn. lra.
Qed.

Print Assumptions C102_isometry.
Print Assumptions C102_isometry_unique.
Print Assumptions C102_isometry_conv.
Print Assumptions C102_rot3_matrix.
Print Assumptions C102_rot3_unique.
Print Assumptions C102_motion3.
Print Assumptions C102_motion3_conv.
Print Assumptions C102_motion3_unique.
Print Assumptions C102_mirror3.
Print Assumptions C102_rot2_matrix.
Print Assumptions C102_motion2.
Print Assumptions C102_motion2_conv.
Print Assumptions C102_motion2_unique.
Print Assumptions C102_mirror2.
