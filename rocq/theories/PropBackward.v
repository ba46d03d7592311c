(** C118: backward stability: what floating point computes is what the same operation gives in exact arithmetic for slightly
    different arguments. *)
From Coq Require Import ZArith Reals Lra Lia Psatz SpecFloat List.
From Flocq Require Import Core.
From Verif Require Import SpecFacts VFacts VecProofs MFacts MatProofs AlgFacts ComplexModel TransformModel RealInst FloatInst SpecRound FlocqFacts PropFloat PropRound SpecBackward.
Import ListNotations.
Set Implicit Arguments.
Local Open Scope list_scope.
Local Open Scope R_scope.
Local Notation RR := (r_ring).

Lemma cmul_bound : forall g p q r w t1 t2 t3 t4, 0 <= g -> Rabs t1 <= g -> Rabs t2 <= g -> Rabs t3 <= g -> Rabs t4 <= g ->
  (p * r * t1 - q * w * t2)² + (p * w * t3 + q * r * t4)² <= 2 * g² * (p² + q²) * (r² + w²).
Proof.
  assert (S2 : forall a b t s g, 0 <= g -> Rabs t <= g -> Rabs s <= g -> (a * t + b * s)² <= g² * (Rabs a + Rabs b)²).
  { intros a b t s g G T Q. rewrite <- Rsqr_mult. apply Rsqr_le_abs_1. eapply Rle_trans; [apply Rabs_triang|]. rewrite !Rabs_mult. pose proof (Rabs_pos a). pose proof (Rabs_pos b). rewrite (Rabs_pos_eq g G), (Rabs_pos_eq (Rabs a + Rabs b)) by lra.
    assert (Rabs a * Rabs t <= Rabs a * g) by (apply Rmult_le_compat_l; auto). assert (Rabs b * Rabs s <= Rabs b * g) by (apply Rmult_le_compat_l; auto). lra. }
  intros g p q r w t1 t2 t3 t4 G T1 T2 T3 T4.
  pose proof (S2 (p * r) (- (q * w)) t1 t2 g G T1 T2) as A. pose proof (S2 (p * w) (q * r) t3 t4 g G T3 T4) as B. rewrite Rabs_Ropp in A. rewrite !Rabs_mult in A, B.
  replace (p * r * t1 - q * w * t2) with (p * r * t1 + - (q * w) * t2) by ring. rewrite (Rsqr_abs p), (Rsqr_abs q), (Rsqr_abs r), (Rsqr_abs w).
  set (P := Rabs p) in *. set (Q := Rabs q) in *. set (R1 := Rabs r) in *. set (W := Rabs w) in *. assert (0 <= P) by apply Rabs_pos. assert (0 <= Q) by apply Rabs_pos. assert (0 <= R1) by apply Rabs_pos. assert (0 <= W) by apply Rabs_pos. clearbody P Q R1 W.
  assert (K : (P * R1 + Q * W)² + (P * W + Q * R1)² <= 2 * (P² + Q²) * (R1² + W²)). { unfold Rsqr. assert (0 <= P * Q) by (apply Rmult_le_pos; auto). assert (0 <= R1 * W) by (apply Rmult_le_pos; auto).
    assert (2 * (P * Q) <= P * P + Q * Q) by (pose proof (Rle_0_sqr (P - Q)); unfold Rsqr in *; lra). assert (2 * (R1 * W) <= R1 * R1 + W * W) by (pose proof (Rle_0_sqr (R1 - W)); unfold Rsqr in *; lra).
    assert (2 * (P * Q) * (2 * (R1 * W)) <= (P * P + Q * Q) * (R1 * R1 + W * W)) by (apply Rmult_le_compat; lra). lra. }
  assert (0 <= g²) by apply Rle_0_sqr. assert (g² * ((P * R1 + Q * W)² + (P * W + Q * R1)²) <= g² * (2 * (P² + Q²) * (R1² + W²))) by (apply Rmult_le_compat_l; auto). lra.
Qed.

Section Bk.
  Context (prec emax : Z) (rem : spec_float -> spec_float -> spec_float) (Hp : (0 < prec)%Z) (He : (prec < emax)%Z).
  Local Notation fo := (sf_ops prec emax rem).
  Local Notation valid x := (valid_binary prec emax x = true).
  Local Notation u := (roundoff prec).
  Local Notation add := (SFadd prec emax).
  Local Notation sub := (SFsub prec emax).
  Local Notation mul := (SFmul prec emax).
  Local Notation div := (SFdiv prec emax).
  Local Notation root := (SFsqrt prec emax).
  Local Notation fs := (fs prec emax).
  (** n roundings change a number by at most this fraction. *)
  Local Notation gam n := ((1 + u) ^ n - 1).

  Lemma gam_step : forall n t d, Rabs t <= gam n -> Rabs d <= u -> Rabs ((1 + t) * (1 + d) - 1) <= gam (S n).
  Proof.
    intros n t d Ht Hd. pose proof (@pow1u u n (u_pos prec)) as G. pose proof (u_pos prec) as U. cbn [pow]. set (g := (1 + u) ^ n) in *. clearbody g.
    apply Rabs_le_inv in Ht, Hd. apply Rabs_le. split; nra.
  Qed.
  Lemma gam_mono : forall n m, (n <= m)%nat -> gam n <= gam m.
  Proof. intros n m H. pose proof (u_pos prec). assert ((1 + u) ^ n <= (1 + u) ^ m) by (apply Rle_pow; auto; lra). lra. Qed.
  Lemma gam_pos : forall n, 0 <= gam n.
  Proof. intros n. pose proof (@pow1u u n (u_pos prec)). lra. Qed.
  Lemma gam_1 : gam 1 = u. Proof. ring. Qed.
  Lemma rsum_scal : forall n f a, rsum n (fun i => f i * a) = rsum n f * a.
  Proof. induction n; intros f a; cbn [rsum]; [ring|]. rewrite IHn. ring. Qed.
  (* a sum: every term changes by a factor *)
  Lemma fs_back : forall k f, (forall i, (i <= k)%nat -> valid (f i)) -> finite (fs k f) = true ->
    exists t : nat -> R, (forall i, (i <= k)%nat -> Rabs (t i) <= gam k) /\ value (fs k f) = rsum (S k) (fun i => value (f i) * (1 + t i)).
  Proof.
    induction k as [|k IH]; intros f Hv F; cbn [PropRound.fs] in F |- *.
    - exists (fun _ => 0). split; [intros; rewrite Rabs_R0; cbn; lra|]. cbn. ring.
    - pose proof (proj1 (add_fin _ _ _ _ F)) as F1. destruct (IH f ltac:(auto) F1) as (t & Ht & E).
      destruct (add_err Hp He _ _ (@fs_valid prec emax Hp He k f ltac:(auto)) (Hv (S k) ltac:(auto)) F) as (d & Hd & E2).
      exists (fun i => if (i <=? k)%nat then (1 + t i) * (1 + d) - 1 else d). split.
      + intros i Hi. destruct (Nat.leb_spec i k); [apply gam_step; auto|]. eapply Rle_trans; [exact Hd|]. eapply Rle_trans; [|apply (@gam_mono 1 (S k)); lia]. rewrite gam_1. lra.
      + rewrite E2, E. change (rsum (S (S k)) ?g) with (rsum (S k) g + g (S k)). cbn beta. replace (S k <=? k)%nat with false by (symmetry; apply Nat.leb_gt; lia). rewrite Rmult_plus_distr_r. f_equal.
        rewrite <- rsum_scal. apply rsum_ext.
        intros i Hi. replace (i <=? k)%nat with true by (symmetry; apply Nat.leb_le; lia). ring.
  Qed.
  Lemma mul_back : forall x y, valid x -> valid y -> finite (mul x y) = true -> no_underflow emax (value x * value y) -> exists d, Rabs d <= u /\ value (mul x y) = value x * value y * (1 + d).
  Proof. intros x y Vx Vy F N. destruct (mul_err Hp He x y Vx Vy F) as (d & h & Hd & _ & E & Hn). exists d. split; auto. rewrite E, (Hn N). ring. Qed.
  Lemma choose_fin : forall n (P : nat -> R -> Prop), (forall i, (i < n)%nat -> exists d, P i d) -> exists g, forall i, (i < n)%nat -> P i (g i).
  Proof.
    induction n as [|n IH]; intros P H. { exists (fun _ => 0). intros. lia. }
    destruct (IH P) as (g & Hg); auto. destruct (H n) as (d & Hd); auto. exists (fun i => if (i =? n)%nat then d else g i). intros i Hi. destruct (Nat.eqb_spec i n) as [->|]; auto. apply Hg. lia.
  Qed.
  Lemma dot_back : forall k f g, (forall i, (i <= k)%nat -> valid (f i) /\ valid (g i) /\ no_underflow emax (value (f i) * value (g i))) -> finite (fs k (fun i => mul (f i) (g i))) = true ->
    exists t : nat -> R, (forall i, (i <= k)%nat -> Rabs (t i) <= gam (S k)) /\ value (fs k (fun i => mul (f i) (g i))) = rsum (S k) (fun i => value (f i) * value (g i) * (1 + t i)).
  Proof.
    intros k f g H F. destruct (@fs_back k (fun i => mul (f i) (g i))) as (t & Ht & E); auto. { intros i Hi. apply mul_valid; auto; apply H; auto. }
    destruct (@choose_fin (S k) (fun i d => Rabs d <= u /\ value (mul (f i) (g i)) = value (f i) * value (g i) * (1 + d))) as (d & Hd).
    { intros i Hi. destruct (H i ltac:(lia)) as (A & B & C). apply mul_back; auto. apply (@fs_fin prec emax k (fun i => mul (f i) (g i)) F). lia. }
    exists (fun i => (1 + t i) * (1 + d i) - 1). split. { intros i Hi. apply gam_step; auto. apply Hd. lia. }
    rewrite E. apply rsum_ext. intros i Hi. destruct (Hd i Hi) as (_ & ->). ring.
  Qed.
  Lemma rsum_big : forall n f, bigsum RR n f = rsum n f.
  Proof. induction n; intros f; [reflexivity|]. cbn [rsum]. rewrite <- IHn. cbn. reflexivity. Qed.
  Lemma close_factor : forall eps x t, Rabs t <= eps -> close eps x (value x * (1 + t)).
  Proof. intros eps x t H. unfold close. replace (value x * (1 + t) - value x) with (t * value x) by ring. rewrite Rabs_mult. apply Rmult_le_compat_r; auto. apply Rabs_pos. Qed.
  Lemma close_same : forall eps x, 0 <= eps -> close eps x (value x).
  Proof. intros eps x H. unfold close. rewrite Rminus_eq_0, Rabs_R0. apply Rmult_le_pos; auto. apply Rabs_pos. Qed.
  Lemma v_close_vk : forall eps n f g, (forall i, (i < n)%nat -> close eps (f i) (g i)) -> v_close eps (vk n f) (vk n g).
  Proof. intros eps n f g H. unfold v_close, vk. assert (Q : forall l, (forall i, In i l -> (i < n)%nat) -> Forall2 (close eps) (map f l) (map g l)). { induction l as [|i l IH]; intros L; cbn; constructor; auto. - apply H, L. left. auto. - apply IH. intros. apply L. right. auto. } apply Q. intros i Hi. apply in_seq in Hi. lia. Qed.
  Lemma m_close_mk : forall eps m n f g, (forall i j, (i < m)%nat -> (j < n)%nat -> close eps (f i j) (g i j)) -> m_close eps (mk m n f) (mk m n g).
  Proof. intros eps m n f g H. unfold m_close, mk, vk at 1 3. assert (Q : forall l, (forall i, In i l -> (i < m)%nat) -> Forall2 (v_close eps) (map (fun i => vk n (f i)) l) (map (fun i => vk n (g i)) l)). { induction l as [|i l IH]; intros L; cbn; constructor; auto. - apply v_close_vk. intros j Hj. apply H; auto. apply L. left. auto. - apply IH. intros. apply L. right. auto. } apply Q. intros i Hi. apply in_seq in Hi. lia. Qed.
  Lemma values_vk : forall n f, v_values (vk n f) = vk n (fun i => value (f i)).
  Proof. intros. unfold v_values, vk. apply map_map. Qed.
  Lemma values_mk : forall m n f, m_values (mk m n f) = mk m n (fun i j => value (f i j)).
  Proof. intros. unfold m_values, mk. unfold vk at 1 3. rewrite map_map. apply map_ext. intros. apply values_vk. Qed.

  (** sum *)
  Theorem C118_sum : forall N x s, length x = N -> Forall (fun a => valid a) x -> v_sum fo x = Ok s -> finite s = true ->
    exists x', v_close (gam (N - 1)) x x' /\ v_sum r_ops x' = Ok (value s).
  Proof.
    intros N x s Lx Vx E F. destruct N as [|k]. { destruct x; discriminate. } asfun (sf_ops prec emax rem). rewrite Forall_vk in Vx. rewrite v_sum_fs in E. apply Ok_inj in E. subst s.
    destruct (@fs_back k f) as (t & Ht & E); auto. { intros; apply Vx; lia. } rewrite Nat.sub_succ, Nat.sub_0_r. exists (vk (S k) (fun i => value (f i) * (1 + t i))). split.
    - apply v_close_vk. intros i Hi. apply close_factor, Ht. lia.
    - rewrite (v_sum_vk RR) by lia. rewrite rsum_big, E. reflexivity.
  Qed.
  (** dot: either argument can take the blame. *)
  Theorem C118_dot : forall N x y s, length x = N -> length y = N -> Forall (fun a => valid a) x -> Forall (fun a => valid a) y ->
    (forall i, (i < N)%nat -> no_underflow emax (vval x i * vval y i)) -> v_dot fo N x y = Ok s -> finite s = true ->
    (exists x', v_close (gam N) x x' /\ v_dot r_ops N x' (v_values y) = Ok (value s)) /\ (exists y', v_close (gam N) y y' /\ v_dot r_ops N (v_values x) y' = Ok (value s)).
  Proof.
    intros N x y s Lx Ly Vx Vy H E F. destruct N as [|k]. { destruct x, y; discriminate. } asfun (sf_ops prec emax rem). rewrite Forall_vk in *. rewrite v_dot_fs in E. apply Ok_inj in E. subst s.
    destruct (@dot_back k f0 f) as (t & Ht & E); auto. { intros i Hi. split; [apply Vx; lia|]. split; [apply Vy; lia|]. specialize (H i ltac:(lia)). rewrite !vval_vk in H by lia. auto. }
    split; [exists (vk (S k) (fun i => value (f0 i) * (1 + t i)))|exists (vk (S k) (fun i => value (f i) * (1 + t i)))]; (split; [apply v_close_vk; intros i Hi; apply close_factor, Ht; lia|]);
      rewrite values_vk, (v_dot_vk RR) by lia; rewrite rsum_big, E; f_equal; apply rsum_ext; intros; change (r_mul RR) with Rmult; ring.
  Qed.
  Lemma fadd_vk : forall N f g, v_add fo N (vk N f) (vk N g) = Ok (vk N (fun i => add (f i) (g i))).
  Proof. intros. apply v_zip_map_vk. reflexivity. Qed.
  Lemma fsub_vk : forall N f g, v_sub fo N (vk N f) (vk N g) = Ok (vk N (fun i => sub (f i) (g i))).
  Proof. intros. apply v_zip_map_vk. reflexivity. Qed.
  Lemma fmul_vk : forall N f g, v_mul fo N (vk N f) (vk N g) = Ok (vk N (fun i => mul (f i) (g i))).
  Proof. intros. apply v_zip_map_vk. reflexivity. Qed.
  Lemma fsmul_vk : forall N f a, v_smul fo (vk N f) a = Ok (vk N (fun i => mul (f i) a)).
  Proof. intros. apply (@v_map_vk _ _ (fun x => Ok (mul x a))). reflexivity. Qed.
  (** Addition and subtraction: both arguments share one small change. *)
  Theorem C118_add : forall N x y z, length x = N -> length y = N -> Forall (fun a => valid a) x -> Forall (fun a => valid a) y ->
    v_add fo N x y = Ok z -> v_finite z ->
    exists x' y', v_close u x x' /\ v_close u y y' /\ v_add r_ops N x' y' = Ok (v_values z).
  Proof.
    intros N x y z Lx Ly Vx Vy E F. asfun (sf_ops prec emax rem). rewrite Forall_vk in *. rewrite fadd_vk in E. apply Ok_inj in E. subst z. unfold v_finite in F. rewrite Forall_vk in F.
    destruct (@choose_fin N (fun i d => Rabs d <= u /\ value (add (f0 i) (f i)) = (value (f0 i) + value (f i)) * (1 + d))) as (d & Hd). { intros i Hi. apply add_err; auto. }
    exists (vk N (fun i => value (f0 i) * (1 + d i))), (vk N (fun i => value (f i) * (1 + d i))). split; [|split]; try (apply v_close_vk; intros i Hi; apply close_factor, Hd; auto).
    rewrite (v_add_vk RR), values_vk. f_equal. apply vk_ext. intros i Hi. destruct (Hd i Hi) as (_ & ->). change (r_add RR) with Rplus. ring.
  Qed.
  Theorem C118_sub : forall N x y z, length x = N -> length y = N -> Forall (fun a => valid a) x -> Forall (fun a => valid a) y ->
    v_sub fo N x y = Ok z -> v_finite z ->
    exists x' y', v_close u x x' /\ v_close u y y' /\ v_sub r_ops N x' y' = Ok (v_values z).
  Proof.
    intros N x y z Lx Ly Vx Vy E F. asfun (sf_ops prec emax rem). rewrite Forall_vk in *. rewrite fsub_vk in E. apply Ok_inj in E. subst z. unfold v_finite in F. rewrite Forall_vk in F.
    destruct (@choose_fin N (fun i d => Rabs d <= u /\ value (sub (f0 i) (f i)) = (value (f0 i) - value (f i)) * (1 + d))) as (d & Hd). { intros i Hi. apply sub_err; auto. }
    exists (vk N (fun i => value (f0 i) * (1 + d i))), (vk N (fun i => value (f i) * (1 + d i))). split; [|split]; try (apply v_close_vk; intros i Hi; apply close_factor, Hd; auto).
    rewrite (v_sub_vk RR), values_vk. f_equal. apply vk_ext. intros i Hi. destruct (Hd i Hi) as (_ & ->). change (r_sub RR) with Rminus. ring.
  Qed.
  (** Componentwise product and scaling: the first argument alone takes the change. *)
  Theorem C118_mul : forall N x y z, length x = N -> length y = N -> Forall (fun a => valid a) x -> Forall (fun a => valid a) y ->
    (forall i, (i < N)%nat -> no_underflow emax (vval x i * vval y i)) -> v_mul fo N x y = Ok z -> v_finite z ->
    exists x', v_close u x x' /\ v_mul r_ops N x' (v_values y) = Ok (v_values z).
  Proof.
    intros N x y z Lx Ly Vx Vy H E F. asfun (sf_ops prec emax rem). rewrite Forall_vk in *. rewrite fmul_vk in E. apply Ok_inj in E. subst z. unfold v_finite in F. rewrite Forall_vk in F.
    destruct (@choose_fin N (fun i d => Rabs d <= u /\ value (mul (f0 i) (f i)) = value (f0 i) * value (f i) * (1 + d))) as (d & Hd). { intros i Hi. apply mul_back; auto. specialize (H i Hi). rewrite !vval_vk in H by auto. auto. }
    exists (vk N (fun i => value (f0 i) * (1 + d i))). split. { apply v_close_vk; intros i Hi; apply close_factor, Hd; auto. }
    rewrite !values_vk, (v_mul_vk RR). f_equal. apply vk_ext. intros i Hi. destruct (Hd i Hi) as (_ & ->). change (r_mul RR) with Rmult. ring.
  Qed.
  Theorem C118_scale : forall N x a z, length x = N -> Forall (fun a => valid a) x -> valid a ->
    (forall i, (i < N)%nat -> no_underflow emax (vval x i * value a)) -> v_smul fo x a = Ok z -> v_finite z ->
    exists x', v_close u x x' /\ v_smul r_ops x' (value a) = Ok (v_values z).
  Proof.
    intros N x a z Lx Vx Va H E F. asfun (sf_ops prec emax rem). rewrite Forall_vk in *. rewrite fsmul_vk in E. apply Ok_inj in E. subst z. unfold v_finite in F. rewrite Forall_vk in F.
    destruct (@choose_fin N (fun i d => Rabs d <= u /\ value (mul (f i) a) = value (f i) * value a * (1 + d))) as (d & Hd). { intros i Hi. apply mul_back; auto. specialize (H i Hi). rewrite !vval_vk in H by auto. auto. }
    exists (vk N (fun i => value (f i) * (1 + d i))). split. { apply v_close_vk; intros i Hi; apply close_factor, Hd; auto. }
    rewrite !values_vk, (v_smul_vk RR). f_equal. apply vk_ext. intros i Hi. destruct (Hd i Hi) as (_ & ->). change (r_mul RR) with Rmult. ring.
  Qed.
  (** Length and squared length: those of a vector a little longer or shorter, in the same direction. *)
  Theorem C118_square_length : forall N x s, length x = N -> Forall (fun a => valid a) x ->
    (forall i, (i < N)%nat -> no_underflow emax (vval x i * vval x i)) -> v_square_length fo x = Ok s -> finite s = true ->
    exists c x', Rabs (c - 1) <= gam N /\ v_smul r_ops (v_values x) c = Ok x' /\ v_close (gam N) x x' /\ v_square_length r_ops x' = Ok (value s).
  Proof.
    intros N x s Lx Vx H E F. assert (H' : forall i, (i < N)%nat -> vval x i = 0 \/ min_normal emax <= vval x i * vval x i).
    { intros i Hi. destruct (H i Hi) as [Z|Z]; [left; apply Rsqr_0_uniq; auto|right]. rewrite Rabs_pos_eq in Z; auto. apply (Rle_0_sqr (vval x i)). }
    destruct (@C74_square_length prec emax rem Hp He N x s Lx Vx H' E F) as (P & B). set (X := rsum N (fun i => vval x i * vval x i)) in *. assert (PX : 0 <= X). { apply rsum_0. intros. apply (Rle_0_sqr (vval x i)). }
    assert (C : exists c, 0 <= c /\ Rabs (c - 1) <= gam N /\ c * c * X = value s).
    { pose proof (gam_pos N) as G. destruct (Req_dec X 0) as [Z|Z].
      - exists 1. rewrite Z in *. rewrite Rmult_0_r, Rminus_0_r in B. pose proof (Rabs_pos (value s)). assert (Rabs (value s) = 0) by lra. destruct (Req_dec (value s) 0) as [Q|Q]; [|apply Rabs_no_R0 in Q; lra].
        rewrite Q, Rminus_eq_0, Rabs_R0. repeat split; lra.
      - assert (Q : 0 <= value s / X) by (apply Rle_mult_inv_pos; lra). exists (sqrt (value s / X)). split; [apply sqrt_pos|]. split; [|rewrite sqrt_sqrt by auto; field; auto].
        assert (R1 : Rabs (value s / X - 1) <= gam N). { replace (value s / X - 1) with ((value s - X) * / X) by (field; auto). rewrite Rabs_mult, (Rabs_pos_eq (/ X)) by (apply Rlt_le, Rinv_0_lt_compat; lra).
          apply (Rmult_le_reg_r X); [lra|]. rewrite Rmult_assoc, Rinv_l, Rmult_1_r by auto. auto. }
        eapply Rle_trans; [|exact R1]. set (w := value s / X) in *. pose proof (sqrt_pos w) as W. assert (E1 : w - 1 = (sqrt w - 1) * (sqrt w + 1)) by (rewrite <- (sqrt_sqrt w Q) at 1; ring).
        rewrite E1, Rabs_mult, (Rabs_pos_eq (sqrt w + 1)) by lra. rewrite <- (Rmult_1_r (Rabs (sqrt w - 1))) at 1. apply Rmult_le_compat_l; [apply Rabs_pos|lra]. }
    destruct C as (c & Pc & Hc & Ec). revert Ec. unfold X. clear X PX B. asfun (sf_ops prec emax rem). intros Ec. destruct N as [|k]; [discriminate E|].
    exists c, (vk (S k) (fun i => value (f i) * c)). split; auto. split. { rewrite values_vk, (v_smul_vk RR). reflexivity. } split.
    - apply v_close_vk. intros i Hi. replace c with (1 + (c - 1)) by ring. apply close_factor. auto.
    - rewrite (v_square_length_vk RR) by lia. rewrite rsum_big, <- Ec. f_equal. rewrite Rmult_comm, <- rsum_scal. apply rsum_ext. intros i Hi. rewrite !vval_vk by auto. change (r_mul RR) with Rmult. ring.
  Qed.
  Theorem C118_length : forall N x l, length x = N -> Forall (fun a => valid a) x ->
    (forall i, (i < N)%nat -> no_underflow emax (vval x i * vval x i)) -> v_length fo root x = Ok l -> finite l = true -> (1 + u) ^ (N + 1) <= 2 ->
    exists c x', Rabs (c - 1) <= gam (N + 1) /\ v_smul r_ops (v_values x) c = Ok x' /\ v_close (gam (N + 1)) x x' /\ v_length r_ops sqrt x' = Ok (value l).
  Proof.
    intros N x l Lx Vx H E F G2. assert (H' : forall i, (i < N)%nat -> vval x i = 0 \/ min_normal emax <= vval x i * vval x i).
    { intros i Hi. destruct (H i Hi) as [Z|Z]; [left; apply Rsqr_0_uniq; auto|right]. rewrite Rabs_pos_eq in Z; auto. apply (Rle_0_sqr (vval x i)). }
    pose proof (@C74_length prec emax rem Hp He N x l Lx Vx H' E F) as B. cbv zeta in B. set (X := rsum N (fun i => vval x i * vval x i)) in *. assert (PX : 0 <= X). { apply rsum_0. intros. apply (Rle_0_sqr (vval x i)). }
    assert (C : exists c, 0 <= c /\ Rabs (c - 1) <= gam (N + 1) /\ c * sqrt X = value l).
    { pose proof (gam_pos (N + 1)) as G. destruct (Req_dec (sqrt X) 0) as [Z|Z].
      - exists 1. rewrite Z in *. rewrite Rmult_0_r, Rminus_0_r in B. pose proof (Rabs_pos (value l)). assert (Rabs (value l) = 0) by lra. destruct (Req_dec (value l) 0) as [Q|Q]; [|apply Rabs_no_R0 in Q; lra].
        rewrite Q, Rminus_eq_0, Rabs_R0. repeat split; lra.
      - pose proof (sqrt_pos X) as W. assert (R1 : Rabs (value l / sqrt X - 1) <= gam (N + 1)). { replace (value l / sqrt X - 1) with ((value l - sqrt X) * / sqrt X) by (field; auto). rewrite Rabs_mult, (Rabs_pos_eq (/ sqrt X)) by (apply Rlt_le, Rinv_0_lt_compat; lra).
          apply (Rmult_le_reg_r (sqrt X)); [lra|]. rewrite Rmult_assoc, Rinv_l, Rmult_1_r by auto. auto. }
        exists (value l / sqrt X). split; [|split; auto; field; auto]. apply Rabs_le_inv in R1. lra. }
    destruct C as (c & Pc & Hc & Ec). revert Ec. unfold X in *. clear X B. revert PX. asfun (sf_ops prec emax rem). intros PX Ec. destruct N as [|k]; [discriminate E|].
    exists c, (vk (S k) (fun i => value (f i) * c)). split; auto. split. { rewrite values_vk, (v_smul_vk RR). reflexivity. } split.
    - apply v_close_vk. intros i Hi. replace c with (1 + (c - 1)) by ring. apply close_factor. auto.
    - unfold v_length. rewrite (v_square_length_vk RR) by lia. rewrite rsum_big. cbn [bind]. f_equal. rewrite <- Ec. rewrite (@rsum_ext (S k) _ (fun i => vval (vk (S k) f) i * vval (vk (S k) f) i * (c * c))). { rewrite rsum_scal, sqrt_mult, sqrt_square by (auto; nra). ring. }
      intros i Hi. rewrite !vval_vk by auto. change (r_mul RR) with Rmult. ring.
  Qed.
  Lemma choose_fin2 : forall n (P : nat -> (nat -> R) -> Prop), (forall i, (i < n)%nat -> exists d, P i d) -> exists g, forall i, (i < n)%nat -> P i (g i).
  Proof.
    induction n as [|n IH]; intros P H. { exists (fun _ _ => 0). intros. lia. }
    destruct (IH P) as (g & Hg); auto. destruct (H n) as (d & Hd); auto. exists (fun i => if (i =? n)%nat then d else g i). intros i Hi. destruct (Nat.eqb_spec i n) as [->|]; auto. apply Hg. lia.
  Qed.
  (** Matrix times vector: one slightly different matrix explains every component of the result. *)
  Theorem C118_matrix_vector : forall M N a x z, rect M N a -> length x = N -> (0 < N)%nat -> Forall (Forall (fun a => valid a)) a -> Forall (fun a => valid a) x ->
    (forall i j, (i < M)%nat -> (j < N)%nat -> no_underflow emax (mval a i j * vval x j)) -> m_dot_v fo M N a x = Ok z -> v_finite z ->
    exists a', m_close (gam N) a a' /\ m_dot_v r_ops M N a' (v_values x) = Ok (v_values z).
  Proof.
    intros M N a x z Ra Lx HN Va Vx H E F. asfun (sf_ops prec emax rem). rewrite Forall_mk, Forall_vk in *. rewrite (m_dot_v_d fo (fdot prec emax rem) (@fdot_ok prec emax rem)) in E by auto. apply Ok_inj in E. subst z.
    unfold v_finite in F. rewrite Forall_vk in F. destruct N as [|k]; [lia|].
    destruct (@choose_fin2 M (fun i t => (forall j, (j <= k)%nat -> Rabs (t j) <= gam (S k)) /\ value (fdot prec emax rem (S k) (vk (S k) (f0 i)) (vk (S k) f)) = rsum (S k) (fun j => value (f0 i j) * value (f j) * (1 + t j)))) as (t & Ht).
    { intros i Hi. specialize (F i Hi). rewrite fdot_fs in *. apply dot_back; auto. intros j Hj. split; [apply Va; lia|]. split; [apply Vx; lia|]. specialize (H i j Hi ltac:(lia)). rewrite mval_mk, vval_vk in H by lia. auto. }
    exists (mk M (S k) (fun i j => value (f0 i j) * (1 + t i j))). split. { apply m_close_mk. intros i j Hi Hj. apply close_factor, Ht; auto. lia. }
    rewrite !values_vk, (m_dot_v_mk RR) by lia. f_equal. apply vk_ext. intros i Hi. rewrite rsum_big. destruct (Ht i Hi) as (_ & ->). apply rsum_ext. intros. change (r_mul RR) with Rmult. ring.
  Qed.
  Theorem C118_vector_matrix : forall M N x a z, length x = M -> rect M N a -> (0 < M)%nat -> Forall (fun a => valid a) x -> Forall (Forall (fun a => valid a)) a ->
    (forall i j, (i < M)%nat -> (j < N)%nat -> no_underflow emax (vval x i * mval a i j)) -> v_dot_m fo M N x a = Ok z -> v_finite z ->
    exists a', m_close (gam M) a a' /\ v_dot_m r_ops M N (v_values x) a' = Ok (v_values z).
  Proof.
    intros M N x a z Lx Ra HM Vx Va H E F. asfun (sf_ops prec emax rem). rewrite Forall_mk, Forall_vk in *. rewrite (v_dot_m_d fo (fdot prec emax rem) (@fdot_ok prec emax rem)) in E by auto. apply Ok_inj in E. subst z.
    unfold v_finite in F. rewrite Forall_vk in F. destruct M as [|k]; [lia|].
    destruct (@choose_fin2 N (fun j t => (forall i, (i <= k)%nat -> Rabs (t i) <= gam (S k)) /\ value (fdot prec emax rem (S k) (vk (S k) f) (vk (S k) (fun i => f0 i j))) = rsum (S k) (fun i => value (f i) * value (f0 i j) * (1 + t i)))) as (t & Ht).
    { intros j Hj. specialize (F j Hj). rewrite fdot_fs in *. apply dot_back; auto. intros i Hi. split; [apply Vx; lia|]. split; [apply Va; lia|]. specialize (H i j ltac:(lia) Hj). rewrite mval_mk, vval_vk in H by lia. auto. }
    exists (mk (S k) N (fun i j => value (f0 i j) * (1 + t j i))). split. { apply m_close_mk. intros i j Hi Hj. apply close_factor, Ht; auto. lia. }
    rewrite !values_vk, (v_dot_m_mk RR) by lia. f_equal. apply vk_ext. intros j Hj. rewrite rsum_big. destruct (Ht j Hj) as (_ & ->). apply rsum_ext. intros. change (r_mul RR) with Rmult. ring.
  Qed.
  (** Matrix product: each column of the result is that of a slightly different left factor, each row that of a slightly different right one. *)
  Theorem C118_matrix_product : forall L M N a b c, rect L M a -> rect M N b -> (0 < M)%nat -> Forall (Forall (fun a => valid a)) a -> Forall (Forall (fun a => valid a)) b ->
    (forall i k j, (i < L)%nat -> (k < M)%nat -> (j < N)%nat -> no_underflow emax (mval a i k * mval b k j)) -> m_dot fo L M N a b = Ok c -> m_finite c ->
    (forall j q r, (j < N)%nat -> m_col M b j = Ok q -> m_col L c j = Ok r -> exists a', m_close (gam M) a a' /\ m_dot_v r_ops L M a' (v_values q) = Ok (v_values r)) /\
    (forall i q r, (i < L)%nat -> m_row a i = Ok q -> m_row c i = Ok r -> exists b', m_close (gam M) b b' /\ v_dot_m r_ops M N (v_values q) b' = Ok (v_values r)).
  Proof.
    intros L M N a b c Ra Rb HM Va Vb H E F. asfun (sf_ops prec emax rem). rewrite !Forall_mk in *. rewrite (m_dot_d fo (fdot prec emax rem) (@fdot_ok prec emax rem)) in E by auto. apply Ok_inj in E. subst c.
    assert (F' : forall i j, (i < L)%nat -> (j < N)%nat -> finite (fdot prec emax rem M (vk M (f0 i)) (vk M (fun k => f k j))) = true) by (apply (@Forall_mk _ (fun x => finite x = true) L N); exact F).
    split.
    - intros j q r Hj Eq Er. rewrite m_col_mk in Eq, Er by auto. apply Ok_inj in Eq, Er. subst q r. apply (@C118_matrix_vector L M _ _ _); auto using rect_mk, vk_length.
      + rewrite Forall_mk. auto. + rewrite Forall_vk. auto. + intros i k Hi Hk. specialize (H i k j Hi Hk Hj). rewrite !mval_mk in H by auto. rewrite mval_mk, vval_vk by auto. auto.
      + rewrite (m_dot_v_d fo (fdot prec emax rem) (@fdot_ok prec emax rem)) by auto. reflexivity.
      + unfold v_finite. rewrite Forall_vk. auto.
    - intros i q r Hi Eq Er. rewrite m_row_mk in Eq, Er by auto. apply Ok_inj in Eq, Er. subst q r. apply (@C118_vector_matrix M N _ _ _); auto using rect_mk, vk_length.
      + rewrite Forall_vk. auto. + rewrite Forall_mk. auto. + intros k j Hk Hj. specialize (H i k j Hi Hk Hj). rewrite !mval_mk in H by auto. rewrite mval_mk, vval_vk by auto. auto.
      + rewrite (v_dot_m_d fo (fdot prec emax rem) (@fdot_ok prec emax rem)) by auto. reflexivity.
      + unfold v_finite. rewrite Forall_vk. auto.
  Qed.
  (** An affine transformation of a point is exactly a slightly different affine transformation of it. *)
  Theorem C118_affine : forall N a s x z, rect N N a -> length s = N -> length x = N -> (0 < N)%nat ->
    Forall (Forall (fun a => valid a)) a -> Forall (fun a => valid a) s -> Forall (fun a => valid a) x ->
    (forall i j, (i < N)%nat -> (j < N)%nat -> no_underflow emax (mval a i j * vval x j)) ->
    t_apply (affine_transform fo N) (s, a) x = Ok z -> v_finite z ->
    exists a' s', m_close (gam (S N)) a a' /\ v_close u s s' /\ t_apply (affine_transform r_ops N) (s', a') (v_values x) = Ok (v_values z).
  Proof.
    intros N a s x z Ra Ls Lx HN Va Vs Vx H E F. cbn [t_apply affine_transform chain_transform linear_transform shift_transform fst snd] in *.
    destruct (@mk_ex _ fo _ _ _ Ra) as (fa & ->). destruct (@vk_ex _ fo _ _ Ls) as (fs_ & ->). destruct (@vk_ex _ fo _ _ Lx) as (fx & ->).
    rewrite (m_dot_v_d fo (fdot prec emax rem) (@fdot_ok prec emax rem)) in E by auto. cbn [bind] in E. rewrite fadd_vk in E. apply Ok_inj in E. subst z.
    rewrite !Forall_vk in Vs, Vx. rewrite Forall_mk in Va. unfold v_finite in F. rewrite Forall_vk in F. destruct N as [|k]; [lia|].
    assert (Vd : forall i, (i < S k)%nat -> valid (fdot prec emax rem (S k) (vk (S k) (fa i)) (vk (S k) fx))). { intros i Hi. rewrite fdot_fs. apply fs_valid; auto. intros j Hj. apply mul_valid; auto; [apply Va|apply Vx]; lia. }
    destruct (@choose_fin2 (S k) (fun i t => (forall j, (j <= k)%nat -> Rabs (t j) <= gam (S k)) /\ value (fdot prec emax rem (S k) (vk (S k) (fa i)) (vk (S k) fx)) = rsum (S k) (fun j => value (fa i j) * value (fx j) * (1 + t j)))) as (t & Ht).
    { intros i Hi. pose proof (proj1 (add_fin _ _ _ _ (F i Hi))) as F1. rewrite fdot_fs in *. apply dot_back; auto. intros j Hj. split; [apply Va; lia|]. split; [apply Vx; lia|]. specialize (H i j Hi ltac:(lia)). rewrite mval_mk, vval_vk in H by lia. auto. }
    destruct (@choose_fin (S k) (fun i d => Rabs d <= u /\ value (add (fdot prec emax rem (S k) (vk (S k) (fa i)) (vk (S k) fx)) (fs_ i)) = (value (fdot prec emax rem (S k) (vk (S k) (fa i)) (vk (S k) fx)) + value (fs_ i)) * (1 + d))) as (d & Hd). { intros i Hi. apply add_err; auto. }
    exists (mk (S k) (S k) (fun i j => value (fa i j) * (1 + ((1 + t i j) * (1 + d i) - 1)))), (vk (S k) (fun i => value (fs_ i) * (1 + d i))). split; [|split].
    - apply m_close_mk. intros i j Hi Hj. apply close_factor, gam_step; [apply Ht; auto; lia|apply Hd; auto].
    - apply v_close_vk. intros i Hi. apply close_factor, Hd; auto.
    - rewrite !values_vk, (m_dot_v_mk RR) by lia. cbn [bind]. rewrite (v_add_vk RR). f_equal. apply vk_ext. intros i Hi. rewrite rsum_big. destruct (Hd i Hi) as (_ & ->). destruct (Ht i Hi) as (_ & ->). change (r_add RR) with Rplus.
      rewrite Rmult_plus_distr_r. f_equal. rewrite <- rsum_scal. apply rsum_ext. intros j Hj. change (r_mul RR) with Rmult. ring.
  Qed.
  (** Complex product: exactly the product of a nearby number with the other factor. *)
  Theorem C118_complex_mul : forall a b c, valid (re a) -> valid (im a) -> valid (re b) -> valid (im b) ->
    no_underflow emax (value (re a) * value (re b)) -> no_underflow emax (value (im a) * value (im b)) -> no_underflow emax (value (re a) * value (im b)) -> no_underflow emax (value (im a) * value (re b)) ->
    c_mul fo a b = Ok c -> finite (re c) = true -> finite (im c) = true ->
    exists x y, (x - value (re a))² + (y - value (im a))² <= 2 * (gam 2)² * ((value (re a))² + (value (im a))²) /\
      c_mul r_ops (Cx x y) (Cx (value (re b)) (value (im b))) = Ok (Cx (value (re c)) (value (im c))).
  Proof.
    intros [a1 a2] [b1 b2] c. cbn [re im]. intros Va1 Va2 Vb1 Vb2 N1 N2 N3 N4 E Fr Fi. apply Ok_inj in E. subst c. cbn [re im] in *.
    destruct (sub_fin _ _ _ _ Fr) as (F1 & F2). destruct (add_fin _ _ _ _ Fi) as (F3 & F4).
    destruct (sub_err Hp He _ _ ltac:(apply (mul_valid Hp He a1 b1); auto) ltac:(apply (mul_valid Hp He a2 b2); auto) Fr) as (e1 & He1 & Er).
    destruct (add_err Hp He _ _ ltac:(apply (mul_valid Hp He a1 b2); auto) ltac:(apply (mul_valid Hp He a2 b1); auto) Fi) as (e2 & He2 & Ei).
    destruct (mul_back _ _ Va1 Vb1 F1 N1) as (d1 & D1 & E1). destruct (mul_back _ _ Va2 Vb2 F2 N2) as (d2 & D2 & E2). destruct (mul_back _ _ Va1 Vb2 F3 N3) as (d3 & D3 & E3). destruct (mul_back _ _ Va2 Vb1 F4 N4) as (d4 & D4 & E4).
    rewrite E1, E2 in Er. rewrite E3, E4 in Ei. clear E1 E2 E3 E4 N1 N2 N3 N4 F1 F2 F3 F4.
    assert (G : forall d e, Rabs d <= u -> Rabs e <= u -> Rabs ((1 + d) * (1 + e) - 1) <= gam 2). { intros d e A B. apply gam_step; auto. rewrite gam_1. auto. }
    pose proof (G _ _ D1 He1) as T1. pose proof (G _ _ D2 He1) as T2. pose proof (G _ _ D3 He2) as T3. pose proof (G _ _ D4 He2) as T4. clear G.
    set (t1 := (1 + d1) * (1 + e1) - 1) in *. set (t2 := (1 + d2) * (1 + e1) - 1) in *. set (t3 := (1 + d3) * (1 + e2) - 1) in *. set (t4 := (1 + d4) * (1 + e2) - 1) in *.
    pose proof (gam_pos 2) as G. set (g := gam 2) in *.
    set (p := value a1) in *. set (q := value a2) in *. set (r := value b1) in *. set (w := value b2) in *.
    assert (Er' : value (sub (mul a1 b1) (mul a2 b2)) = p * r - q * w + (p * r * t1 - q * w * t2)) by (rewrite Er; unfold t1, t2; ring).
    assert (Ei' : value (add (mul a1 b2) (mul a2 b1)) = p * w + q * r + (p * w * t3 + q * r * t4)) by (rewrite Ei; unfold t3, t4; ring).
    unfold c_mul. cbn [c_re c_im re im ok2]. set (E1 := p * r * t1 - q * w * t2) in *. set (E2 := p * w * t3 + q * r * t4) in *.
    assert (B : E1² + E2² <= 2 * g² * (p² + q²) * (r² + w²)) by (apply cmul_bound; auto).
    assert (Q : forall v, 0 <= v²) by (intros; apply Rle_0_sqr). destruct (Req_dec (r² + w²) 0) as [Z|Z].
    - assert (r = 0 /\ w = 0) as (Zr & Zw). { pose proof (Q r). pose proof (Q w). split; apply Rsqr_0_uniq; lra. }
      exists p, q. split. { rewrite !Rminus_eq_0, Rsqr_0. pose proof (Q g). pose proof (Q p). pose proof (Q q). apply Rle_trans with 0; [lra|]. apply Rmult_le_pos; lra. }
      rewrite Er', Ei'. unfold E1, E2. rewrite Zr, Zw. cbn. unfold c_new. do 2 f_equal; ring.
    - assert (Pn : 0 < r² + w²) by (pose proof (Q r); pose proof (Q w); lra).
      exists (p + (E1 * r + E2 * w) / (r² + w²)), (q + (E2 * r - E1 * w) / (r² + w²)). split.
      + apply (Rmult_le_reg_r (r² + w²)); auto. eapply Rle_trans; [|exact B]. right. unfold Rsqr in *. field. auto.
      + rewrite Er', Ei'. cbn. unfold c_new. do 2 f_equal; unfold Rsqr in *; field; auto.
  Qed.
End Bk.

(** * Examples (f64): 0.1 * 3 + 3 * 0.1, where both products and the sum round *)
Definition tenth : spec_float := S754_finite false 7205759403792794 (-56).
Definition three : spec_float := S754_finite false 6755399441055744 (-51).
Lemma nu1 : forall r, 1 / 100 <= r -> no_underflow 1024 r.
Proof.
  intros r H. right. rewrite Rabs_pos_eq by lra. unfold min_normal. apply Rle_trans with (1 / 100); [|lra]. change 2 with (IZR (radix_val radix2)). rewrite <- bpow_powerRZ. apply Rle_trans with (bpow radix2 (-7)); [apply bpow_le; lia|]. cbn. lra.
Qed.
Lemma v_tenth : 1 / 16 <= value tenth.
Proof. unfold value, tenth. change 2 with (IZR (radix_val radix2)). rewrite <- bpow_powerRZ. replace (1 / 16) with (4503599627370496 * bpow radix2 (-56)) by (cbn; lra). apply Rmult_le_compat_r; [apply bpow_ge_0|]. lra. Qed.
Lemma v_three : value three = 3.
Proof. unfold value, three. change 2 with (IZR (radix_val radix2)). rewrite <- bpow_powerRZ. cbn. lra. Qed.
Example C118_ex : let s := S754_finite false 5404319552844596 (-53) in
  v_dot (sf_ops 53 1024 (fun x _ => x)) 2 [tenth; three] [three; tenth] = Ok s /\ exists x', v_close ((1 + roundoff 53) ^ 2 - 1) [tenth; three] x' /\ v_dot r_ops 2 x' (v_values [three; tenth]) = Ok (value s).
Proof.
  intros s. assert (E : v_dot (sf_ops 53 1024 (fun x _ => x)) 2 [tenth; three] [three; tenth] = Ok s) by (vm_compute; reflexivity). split; auto.
  assert (V : Forall (fun a => valid_binary 53 1024 a = true) [tenth; three]) by (repeat constructor). assert (W : Forall (fun a => valid_binary 53 1024 a = true) [three; tenth]) by (repeat constructor).
  destruct (@C118_dot 53 1024 (fun x _ => x) ltac:(lia) ltac:(lia) 2 [tenth; three] [three; tenth] s eq_refl eq_refl V W) as (X & _); auto.
  intros [|[|i]] Hi; [| |lia]; unfold vval; cbn [nth]; rewrite v_three; pose proof v_tenth; apply nu1; lra.
Qed.

Print Assumptions C118_sum.
Print Assumptions C118_dot.
Print Assumptions C118_add.
Print Assumptions C118_sub.
Print Assumptions C118_mul.
Print Assumptions C118_scale.
Print Assumptions C118_square_length.
Print Assumptions C118_length.
Print Assumptions C118_matrix_vector.
Print Assumptions C118_vector_matrix.
Print Assumptions C118_matrix_product.
Print Assumptions C118_affine.
Print Assumptions C118_complex_mul.
