(** C124: how space rotations compose: conjugation, half turns, commuting rotations, angles, Euler angles. *)
From Coq Require Import Reals Lra Psatz Field Lia.
From Verif Require Import SpecTransform SpecFacts MFacts AlgFacts CxFacts RealInst RealFacts PropReal PropAlgebra PropComplex PropSquare
  PropTransform PropToLinear PropRot PropLookAt PropSO3 PropCamera.
Set Implicit Arguments.
Local Open Scope R_scope.
Local Open Scope list_scope.

Local Notation fl := r_float.
Local Notation t3 := (rot3_transform r_ops).
Local Notation new eps := (rot3_new r_ops (fl eps)).
Local Notation angle eps := (rot3_angle r_ops (fl eps)).

(** r chained with itself k times. *)
Fixpoint chained (r : quat R) (k : nat) : res (quat R) := match k with O => t_identity t3 | S m => let! s := chained r m in t_chain t3 r s end.

Lemma chain_q : forall w i j k w' i' j' k', t_chain t3 (Qt w i j k) (Qt w' i' j' k') =
  Ok (Qt (w * w' - i * i' - j * j' - k * k') (w * i' + i * w' + j * k' - k * j') (w * j' - i * k' + j * w' + k * i') (w * k' + i * j' - j * i' + k * w')).
Proof. intros. cbn [t_chain rot3_transform]. rewrite (q_mul_v r_ring). reflexivity. Qed.
Lemma inv_q : forall w i j k, t_inv t3 (Qt w i j k) = Ok (Qt w (- i) (- j) (- k)).
Proof. intros. cbn [t_inv rot3_transform]. rewrite (q_conj_v r_ring). reflexivity. Qed.
Lemma apply_q : forall w i j k x y z, t_apply t3 (Qt w i j k) [x; y; z] = Ok
    [ (w * w + i * i - j * j - k * k) * x + ((i * j - w * k) + (i * j - w * k)) * y + ((i * k + w * j) + (i * k + w * j)) * z;
      ((i * j + w * k) + (i * j + w * k)) * x + (w * w - i * i + j * j - k * k) * y + ((j * k - w * i) + (j * k - w * i)) * z;
      ((i * k - w * j) + (i * k - w * j)) * x + ((j * k + w * i) + (j * k + w * i)) * y + (w * w - i * i - j * j + k * k) * z ].
Proof. intros. rewrite (rot3_apply_v r_ring). reflexivity. Qed.
Lemma dot_q : forall a b c d e f, v_dot r_ops 3 [a; b; c] [d; e; f] = Ok (a * d + b * e + c * f).
Proof. intros. rewrite (v_dot_3 r_ring). reflexivity. Qed.

(** Turning a rotation by [g] turns its axis and keeps its angle. *)
Theorem C124_conjugate : forall eps g n a n', unit_q r_ops g -> unit3 n -> t_apply t3 g n = Ok n' ->
  unit3 n' /\ (let! r := new eps n a in let! s := t_chain t3 g r in let! i := t_inv t3 g in t_chain t3 s i) = new eps n' a.
Proof.
  intros eps [w i j k] n a n' U N E. apply unit_q_r in U. destruct (unit3_v N) as (x & y & z & -> & H). rewrite apply_q in E. apply Ok_inj in E. subst n'. split.
  - apply unit3_i. transitivity ((w * w + i * i + j * j + k * k) * (w * w + i * i + j * j + k * k) * (x * x + y * y + z * z)); [ring|]. rewrite U, H. ring.
  - rewrite !rot3_new_v. cbn [bind]. rewrite chain_q. cbn [bind]. rewrite inv_q. cbn [bind]. rewrite chain_q. set (c := cos (a / 2)). set (s := sin (a / 2)). do 2 f_equal; try ring.
    transitivity ((w * w + i * i + j * j + k * k) * c); [ring|]. rewrite U. ring.
Qed.
(** The points a rotation fixes are those of its axis. *)
Lemma cos_1 : forall a, 0 < a < 2 * PI -> cos a < 1.
Proof.
  intros a H. destruct (half_angle a) as (H1 & H2 & _). pose proof (sin_gt_0 (a / 2) ltac:(lra) ltac:(lra)). nra.
Qed.
Theorem C124_fixed : forall eps n a x, unit3 n -> 0 < a < 2 * PI -> dim 3 x ->
  ((let! r := new eps n a in t_apply t3 r x) = Ok x <-> exists t, v_smul r_ops n t = Ok x).
Proof.
  intros eps n a x N Ha Hx. destruct (C61_new3 eps a N) as (r & E & _ & Ap & Fx). rewrite E. cbn [bind]. destruct (unit3_v N) as (i & j & k & -> & H). pose proof (cos_1 Ha) as C. split.
  - intros F. destruct (Ap x Hx) as (y & Y1 & Y2). rewrite F in Y1. apply Ok_inj in Y1. subst y. comps. revert Y2. unfold rodrigues, lift2.
    rewrite (v_smul_3 r_ring), (v_cross3_v r_ring). cbn [bind]. rewrite !(v_smul_3 r_ring), (v_dot_3 r_ring). cbn [bind]. rewrite (v_smul_3 r_ring), (v_add_3 r_ring). cbn [bind]. rewrite (v_add_3 r_ring). rc. intros Y. apply Ok_inj in Y. apply list3 in Y as (Y1 & Y2 & Y3).
    set (d := i * x0 + j * x1 + k * x2) in *. exists d. rewrite (v_smul_3 r_ring). rc. f_equal.
    assert (Q : (1 - cos a) * ((x0 - i * d) * (x0 - i * d) + (x1 - j * d) * (x1 - j * d) + (x2 - k * d) * (x2 - k * d)) = 0).
    { transitivity ((1 - cos a) * (x0 * x0 + x1 * x1 + x2 * x2 - 2 * (d * d) + (i * i + j * j + k * k) * (d * d))); [unfold d; ring|]. rewrite H.
      transitivity (x0 * x0 + x1 * x1 + x2 * x2 - (x0 * x0 + x1 * x1 + x2 * x2) * cos a - d * d * (1 - cos a)); [ring|].
      transitivity (x0 * (x0 * cos a + (j * x2 - k * x1) * sin a + i * (d * (1 - cos a))) + x1 * (x1 * cos a + (k * x0 - i * x2) * sin a + j * (d * (1 - cos a))) + x2 * (x2 * cos a + (i * x1 - j * x0) * sin a + k * (d * (1 - cos a))) - (x0 * x0 + x1 * x1 + x2 * x2) * cos a - d * d * (1 - cos a)).
      - rewrite Y1, Y2, Y3. ring.
      - unfold d. ring. }
    apply Rmult_integral in Q as [Q|Q]; [lra|]. pose proof (sqpos (x0 - i * d)). pose proof (sqpos (x1 - j * d)). pose proof (sqpos (x2 - k * d)).
    assert (Z : forall u, u * u = 0 -> u = 0) by (intros u Hu; apply Rmult_integral in Hu; tauto). listeq; symmetry; apply Rminus_diag_uniq, Z; lra.
  - intros (t & Ht). rewrite (v_smul_3 r_ring) in Ht. rc. revert Ht. rc. intros Ht. apply Ok_inj in Ht. subst x. destruct r as [w p q s]. rewrite apply_q in *. apply Ok_inj in Fx. apply list3 in Fx as (F1 & F2 & F3). f_equal.
    listeq; [revert F1|revert F2|revert F3]; match goal with |- ?e = _ -> _ => intros F; transitivity (t * e); [ring|rewrite F; ring] end.
Qed.
(** Chaining a rotation k times multiplies its angle by k; 2 pi is a whole turn. *)
Theorem C124_power : forall eps n a k, unit3 n -> (let! r := new eps n a in chained r k) = new eps n (INR k * a).
Proof.
  intros eps n a k N. pose proof N as N'. destruct (unit3_v N) as (x & y & z & En & _). induction k as [|k IH].
  - destruct (C61_add3 eps a a N) as (_ & _ & E). rewrite Rmult_0_l, E, En, rot3_new_v. reflexivity.
  - rewrite S_INR. replace ((INR k + 1) * a) with (a + INR k * a) by ring. destruct (C61_add3 eps a (INR k * a) N) as (E & _ & _). rewrite <- E, <- IH. rewrite En, rot3_new_v. reflexivity.
Qed.
Theorem C124_root : forall eps n k, unit3 n -> (0 < k)%nat -> forall x, dim 3 x ->
  (let! r := new eps n (2 * PI / INR k) in let! s := chained r k in t_apply t3 s x) = Ok x.
Proof.
  intros eps n k N Hk x Hx. pose proof (C124_power eps (2 * PI / INR k) k N) as P. apply lt_0_INR in Hk. replace (INR k * (2 * PI / INR k)) with (2 * PI) in P by (field; lra).
  destruct (unit3_v N) as (i & j & l & -> & H). rewrite !rot3_new_v in P. rewrite rot3_new_v. cbn [bind] in *. rewrite P. cbn [bind]. replace (2 * PI / 2) with PI by field. rewrite sin_PI, cos_PI. comps. rewrite apply_q. f_equal. listeq; ring.
Qed.

(** Two half turns about n and then m make the turn by twice the angle from n to m, about an axis orthogonal to both. *)
Theorem C124_half_turns : forall eps m n u f w, unit3 m -> unit3 n -> unit3 u -> v_dot r_ops 3 n m = Ok (cos f) ->
  v_cross3 r_ops n m = Ok w -> v_smul r_ops u (sin f) = Ok w ->
  forall x, dim 3 x -> (let! r := new eps m PI in let! s := new eps n PI in let! q := t_chain t3 r s in t_apply t3 q x) =! (let! q := new eps u (2 * f) in t_apply t3 q x).
Proof.
  intros eps m n u f w M N U D C W x Hx. destruct (unit3_v M) as (a & b & c & -> & HM), (unit3_v N) as (i & j & k & -> & HN), (unit3_v U) as (p & q & s & -> & HU).
  rewrite dot_q in D. apply Ok_inj in D. rewrite (v_cross3_v r_ring) in C. rewrite (v_smul_3 r_ring) in W. rewrite <- C in W. revert W. rc. intros W. apply Ok_inj in W. apply list3 in W as (W1 & W2 & W3). clear C w.
  rewrite !rot3_new_v. cbn [bind]. rewrite chain_q. cbn [bind]. replace (2 * f / 2) with f by field. rewrite cos_PI2, sin_PI2, W1, W2, W3, <- D. comps. rewrite !apply_q. eexists. split; [reflexivity|]. f_equal. listeq; ring.
Qed.
(** Every rotation is two half turns. *)
Lemma orthogonal_to : forall x y z, exists i j k, i * i + j * j + k * k = 1 /\ i * x + j * y + k * z = 0.
Proof.
  intros x y z. destruct (Req_dec (x * x + y * y) 0) as [Z|Z].
  - assert (x = 0 /\ y = 0) as (-> & ->) by (split; nra). exists 1, 0, 0. split; ring.
  - assert (P : 0 < x * x + y * y) by (pose proof (sqpos x); pose proof (sqpos y); lra). pose proof (sqrt_lt_R0 _ P) as L. pose proof (sqrt_sqrt (x * x + y * y) ltac:(lra)) as E. set (l := sqrt (x * x + y * y)) in *.
    exists (y / l), (- x / l), 0. split; [|field; lra]. transitivity ((x * x + y * y) / (l * l)); [field; lra|]. rewrite <- E. field. lra.
Qed.
Theorem C124_two_half_turns : forall eps r, unit_q r_ops r -> exists m n, unit3 m /\ unit3 n /\ (let! p := new eps m PI in let! q := new eps n PI in t_chain t3 p q) = Ok r.
Proof.
  intros eps [w x y z] U. apply unit_q_r in U. destruct (orthogonal_to x y z) as (i & j & k & H & D).
  exists [- w * i - (y * k - z * j); - w * j - (z * i - x * k); - w * k - (x * j - y * i)], [i; j; k]. split; [|split].
  - apply unit3_i. transitivity (w * w * (i * i + j * j + k * k) + (x * x + y * y + z * z) * (i * i + j * j + k * k) - (i * x + j * y + k * z) * (i * x + j * y + k * z)); [ring|]. rewrite D, H. lra.
  - apply unit3_i. auto.
  - rewrite !rot3_new_v. cbn [bind]. rewrite cos_PI2, sin_PI2, chain_q. f_equal. f_equal.
    + transitivity (w * (i * i + j * j + k * k)); [ring|]. rewrite H. ring.
    + transitivity (x * (i * i + j * j + k * k) - i * (i * x + j * y + k * z)); [ring|]. rewrite H, D. ring.
    + transitivity (y * (i * i + j * j + k * k) - j * (i * x + j * y + k * z)); [ring|]. rewrite H, D. ring.
    + transitivity (z * (i * i + j * j + k * k) - k * (i * x + j * y + k * z)); [ring|]. rewrite H, D. ring.
Qed.

(** Which rotations commute: those about one axis, and half turns about orthogonal axes. *)
Theorem C124_commute : forall eps n m a b, unit3 n -> unit3 m -> 0 < a < 2 * PI -> 0 < b < 2 * PI ->
  (forall x, dim 3 x -> (let! r := new eps n a in let! s := new eps m b in let! q := t_chain t3 r s in t_apply t3 q x) =
    (let! r := new eps n a in let! s := new eps m b in let! q := t_chain t3 s r in t_apply t3 q x)) <->
  Ok m = Ok n \/ Ok m = v_neg r_ops n \/ (a = PI /\ b = PI /\ v_dot r_ops 3 n m = Ok 0).
Proof.
  intros eps n m a b N M Ha Hb. destruct (unit3_v N) as (i & j & k & -> & H), (unit3_v M) as (p & q & s & -> & H'). rewrite !rot3_new_v. cbn [bind]. rewrite !chain_q. cbn [bind]. rewrite (v_neg_3 r_ring), dot_q. rc.
  destruct (half_angle a) as (A1 & _ & _), (half_angle b) as (B1 & _ & _). pose proof (sin_gt_0 (a / 2) ltac:(lra) ltac:(lra)) as SA. pose proof (sin_gt_0 (b / 2) ltac:(lra) ltac:(lra)) as SB.
  assert (CA : cos (a / 2) = 0 -> a = PI). { intros Z. destruct (Rtotal_order a PI) as [L|[L|L]]; auto. { pose proof (cos_gt_0 (a / 2) ltac:(lra) ltac:(lra)). lra. } { pose proof (cos_lt_0 (a / 2) ltac:(lra) ltac:(lra)). lra. } }
  assert (CB : cos (b / 2) = 0 -> b = PI). { intros Z. destruct (Rtotal_order b PI) as [L|[L|L]]; auto. { pose proof (cos_gt_0 (b / 2) ltac:(lra) ltac:(lra)). lra. } { pose proof (cos_lt_0 (b / 2) ltac:(lra) ltac:(lra)). lra. } }
  set (c := cos (a / 2)) in *. set (d := sin (a / 2)) in *. set (c' := cos (b / 2)) in *. set (d' := sin (b / 2)) in *.
  assert (Z : forall u, u * u = 0 -> u = 0) by (intros u Hu; apply Rmult_integral in Hu; tauto).
  assert (Par : j * s - k * q = 0 -> k * p - i * s = 0 -> i * q - j * p = 0 -> [p; q; s] = [i; j; k] \/ [p; q; s] = [- i; - j; - k]).
  { intros X1 X2 X3. set (t := i * p + j * q + k * s).
    assert (P1 : p = t * i). { unfold t. transitivity (p * (i * i + j * j + k * k) - j * (i * q - j * p) * 0); [rewrite H; ring|]. replace (p * (i * i + j * j + k * k)) with ((i * p + j * q + k * s) * i + (k * (k * p - i * s) - j * (i * q - j * p))) by ring. rewrite X2, X3. ring. }
    assert (P2 : q = t * j). { unfold t. transitivity (q * (i * i + j * j + k * k)); [rewrite H; ring|]. replace (q * (i * i + j * j + k * k)) with ((i * p + j * q + k * s) * j + (i * (i * q - j * p) - k * (j * s - k * q))) by ring. rewrite X1, X3. ring. }
    assert (P3 : s = t * k). { unfold t. transitivity (s * (i * i + j * j + k * k)); [rewrite H; ring|]. replace (s * (i * i + j * j + k * k)) with ((i * p + j * q + k * s) * k + (j * (j * s - k * q) - i * (k * p - i * s))) by ring. rewrite X1, X2. ring. }
    assert (T : (t - 1) * (t + 1) = 0). { rewrite P1, P2, P3 in H'. transitivity (t * t * (i * i + j * j + k * k) - 1); [rewrite H; ring|]. lra. }
    apply Rmult_integral in T as [T|T]; [left; assert (t = 1) as T' by lra|right; assert (t = -1) as T' by lra]; rewrite P1, P2, P3, T'; clear; listeq; ring. }
  split.
  - intros Hx.
    assert (U1 : unit_q r_ops (Qt (c * c' - i * d * (p * d') - j * d * (q * d') - k * d * (s * d')) (c * (p * d') + i * d * c' + j * d * (s * d') - k * d * (q * d')) (c * (q * d') - i * d * (s * d') + j * d * c' + k * d * (p * d')) (c * (s * d') + i * d * (q * d') - j * d * (p * d') + k * d * c'))).
    { apply unit_q_r. transitivity ((c * c + (i * i + j * j + k * k) * (d * d)) * (c' * c' + (p * p + q * q + s * s) * (d' * d'))); [ring|]. rewrite H, H'. replace (c * c + 1 * (d * d)) with 1 by lra. replace (c' * c' + 1 * (d' * d')) with 1 by lra. ring. }
    assert (U2 : unit_q r_ops (Qt (c' * c - p * d' * (i * d) - q * d' * (j * d) - s * d' * (k * d)) (c' * (i * d) + p * d' * c + q * d' * (k * d) - s * d' * (j * d)) (c' * (j * d) - p * d' * (k * d) + q * d' * c + s * d' * (i * d)) (c' * (k * d) + p * d' * (j * d) - q * d' * (i * d) + s * d' * c))).
    { apply unit_q_r. transitivity ((c * c + (i * i + j * j + k * k) * (d * d)) * (c' * c' + (p * p + q * q + s * s) * (d' * d'))); [ring|]. rewrite H, H'. replace (c * c + 1 * (d * d)) with 1 by lra. replace (c' * c' + 1 * (d' * d')) with 1 by lra. ring. }
    destruct (@C102_rot3_unique _ _ U2 U1 Hx) as [E|E].
    + apply Ok_inj in E. injection E as _ E1 E2 E3. assert (DD : 0 < d * d') by (apply Rmult_lt_0_compat; auto).
      destruct Par as [->| ->]; auto; apply (Rmult_eq_reg_l (d * d')); try lra; lra.
    + rewrite (q_neg_v r_ring) in E. cbn [qw qx qy qz] in E. revert E. rc. intros E. apply Ok_inj in E. injection E as E0 E1 E2 E3.
      assert (V1 : c * d' * p + d * c' * i = 0) by lra. assert (V2 : c * d' * q + d * c' * j = 0) by lra. assert (V3 : c * d' * s + d * c' * k = 0) by lra.
      assert (V0 : c * c' = d * d' * (i * p + j * q + k * s)) by lra.
      set (t := i * p + j * q + k * s) in *.
      assert (W1 : c * d' * t + d * c' = 0). { transitivity (i * (c * d' * p + d * c' * i) + j * (c * d' * q + d * c' * j) + k * (c * d' * s + d * c' * k) + d * c' * (1 - (i * i + j * j + k * k))); [unfold t; ring|]. rewrite V1, V2, V3, H. ring. }
      destruct (Req_dec c 0) as [C0|C0].
      * assert (c' = 0). { rewrite C0 in W1. apply (Rmult_eq_reg_l d); lra. } right. right. split; [auto|]. split; [auto|]. f_equal. apply (Rmult_eq_reg_l (d * d')); [|apply Rgt_not_eq; apply Rmult_lt_0_compat; auto]. rewrite <- V0, C0. ring.
      * assert (Cd : c * d' <> 0) by (apply Rmult_integral_contrapositive_currified; lra).
        destruct Par as [->| ->]; auto; apply (Rmult_eq_reg_l (c * d')); auto.
        -- transitivity (j * (c * d' * s + d * c' * k) - k * (c * d' * q + d * c' * j)); [ring|]. rewrite V2, V3. ring.
        -- transitivity (k * (c * d' * p + d * c' * i) - i * (c * d' * s + d * c' * k)); [ring|]. rewrite V1, V3. ring.
        -- transitivity (i * (c * d' * q + d * c' * j) - j * (c * d' * p + d * c' * i)); [ring|]. rewrite V1, V2. ring.
  - intros [E|[E|(-> & -> & E)]] x Hx; comps; rewrite !apply_q.
    + apply Ok_inj in E. apply list3 in E as (-> & -> & ->). f_equal. listeq; ring.
    + apply Ok_inj in E. apply list3 in E as (-> & -> & ->). f_equal. listeq; ring.
    + apply Ok_inj in E. unfold c, d, c', d'. rewrite cos_PI2, sin_PI2. assert (E' : s * k = - (i * p) - j * q) by lra.
      replace (0 * 0 - i * 1 * (p * 1) - j * 1 * (q * 1) - k * 1 * (s * 1)) with 0 by lra. replace (0 * 0 - p * 1 * (i * 1) - q * 1 * (j * 1) - s * 1 * (k * 1)) with 0 by lra. f_equal. listeq; ring.
Qed.

(** * Angles *)
(* the scalar part is the cosine of half the angle *)
Lemma angle_q : forall eps w i j k, w * w + i * i + j * j + k * k = 1 -> exists a, angle eps (Qt w i j k) = Ok a /\ 0 <= a <= 2 * PI /\ w = cos (a / 2) /\ sqrt (i * i + j * j + k * k) = sin (a / 2) /\ i * i + j * j + k * k = sin (a / 2) * sin (a / 2).
Proof.
  intros eps w i j k U. destruct (rot3_parts_v eps w i j k) as (_ & E). rewrite E. eexists. split; [reflexivity|]. pose proof (sqpos i). pose proof (sqpos j). pose proof (sqpos k).
  pose proof (sqrt_pos (i * i + j * j + k * k)) as L. pose proof (sqrt_sqrt (i * i + j * j + k * k) ltac:(lra)) as Q. set (l := sqrt (i * i + j * j + k * k)) in *.
  destruct (atan2_spec w l) as (A & B). replace (w * w + l * l) with 1 in * by lra. rewrite sqrt_1, !Rmult_1_l in *. pose proof (atan2_bound w l) as Bd. pose proof PI_RGT_0.
  replace (2 * atan2 l w / 2) with (atan2 l w) by field. rewrite A, B. repeat split; auto; try lra.
  destruct (Rle_dec 0 (atan2 l w)) as [P|P]; [lra|]. exfalso. pose proof (sin_gt_0 (- atan2 l w) ltac:(lra) ltac:(lra)) as S1. rewrite sin_neg, B in S1. lra.
Qed.
Lemma cos_angle_le : forall c d, 0 <= c <= 2 * PI -> 0 <= d <= 2 * PI -> cos (d / 2) <= cos (c / 2) -> c <= d.
Proof.
  intros c d Hc Hd H. destruct (Rle_dec c d) as [L|L]; auto. pose proof (cos_decreasing_1 (d / 2) (c / 2) ltac:(lra) ltac:(lra) ltac:(lra) ltac:(lra) ltac:(lra)). lra.
Qed.
Lemma cos_angle_eq : forall c d, 0 <= c <= 2 * PI -> 0 <= d <= 2 * PI -> cos (d / 2) = cos (c / 2) -> c = d.
Proof. intros. apply Rle_antisym; apply cos_angle_le; lra. Qed.
(** The angle of a composition (Rodrigues). *)
Theorem C124_angle : forall eps n m a b d, unit3 n -> unit3 m -> v_dot r_ops 3 n m = Ok d -> exists c,
  (let! r := new eps n a in let! s := new eps m b in let! q := t_chain t3 r s in angle eps q) = Ok c /\ 0 <= c <= 2 * PI /\
  cos (c / 2) = cos (a / 2) * cos (b / 2) - d * (sin (a / 2) * sin (b / 2)).
Proof.
  intros eps n m a b d N M D. destruct (unit3_v N) as (i & j & k & -> & H), (unit3_v M) as (p & q & s & -> & H'). rewrite dot_q in D. apply Ok_inj in D. subst d. rewrite !rot3_new_v. cbn [bind]. rewrite chain_q. cbn [bind].
  pose proof (sc1 (a / 2)) as A. pose proof (sc1 (b / 2)) as B. set (c := cos (a / 2)) in *. set (t := sin (a / 2)) in *. set (c' := cos (b / 2)) in *. set (t' := sin (b / 2)) in *.
  match goal with |- context [angle eps (Qt ?w ?x ?y ?z)] => destruct (@angle_q eps w x y z) as (g & E & G & W & _) end.
  { transitivity ((c * c + (i * i + j * j + k * k) * (t * t)) * (c' * c' + (p * p + q * q + s * s) * (t' * t'))); [ring|]. rewrite H, H'. replace (c * c + 1 * (t * t)) with 1 by lra. replace (c' * c' + 1 * (t' * t')) with 1 by lra. ring. }
  exists g. split; auto. split; auto. rewrite <- W. ring.
Qed.
(** The angle is a metric: the angle of a composition is at most the sum, and at least the difference, of the angles;
    inverses have the same angle, and so do conjugates. *)
Lemma triangle : forall eps r s, unit_q r_ops r -> unit_q r_ops s -> exists a b c, angle eps r = Ok a /\ angle eps s = Ok b /\
  (let! q := t_chain t3 r s in angle eps q) = Ok c /\ 0 <= a <= 2 * PI /\ 0 <= b <= 2 * PI /\ 0 <= c <= 2 * PI /\ c <= a + b /\ c <= 4 * PI - (a + b).
Proof.
  intros eps [w i j k] [w' i' j' k'] U U'. pose proof U as V. pose proof U' as V'. apply unit_q_r in U, U'. destruct (angle_q eps U) as (a & Ea & Ha & Wa & Sa & Qa), (angle_q eps U') as (b & Eb & Hb & Wb & Sb & Qb). rewrite chain_q. cbn [bind].
  destruct (@angle_q eps (w * w' - i * i' - j * j' - k * k') (w * i' + i * w' + j * k' - k * j') (w * j' - i * k' + j * w' + k * i') (w * k' + i * j' - j * i' + k * w')) as (c & Ec & Hc & Wc & _).
  { transitivity ((w * w + i * i + j * j + k * k) * (w' * w' + i' * i' + j' * j' + k' * k')); [ring|]. rewrite U, U'. ring. }
  exists a, b, c. do 6 (split; [auto|]).
  assert (CS : i * i' + j * j' + k * k' <= sin (a / 2) * sin (b / 2)).
  { assert (0 <= sin (a / 2)) by (rewrite <- Sa; apply sqrt_pos). assert (0 <= sin (b / 2)) by (rewrite <- Sb; apply sqrt_pos). apply Rsqr_incr_0_var; [|apply Rmult_le_pos; auto]. unfold Rsqr.
    replace (sin (a / 2) * sin (b / 2) * (sin (a / 2) * sin (b / 2))) with ((sin (a / 2) * sin (a / 2)) * (sin (b / 2) * sin (b / 2))) by ring. rewrite <- Qa, <- Qb.
    pose proof (sqpos (i * j' - j * i')). pose proof (sqpos (i * k' - k * i')). pose proof (sqpos (j * k' - k * j')). lra. }
  assert (W : cos ((a + b) / 2) <= cos (c / 2)). { rewrite <- Wc. replace ((a + b) / 2) with (a / 2 + b / 2) by field. rewrite cos_plus, <- Wa, <- Wb. lra. }
  destruct (Rle_dec (a + b) (2 * PI)) as [L|L].
  - split; [apply cos_angle_le; auto; lra|lra].
  - split; [lra|]. apply cos_angle_le; try lra. replace ((4 * PI - (a + b)) / 2) with (- ((a + b) / 2) + 2 * INR 1 * PI) by (cbn; field). rewrite cos_period, cos_neg. exact W.
Qed.
Theorem C124_angle_inv : forall eps r, unit_q r_ops r -> (let! i := t_inv t3 r in angle eps i) =! angle eps r.
Proof.
  intros eps [w i j k] U. rewrite inv_q. cbn [bind]. destruct (rot3_parts_v eps w i j k) as (_ & E), (rot3_parts_v eps w (- i) (- j) (- k)) as (_ & E'). rewrite E, E'. eexists. split; [reflexivity|]. do 4 f_equal. ring.
Qed.
Theorem C124_angle_conjugate : forall eps g r, unit_q r_ops g -> unit_q r_ops r ->
  (let! s := t_chain t3 g r in let! i := t_inv t3 g in let! q := t_chain t3 s i in angle eps q) =! angle eps r.
Proof.
  intros eps [w i j k] [a x y z] U U'. apply unit_q_r in U, U'. rewrite chain_q. cbn [bind]. rewrite inv_q. cbn [bind]. rewrite chain_q. cbn [bind].
  match goal with |- context [angle eps (Qt ?w ?x ?y ?z)] => destruct (@angle_q eps w x y z) as (c & Ec & Hc & Wc & _) end.
  { transitivity ((w * w + i * i + j * j + k * k) * (w * w + i * i + j * j + k * k) * (a * a + x * x + y * y + z * z)); [ring|]. rewrite U, U'. ring. }
  destruct (angle_q eps U') as (b & Eb & Hb & Wb & _). exists c. split; auto. rewrite Eb. f_equal. apply cos_angle_eq; auto. rewrite <- Wc, <- Wb. transitivity ((w * w + i * i + j * j + k * k) * a); [ring|]. rewrite U. ring.
Qed.
Theorem C124_triangle : forall eps r s, unit_q r_ops r -> unit_q r_ops s -> exists a b c, angle eps r = Ok a /\ angle eps s = Ok b /\
  (let! q := t_chain t3 r s in angle eps q) = Ok c /\ Rabs (a - b) <= c <= a + b /\ c <= 4 * PI - (a + b).
Proof.
  intros eps r s U V. destruct (triangle eps U V) as (a & b & c & Ea & Eb & Ec & Ha & Hb & Hc & T1 & T2). exists a, b, c. do 3 (split; [auto|]). split; [|auto]. split; [|auto].
  destruct r as [w i j k], s as [w' i' j' k']. pose proof U as U1. pose proof V as V1. apply unit_q_r in U1, V1. rewrite chain_q in Ec. cbn [bind] in Ec.
  assert (Ui : unit_q r_ops (Qt w (- i) (- j) (- k))) by (apply unit_q_r; rewrite <- U1; ring). assert (Vi : unit_q r_ops (Qt w' (- i') (- j') (- k'))) by (apply unit_q_r; rewrite <- V1; ring).
  destruct (C124_angle_inv eps U) as (a1 & A1 & A2). rewrite inv_q in A1. cbn [bind] in A1. rewrite Ea in A2. apply Ok_inj in A2. subst a1.
  destruct (C124_angle_inv eps V) as (b1 & B1 & B2). rewrite inv_q in B1. cbn [bind] in B1. rewrite Eb in B2. apply Ok_inj in B2. subst b1.
  match type of Ec with angle eps ?q = _ => assert (Uc : unit_q r_ops q) end.
  { apply unit_q_r. transitivity ((w * w + i * i + j * j + k * k) * (w' * w' + i' * i' + j' * j' + k' * k')); [ring|]. rewrite U1, V1. ring. }
  assert (K1 : a <= c + b).
  { destruct (triangle eps Uc Vi) as (c1 & b1 & a1 & E1 & E2 & E3 & _ & _ & _ & T & _). rewrite Ec in E1. apply Ok_inj in E1. rewrite B1 in E2. apply Ok_inj in E2. subst c1 b1. rewrite chain_q in E3. cbn [bind] in E3.
    match type of E3 with angle eps ?q = _ => replace q with (Qt w i j k) in E3 end.
    - rewrite Ea in E3. apply Ok_inj in E3. lra.
    - f_equal; [transitivity (w * (w' * w' + i' * i' + j' * j' + k' * k'))|transitivity (i * (w' * w' + i' * i' + j' * j' + k' * k'))|transitivity (j * (w' * w' + i' * i' + j' * j' + k' * k'))|transitivity (k * (w' * w' + i' * i' + j' * j' + k' * k'))]; try (rewrite V1; ring); ring. }
  assert (K2 : b <= a + c).
  { destruct (triangle eps Ui Uc) as (a1 & c1 & b1 & E1 & E2 & E3 & _ & _ & _ & T & _). rewrite Ec in E2. apply Ok_inj in E2. rewrite A1 in E1. apply Ok_inj in E1. subst c1 a1. rewrite chain_q in E3. cbn [bind] in E3.
    match type of E3 with angle eps ?q = _ => replace q with (Qt w' i' j' k') in E3 end.
    - rewrite Eb in E3. apply Ok_inj in E3. lra.
    - f_equal; [transitivity (w' * (w * w + i * i + j * j + k * k))|transitivity (i' * (w * w + i * i + j * j + k * k))|transitivity (j' * (w * w + i * i + j * j + k * k))|transitivity (k' * (w * w + i * i + j * j + k * k))]; try (rewrite U1; ring); ring. }
  apply Rabs_le. lra.
Qed.
(** No direction is turned by more than the angle, and the directions orthogonal to the axis by exactly the angle. *)
Theorem C124_displacement : forall eps r a x, unit_q r_ops r -> angle eps r = Ok a -> dim 3 x -> exists y d e v f, t_apply t3 r x = Ok y /\
  v_dot r_ops 3 x y = Ok d /\ v_dot r_ops 3 x x = Ok e /\ q_xyz r = Ok v /\ v_dot r_ops 3 v x = Ok f /\ d = cos a * e + 2 * (f * f).
Proof.
  intros eps [w i j k] a x U A Hx. apply unit_q_r in U. destruct (angle_q eps U) as (a' & Ea & Ha & Wa & _ & Sa). rewrite A in Ea. apply Ok_inj in Ea. subst a'. destruct (half_angle a) as (_ & C & _). comps.
  rewrite apply_q. change (q_xyz (Qt w i j k)) with (Ok [i; j; k]). do 5 eexists. split; [reflexivity|]. split; [apply dot_q|]. split; [apply dot_q|]. split; [reflexivity|]. split; [apply dot_q|]. rewrite C, <- Wa, <- Sa. ring.
Qed.
(** The trace of the rotation matrix is 1 + 2 cos (angle). *)
Theorem C124_trace : forall eps r a, unit_q r_ops r -> angle eps r = Ok a -> exists m, rot3_to_linear r_ops (fl eps) r = Ok m /\
  mget r_ops m 0 0 + mget r_ops m 1 1 + mget r_ops m 2 2 = 1 + 2 * cos a.
Proof.
  intros eps [w i j k] a U A. pose proof U as V. apply unit_q_r in U. destruct (angle_q eps U) as (a' & Ea & Ha & Wa & _ & Sa). rewrite A in Ea. apply Ok_inj in Ea. subst a'. destruct (half_angle a) as (_ & C & _). rewrite C, <- Wa, <- Sa.
  rewrite (rot3_to_linear_unit r_ring (fl eps) (two_r eps)) by exact U. eexists. split; [reflexivity|]. cbn. lra.
Qed.

(** * Euler angles *)
(* polar form of a pair *)
Lemma polar : forall x y, exists t, sqrt (x * x + y * y) * cos t = x /\ sqrt (x * x + y * y) * sin t = y.
Proof. intros x y. exists (atan2 y x). apply atan2_spec. Qed.
(** Every rotation is a turn about z, then one about x by at most a half turn, then one about z; *)
Theorem C124_euler_zxz : forall eps r, unit_q r_ops r -> exists a b c, 0 <= b <= PI /\
  (let! p := new eps [0; 0; 1] a in let! q := new eps [1; 0; 0] b in let! s := new eps [0; 0; 1] c in let! u := t_chain t3 p q in t_chain t3 u s) = Ok r.
Proof.
  intros eps [w i j k] U. apply unit_q_r in U. destruct (polar w k) as (u & E1 & E2), (polar i j) as (v & E3 & E4). pose proof (sqpos w). pose proof (sqpos k). pose proof (sqpos i). pose proof (sqpos j).
  pose proof (sqrt_sqrt (w * w + k * k) ltac:(lra)) as Q1. pose proof (sqrt_sqrt (i * i + j * j) ltac:(lra)) as Q2. pose proof (sqrt_pos (w * w + k * k)) as P1. pose proof (sqrt_pos (i * i + j * j)) as P2.
  set (p := sqrt (w * w + k * k)) in *. set (q := sqrt (i * i + j * j)) in *. destruct (polar p q) as (h & G1 & G2). replace (p * p + q * q) with 1 in * by lra. rewrite sqrt_1, Rmult_1_l in *.
  assert (Hh : exists h, 0 <= h <= PI / 2 /\ cos h = p /\ sin h = q).
  { destruct (atan2_spec p q) as (A & B). replace (p * p + q * q) with 1 in * by lra. rewrite sqrt_1, Rmult_1_l in *. exists (atan2 q p). split; auto. pose proof (atan2_bound p q). pose proof PI_RGT_0. split.
    - destruct (Rle_dec 0 (atan2 q p)) as [L|L]; auto. pose proof (sin_gt_0 (- atan2 q p) ltac:(lra) ltac:(lra)) as S1. rewrite sin_neg in S1. lra.
    - destruct (Rle_dec (atan2 q p) (PI / 2)) as [L|L]; auto. pose proof (cos_lt_0 (atan2 q p) ltac:(lra) ltac:(lra)). lra. }
  clear h G1 G2. destruct Hh as (h & Hh & G1 & G2). exists (u + v), (2 * h), (u - v). split; [lra|]. rewrite !rot3_new_v. cbn [bind]. rewrite chain_q. cbn [bind]. rewrite chain_q.
  replace (2 * h / 2) with h by field. rewrite G1, G2. f_equal.
  assert (C1 : cos ((u + v) / 2) * cos ((u - v) / 2) - sin ((u + v) / 2) * sin ((u - v) / 2) = cos u) by (rewrite <- cos_plus; f_equal; field).
  assert (C2 : sin ((u + v) / 2) * cos ((u - v) / 2) + cos ((u + v) / 2) * sin ((u - v) / 2) = sin u) by (rewrite <- sin_plus; f_equal; field).
  assert (C3 : cos ((u + v) / 2) * cos ((u - v) / 2) + sin ((u + v) / 2) * sin ((u - v) / 2) = cos v) by (rewrite <- cos_minus; f_equal; field).
  assert (C4 : sin ((u + v) / 2) * cos ((u - v) / 2) - cos ((u + v) / 2) * sin ((u - v) / 2) = sin v) by (rewrite <- sin_minus; f_equal; field).
  f_equal; [rewrite <- E1, <- C1|rewrite <- E3, <- C3|rewrite <- E4, <- C4|rewrite <- E2, <- C2]; ring.
Qed.
(* a rotation that fixes x is a turn about x *)
Lemma fixes_x : forall eps r, unit_q r_ops r -> t_apply t3 r [1; 0; 0] = Ok [1; 0; 0] -> exists c, new eps [1; 0; 0] c = Ok r.
Proof.
  intros eps [w i j k] U A. apply unit_q_r in U. rewrite apply_q in A. apply Ok_inj in A. apply list3 in A as (A & _ & _).
  assert (j = 0 /\ k = 0) as (-> & ->) by (pose proof (sqpos j); pose proof (sqpos k); split; nra). destruct (polar w i) as (t & E1 & E2). replace (w * w + i * i) with 1 in * by lra. rewrite sqrt_1, Rmult_1_l in *.
  exists (2 * t). rewrite rot3_new_v. replace (2 * t / 2) with t by field. rewrite E1, E2. f_equal. f_equal; ring.
Qed.
(** or a turn about x (roll), then one about y by at most a right angle (pitch), then one about z (yaw). *)
Theorem C124_euler_zyx : forall eps r, unit_q r_ops r -> exists a b c, - (PI / 2) <= b <= PI / 2 /\
  (let! p := new eps [0; 0; 1] a in let! q := new eps [0; 1; 0] b in let! s := new eps [1; 0; 0] c in let! u := t_chain t3 p q in t_chain t3 u s) = Ok r.
Proof.
  intros eps [w i j k] U. pose proof U as U1. apply unit_q_r in U1. 
  set (X := w * w + i * i - j * j - k * k). set (Y := (i * j + w * k) + (i * j + w * k)). set (Z := (i * k - w * j) + (i * k - w * j)).
  assert (N : X * X + Y * Y + Z * Z = 1). { unfold X, Y, Z. transitivity ((w * w + i * i + j * j + k * k) * (w * w + i * i + j * j + k * k)); [ring|]. rewrite U1. ring. }
  destruct (polar X Y) as (a & A1 & A2). pose proof (sqpos X). pose proof (sqpos Y). pose proof (sqrt_sqrt (X * X + Y * Y) ltac:(lra)) as Q. pose proof (sqrt_pos (X * X + Y * Y)) as P. set (p := sqrt (X * X + Y * Y)) in *.
  assert (Hb : exists b, - (PI / 2) <= b <= PI / 2 /\ cos b = p /\ sin b = - Z).
  { destruct (atan2_spec p (- Z)) as (B1 & B2). replace (p * p + - Z * - Z) with 1 in * by lra. rewrite sqrt_1, Rmult_1_l in *. exists (atan2 (- Z) p). split; auto. pose proof (atan2_bound p (- Z)). pose proof PI_RGT_0.
    split; match goal with |- ?u <= ?v => destruct (Rle_dec u v) as [L|L]; auto end.
    - pose proof (cos_lt_0 (- atan2 (- Z) p) ltac:(lra) ltac:(lra)) as C. rewrite cos_neg in C. lra.
    - pose proof (cos_lt_0 (atan2 (- Z) p) ltac:(lra) ltac:(lra)). lra. }
  destruct Hb as (b & Hb & B1 & B2). 
  destruct (half_angle a) as (Sa & Ca & Da), (half_angle b) as (Sb & Cb & Db). set (ca := cos (a / 2)) in *. set (sa := sin (a / 2)) in *. set (cb := cos (b / 2)) in *. set (sb := sin (b / 2)) in *.
  (* p q = (ca cb, - sa sb, ca sb, sa cb) *)
  pose (W := ca * cb). pose (I := - (sa * sb)). pose (J := ca * sb). pose (K := sa * cb).
  assert (N' : W * W + I * I + J * J + K * K = 1). { unfold W, I, J, K. transitivity ((ca * ca + sa * sa) * (cb * cb + sb * sb)); [ring|]. rewrite Sa, Sb. ring. }
  assert (F1 : W * W + I * I - J * J - K * K = X). { rewrite <- A1, <- B1, Ca, Cb. unfold W, I, J, K. ring. }
  assert (F2 : (I * J + W * K) + (I * J + W * K) = Y). { rewrite <- A2, <- B1, Da, Cb. unfold W, I, J, K. ring. }
  assert (F3 : (I * K - W * J) + (I * K - W * J) = Z). { transitivity (- (- Z)); [rewrite <- B2, Db|ring]. unfold W, I, J, K. transitivity (- (2 * sb * cb) * (ca * ca + sa * sa)); [ring|rewrite Sa; ring]. }
  destruct (@fixes_x eps (Qt (W * w + I * i + J * j + K * k) (W * i - I * w - J * k + K * j) (W * j + I * k - J * w - K * i) (W * k - I * j + J * i - K * w))) as (c & Hc).
  - apply unit_q_r. transitivity ((W * W + I * I + J * J + K * K) * (w * w + i * i + j * j + k * k)); [ring|]. rewrite N', U1. ring.
  - rewrite apply_q. assert (G : forall x : R, x = (W * W + I * I - J * J - K * K) * X + ((I * J + W * K) + (I * J + W * K)) * Y + ((I * K - W * J) + (I * K - W * J)) * Z -> x = 1) by (intros x ->; rewrite F1, F2, F3; exact N).
    assert (G2 : forall x : R, x = ((I * J - W * K) + (I * J - W * K)) * (W * W + I * I - J * J - K * K) + (W * W - I * I + J * J - K * K) * ((I * J + W * K) + (I * J + W * K)) + ((J * K + W * I) + (J * K + W * I)) * ((I * K - W * J) + (I * K - W * J)) -> x = 0) by (intros x ->; ring).
    assert (G3 : forall x : R, x = ((I * K + W * J) + (I * K + W * J)) * (W * W + I * I - J * J - K * K) + ((J * K - W * I) + (J * K - W * I)) * ((I * J + W * K) + (I * J + W * K)) + (W * W - I * I - J * J + K * K) * ((I * K - W * J) + (I * K - W * J)) -> x = 0) by (intros x ->; ring).
    f_equal. listeq.
    + apply G. unfold X, Y, Z. ring.
    + apply G2. rewrite F1, F2, F3. unfold X, Y, Z. ring.
    + apply G3. rewrite F1, F2, F3. unfold X, Y, Z. ring.
  - exists a, b, c. split; auto. rewrite Hc, !rot3_new_v. fold ca sa cb sb. cbn [bind]. rewrite chain_q. cbn [bind]. rewrite chain_q.
    replace (ca * cb - 0 * sa * (0 * sb) - 0 * sa * (1 * sb) - 1 * sa * (0 * sb)) with W by (unfold W; ring). replace (ca * (0 * sb) + 0 * sa * cb + 0 * sa * (0 * sb) - 1 * sa * (1 * sb)) with I by (unfold I; ring).
    replace (ca * (1 * sb) - 0 * sa * (0 * sb) + 0 * sa * cb + 1 * sa * (0 * sb)) with J by (unfold J; ring). replace (ca * (0 * sb) + 0 * sa * (1 * sb) - 0 * sa * (0 * sb) + 1 * sa * cb) with K by (unfold K; ring).
    clearbody W I J K. f_equal. f_equal; [transitivity (w * (W * W + I * I + J * J + K * K))|transitivity (i * (W * W + I * I + J * J + K * K))|transitivity (j * (W * W + I * I + J * J + K * K))|transitivity (k * (W * W + I * I + J * J + K * K))]; try (rewrite N'; ring); ring.
Qed.
(** At a pitch of a right angle yaw and roll are not determined (gimbal lock): only their difference matters. *)
Theorem C124_gimbal_lock : forall eps a c t,
  (let! p := new eps [0; 0; 1] (a + t) in let! q := new eps [0; 1; 0] (PI / 2) in let! s := new eps [1; 0; 0] (c + t) in let! u := t_chain t3 p q in t_chain t3 u s) =!
  (let! p := new eps [0; 0; 1] a in let! q := new eps [0; 1; 0] (PI / 2) in let! s := new eps [1; 0; 0] c in let! u := t_chain t3 p q in t_chain t3 u s).
Proof.
  intros eps a c t.
  assert (V : forall a c, (let! p := new eps [0; 0; 1] a in let! q := new eps [0; 1; 0] (PI / 2) in let! s := new eps [1; 0; 0] c in let! u := t_chain t3 p q in t_chain t3 u s) =
    Ok (let d := (a - c) / 2 in let h := cos (PI / 4) in Qt (h * cos d) (- (h * sin d)) (h * cos d) (h * sin d))).
  { clear. intros a c. rewrite !rot3_new_v. cbn [bind]. rewrite chain_q. cbn [bind]. rewrite chain_q. cbv zeta. replace (PI / 2 / 2) with (PI / 4) by field. replace (sin (PI / 4)) with (cos (PI / 4)) by (rewrite cos_PI4, sin_PI4; reflexivity).
    replace ((a - c) / 2) with (a / 2 - c / 2) by field. rewrite cos_minus, sin_minus. f_equal. f_equal; ring. }
  rewrite !V. cbv zeta. replace (a + t - (c + t)) with (a - c) by ring. eexists. split; reflexivity.
Qed.

(** * Cases meeting the hypotheses *)
Lemma ex_axes : unit3 [1; 0; 0] /\ unit3 [0; 1; 0] /\ unit3 [0; 0; 1] /\ unit3 [3 / 5; 0; 4 / 5].
Proof. repeat split; apply unit3_i; lra. Qed.
(* the quarter turn about z takes the axis x to y: turns about x become turns about y *)
Example C124_ex_conjugate : forall eps a, exists g, new eps [0; 0; 1] (PI / 2) = Ok g /\ unit_q r_ops g /\ t_apply t3 g [1; 0; 0] = Ok [0; 1; 0] /\
  (let! r := new eps [1; 0; 0] a in let! s := t_chain t3 g r in let! i := t_inv t3 g in t_chain t3 s i) = new eps [0; 1; 0] a.
Proof.
  intros eps a. destruct ex_axes as (X & _ & Z & _). destruct (C61_new3 eps (PI / 2) Z) as (g & E & U & A & _). exists g. split; auto. split; auto.
  assert (G : t_apply t3 g [1; 0; 0] = Ok [0; 1; 0]).
  { destruct (A [1; 0; 0] eq_refl) as (y & Y1 & Y2). rewrite Y1, <- Y2. unfold rodrigues, lift2. rewrite (v_smul_3 r_ring), (v_cross3_v r_ring). cbn [bind]. rewrite !(v_smul_3 r_ring), (v_dot_3 r_ring). cbn [bind]. rewrite (v_smul_3 r_ring), (v_add_3 r_ring). cbn [bind]. rewrite (v_add_3 r_ring). rc. rewrite cos_PI2, sin_PI2. f_equal. listeq; ring. }
  split; auto. apply (C124_conjugate eps a U X G).
Qed.
(* half turns about x and y commute, quarter turns do not *)
Example C124_ex_commute : forall eps,
  (forall x, dim 3 x -> (let! r := new eps [1; 0; 0] PI in let! s := new eps [0; 1; 0] PI in let! q := t_chain t3 r s in t_apply t3 q x) =
    (let! r := new eps [1; 0; 0] PI in let! s := new eps [0; 1; 0] PI in let! q := t_chain t3 s r in t_apply t3 q x)) /\
  ~ (forall x, dim 3 x -> (let! r := new eps [1; 0; 0] (PI / 2) in let! s := new eps [0; 1; 0] (PI / 2) in let! q := t_chain t3 r s in t_apply t3 q x) =
    (let! r := new eps [1; 0; 0] (PI / 2) in let! s := new eps [0; 1; 0] (PI / 2) in let! q := t_chain t3 s r in t_apply t3 q x)).
Proof.
  intros eps. destruct ex_axes as (X & Y & _). pose proof PI_RGT_0. split.
  - apply (C124_commute eps X Y); try lra. right. right. split; auto. split; auto. rewrite dot_q. f_equal. ring.
  - intros C. apply (C124_commute eps X Y) in C; try lra. rewrite (v_neg_3 r_ring) in C. revert C. rc. intros [C|[C|(C & _)]]; [apply Ok_inj, list3 in C|apply Ok_inj, list3 in C|]; lra.
Qed.
(* the half turns about x, then y make the half turn about z; three turns by 2 pi / 3 about a rational axis end where they began *)
Example C124_ex_half_turns : forall eps x, dim 3 x ->
  (let! r := new eps [0; 1; 0] PI in let! s := new eps [1; 0; 0] PI in let! q := t_chain t3 r s in t_apply t3 q x) =! (let! q := new eps [0; 0; 1] (2 * (PI / 2)) in t_apply t3 q x) /\
  (let! r := new eps [3 / 5; 0; 4 / 5] (2 * PI / INR 3) in let! s := chained r 3 in t_apply t3 s x) = Ok x.
Proof.
  intros eps x Hx. destruct ex_axes as (X & Y & Z & Q). split; [|apply C124_root; auto; lia]. apply (@C124_half_turns eps [0; 1; 0] [1; 0; 0] [0; 0; 1] (PI / 2) [0; 0; 1] Y X Z); auto.
  - rewrite dot_q, cos_PI2. f_equal. ring.
  - rewrite (v_cross3_v r_ring). rc. f_equal. listeq; ring.
  - rewrite (v_smul_3 r_ring), sin_PI2. rc. f_equal. listeq; ring.
Qed.

Print Assumptions C124_conjugate.
Print Assumptions C124_fixed.
Print Assumptions C124_power.
Print Assumptions C124_root.
Print Assumptions C124_half_turns.
Print Assumptions C124_two_half_turns.
Print Assumptions C124_commute.
Print Assumptions C124_angle.
Print Assumptions C124_angle_inv.
Print Assumptions C124_angle_conjugate.
Print Assumptions C124_triangle.
Print Assumptions C124_displacement.
Print Assumptions C124_trace.
Print Assumptions C124_euler_zxz.
Print Assumptions C124_euler_zyx.
Print Assumptions C124_gimbal_lock.
