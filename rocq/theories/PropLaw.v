(** C94: the scalar [Normal] draws from the standard normal law. *)
From Coq Require Import Reals List Lra Psatz Lia.
From Coquelicot Require Import Coquelicot.
From Verif Require Import SpecLaw SpecRing ComplexModel MathModel RealInst GaussFacts MFacts AlgFacts CxFacts PropRot PropTransform PropDistr SpecTransform TransformModel.
Import ListNotations.
Set Implicit Arguments.
Local Open Scope R_scope.

Ltac rring := match goal with |- @eq _ ?a ?b => change (@eq R a b) end; ring.
(** Facts about the vocabulary: a probability is determined by the event. *)
Lemma fills_unique : forall P a b l l', fills P a b l -> fills P a b l' -> l = l'.
Proof.
  intros P a b l l' (c & d & A1 & A2 & A3 & -> & I & O) (c' & d' & B1 & B2 & B3 & -> & I' & O').
  assert (W : forall c d c' d', a <= c -> c <= d -> d <= b -> a <= c' -> c' <= d' -> d' <= b -> (forall u, c < u < d -> P u) ->
    (forall u, a <= u < b -> u < c' \/ d' < u -> ~ P u) -> d - c <= d' - c').
  { clear. intros c d c' d' A1 A2 A3 B1 B2 B3 I O. destruct (Rle_lt_dec d c) as [|Hcd]; [lra|].
    assert (L : c' <= c). { destruct (Rle_lt_dec c' c); auto. exfalso. set (m := Rmin d c'). assert (M1 : c < m) by (apply Rmin_glb_lt; auto).
      pose proof (Rmin_l d c'). pose proof (Rmin_r d c'). apply (O ((c + m) / 2)); unfold m in *; try lra. apply I. lra. }
    assert (U : d <= d'). { destruct (Rle_lt_dec d d'); auto. exfalso. set (m := Rmax c d'). assert (M1 : m < d) by (apply Rmax_lub_lt; auto).
      pose proof (Rmax_l c d'). pose proof (Rmax_r c d'). apply (O ((d + m) / 2)); unfold m in *; try lra. apply I. lra. }
    lra. }
  apply Rle_antisym; eapply W; eauto.
Qed.
Lemma probability_unique : forall P b p q, 0 < b -> probability P b p -> probability P b q -> p = q.
Proof.
  intros P b p q Hb (L & F & I) (L' & F' & I'). assert (X : is_RInt L' 0 b (p * b)).
  { eapply is_RInt_ext; [|exact I]. rewrite Rmin_left, Rmax_right by lra. intros x Hx. eapply fills_unique; eauto. }
  apply (@is_RInt_unique R_CompleteNormedModule) in X. apply (@is_RInt_unique R_CompleteNormedModule) in I'. assert (E1 : p * b = q * b) by congruence. apply Rmult_eq_reg_r in E1; lra.
Qed.

(** The density: scaled [bell]. *)
Lemma K_PI : / sqrt (2 * PI) = K / PI.
Proof.
  pose proof PI_RGT_0. assert (Q : sqrt (2 * PI) = 2 * K).
  { unfold K. replace (2 * PI) with ((2 * 2) * (PI / 2)) by field. rewrite sqrt_mult by lra. rewrite sqrt_square by lra. auto. }
  rewrite Q. pose proof K_pos. pose proof K_sq. replace (/ (2 * K)) with (K / (2 * (K * K))) by (field; lra). rewrite K_sq. field. lra.
Qed.
Lemma density_int : forall a b, is_RInt normal_density a b (K / PI * (E b - E a)).
Proof.
  intros a b. assert (I : is_RInt bell a b (E b - E a)).
  { unfold E. assert (C := @is_RInt_Chasles R_NormedModule bell a 0 b _ _ (@is_RInt_swap R_NormedModule _ _ _ _ (@RInt_correct R_CompleteNormedModule _ _ _ (bell_ex 0 a)))
      (@RInt_correct R_CompleteNormedModule _ _ _ (bell_ex 0 b))). replace (RInt bell 0 b - RInt bell 0 a) with (plus (opp (RInt bell 0 a)) (RInt bell 0 b)); auto.
    unfold plus, opp. cbn. ring. }
  pose proof (@is_RInt_scal R_NormedModule bell a b (K / PI) _ I) as S. eapply is_RInt_ext; [|exact S].
  intros x _. unfold normal_density, Rdiv. rewrite K_PI. unfold scal. cbn. unfold mult. cbn. unfold bell, Rdiv. ring.
Qed.
Lemma E_odd : forall t, E (- t) = - E t.
Proof.
  intros t. assert (I : is_RInt (fun y => opp (bell (- y))) 0 t (RInt bell (- 0) (- t))).
  { apply (@is_RInt_comp_opp R_NormedModule). rewrite Ropp_0. apply (@RInt_correct R_CompleteNormedModule). apply bell_ex. }
  rewrite Ropp_0 in I. change (RInt bell 0 (- t)) with (E (- t)) in I.
  assert (J : is_RInt bell 0 t (- E (- t))).
  { eapply is_RInt_ext; [|exact (@is_RInt_opp R_NormedModule _ _ _ _ I)]. intros x _. cbv beta. rewrite opp_opp. unfold bell. f_equal. field. }
  apply (@is_RInt_unique R_CompleteNormedModule) in J. change (RInt bell 0 t) with (E t) in J. lra.
Qed.
Definition Phi (t : R) : R := / 2 + K / PI * E t.
Lemma E_low : forall s, 0 < s -> K - E s <= K * (2 / (s * s)).
Proof.
  intros s Hs. pose proof (E_K (Rlt_le _ _ Hs)) as [_ U]. pose proof K_pos. apply Rle_trans with (1 := U).
  apply Rmult_le_compat_l; [lra|]. unfold bell. replace (- (s * s) / 2) with (- (s * s / 2)) by field.
  replace (2 / (s * s)) with (/ (s * s / 2)) by (field; lra). apply exp_neg_le. nra.
Qed.
Lemma Phi_cdf : forall t, normal_cdf t (Phi t).
Proof.
  intros t. unfold normal_cdf. pose proof PI_RGT_0 as HP. pose proof K_pos as HK. pose proof K_sq as HS.
  intros Q [eps HQ].
  set (M := Rmax 1 (2 / eps)).
  exists (fun a => a < - M) (fun b => b = t).
  - exists (- M). auto.
  - reflexivity.
  - intros a b Ha ->. exists (K / PI * (E t - E a)). split. { apply density_int. }
    apply HQ. change (Rabs (K / PI * (E t - E a) - Phi t) < eps).
    assert (M1 : 1 <= M) by apply Rmax_l. assert (M2 : 2 / eps <= M) by apply Rmax_r. pose proof (cond_pos eps) as He.
    assert (Hs : 0 < - a) by lra. pose proof (E_low Hs) as L1. pose proof (E_K (Rlt_le _ _ Hs)) as [L0 _]. rewrite E_odd in L1, L0.
    replace (K / PI * (E t - E a) - Phi t) with (- (K / PI * (K - - E a))).
    2: { unfold Phi. replace (K / PI * (K - - E a)) with (K * K / PI + K / PI * E a) by (field; lra). rewrite HS. field. lra. }
    assert (Hk : 0 < K / PI) by (apply Rdiv_lt_0_compat; auto).
    rewrite Rabs_Ropp, Rabs_pos_eq by (apply Rmult_le_pos; lra).
    apply Rle_lt_trans with (K / PI * (K * (2 / (- a * - a)))). { apply Rmult_le_compat_l; lra. }
    replace (K / PI * (K * (2 / (- a * - a)))) with (K * K / PI * (2 / (- a * - a))) by (field; lra). rewrite HS.
    replace (PI / 2 / PI * (2 / (- a * - a))) with (/ (- a * - a)) by (field; lra).
    assert (P2 : 0 < 2 / eps) by (apply Rdiv_lt_0_compat; lra).
    apply Rlt_trans with (/ (2 / eps)).
    + apply Rinv_lt_contravar; [apply Rmult_lt_0_compat; nra|]. nra.
    + replace (/ (2 / eps)) with (eps / 2) by (field; lra). lra.
Qed.
Lemma cdf_unique : forall t p q, normal_cdf t p -> normal_cdf t q -> p = q.
Proof.
  intros t p q A B. unfold normal_cdf in *.
  apply (@is_RInt_gen_unique R_CompleteNormedModule) in A; try apply _. apply (@is_RInt_gen_unique R_CompleteNormedModule) in B; try apply _. congruence.
Qed.
(** The total mass is one. *)
Lemma E_lim : filterlim E (Rbar_locally p_infty) (locally K).
Proof.
  apply filterlim_locally. intros eps. pose proof (cond_pos eps) as He. pose proof K_pos as HK.
  assert (P2 : 0 < 2 * K / eps) by (apply Rdiv_lt_0_compat; lra).
  exists (Rmax 1 (2 * K / eps)). intros x Hx. pose proof (Rmax_l 1 (2 * K / eps)). pose proof (Rmax_r 1 (2 * K / eps)).
  assert (Hs : 0 < x) by lra. pose proof (E_low Hs) as L1. pose proof (E_K (Rlt_le _ _ Hs)) as [L0 _].
  change (Rabs (E x - K) < eps). rewrite Rabs_minus_sym. rewrite Rabs_pos_eq by lra.
  apply Rle_lt_trans with (1 := L1). apply Rlt_le_trans with (2 * K / (2 * K / eps)).
  - replace (K * (2 / (x * x))) with (2 * K * / (x * x)) by (field; lra). apply Rmult_lt_compat_l; [lra|].
    apply Rinv_lt_contravar; [apply Rmult_lt_0_compat; nra|]. nra.
  - right. field. lra.
Qed.

(** The value drawn, for every pair (u, phi). *)
Lemma ln_le0 : forall u, 0 <= u < 1 -> ln (1 - u) <= 0.
Proof.
  intros u Hu. destruct (Req_dec u 0) as [->|]; [rewrite Rminus_0_r, ln_1; lra|]. left. rewrite <- ln_1. apply ln_increasing; lra.
Qed.
(** sqrt(-2 ln(1-u)) against a bound [s >= 0]: it is below [s] exactly when [u] is below 1 - exp(-s^2/2). *)
Lemma radius_le : forall u s, 0 <= u < 1 -> 0 <= s -> (u < 1 - exp (- (s * s) / 2) -> sqrt (ln (1 - u) * - 2) < s) /\
  (1 - exp (- (s * s) / 2) < u -> s < sqrt (ln (1 - u) * - 2)).
Proof.
  intros u s Hu Hs. pose proof (ln_le0 Hu) as Hl. split; intros L.
  - rewrite <- (sqrt_square s Hs). apply sqrt_lt_1; [lra|nra|].
    assert (X : - (s * s) / 2 < ln (1 - u)); [|lra]. rewrite <- (ln_exp (- (s * s) / 2)). apply ln_increasing; [apply exp_pos|lra].
  - rewrite <- (sqrt_square s Hs) at 1. apply sqrt_lt_1; [nra|lra|].
    assert (X : ln (1 - u) < - (s * s) / 2); [|lra]. rewrite <- (ln_exp (- (s * s) / 2)). apply ln_increasing; lra.
Qed.
Lemma fills_ext : forall P Q a b l, (forall u, a <= u < b -> (P u <-> Q u)) -> fills P a b l -> fills Q a b l.
Proof.
  intros P Q a b l E (c & d & A1 & A2 & A3 & -> & I & O). exists c, d. repeat split; auto.
  - intros u Hu. apply E; [lra|]. apply I. auto.
  - intros u Hu C X. apply (O u Hu C). apply E; auto.
Qed.
Lemma value_fills : forall t y, fills (fun u => sqrt (ln (1 - u) * - 2) * cos y <= t) 0 1 (if Rle_dec 0 t then 1 - G t y else G t (PI - y)).
Proof.
  intros t y. pose proof (G_range t y) as R1. pose proof (G_range t (PI - y)) as R2. destruct (Rle_dec 0 t) as [Ht|Ht].
  - exists 0, (1 - G t y). repeat split; try lra.
    + intros u Hu. destruct (Rlt_dec 0 (cos y)) as [C|C].
      * rewrite G_pos in Hu by auto. assert (Hs : 0 <= t / cos y) by (apply Rdiv_le_0_compat; lra).
        destruct (@radius_le u (t / cos y) ltac:(pose proof (exp_pos (- (t * t) / (2 * (cos y * cos y)))); lra) Hs) as [D _].
        replace (- (t / cos y * (t / cos y)) / 2) with (- (t * t) / (2 * (cos y * cos y))) in D by (field; lra).
        apply Rlt_le. replace t with (t / cos y * cos y) by (field; lra). apply Rmult_lt_compat_r; auto. apply D. lra.
      * pose proof (sqrt_pos (ln (1 - u) * - 2)). nra.
    + intros u Hu [X|X]; [lra|]. destruct (Rlt_dec 0 (cos y)) as [C|C]; [|rewrite G_neg in X by lra; lra].
      rewrite G_pos in X by auto. assert (Hs : 0 <= t / cos y) by (apply Rdiv_le_0_compat; lra).
      destruct (@radius_le u (t / cos y) Hu Hs) as [_ D].
      replace (- (t / cos y * (t / cos y)) / 2) with (- (t * t) / (2 * (cos y * cos y))) in D by (field; lra).
      apply Rlt_not_le. replace t with (t / cos y * cos y) at 1 by (field; lra). apply Rmult_lt_compat_r; auto.
  - assert (Cn : cos (PI - y) = - cos y). { rewrite cos_minus, cos_PI, sin_PI. ring. }
    exists (1 - G t (PI - y)), 1. repeat split; try lra.
    + intros u Hu. destruct (Rlt_dec 0 (cos (PI - y))) as [C|C]; [|rewrite G_neg in Hu by lra; lra].
      rewrite G_pos in Hu by auto. rewrite Cn in C, Hu. set (c := - cos y) in *.
      assert (Hs : 0 <= - t / c) by (apply Rdiv_le_0_compat; lra).
      assert (X1 : exp (- (t * t) / (2 * (c * c))) <= 1). { rewrite <- Cn in C. rewrite (G_pos t (PI - y) C) in R2. rewrite Cn in R2. apply R2. }
      destruct (@radius_le u (- t / c) ltac:(lra) Hs) as [_ D].
      replace (- (- t / c * (- t / c)) / 2) with (- (t * t) / (2 * (c * c))) in D by (field; lra).
      specialize (D ltac:(lra)). replace (cos y) with (- c) by (unfold c; ring).
      assert (X2 : - t / c * c < sqrt (ln (1 - u) * -2) * c) by (apply Rmult_lt_compat_r; auto).
      replace (- t / c * c) with (- t) in X2 by (field; lra). lra.
    + intros u Hu [X|X]; [|lra]. destruct (Rlt_dec 0 (cos (PI - y))) as [C|C].
      * rewrite G_pos in X by auto. rewrite Cn in C, X. set (c := - cos y) in *.
        assert (Hs : 0 <= - t / c) by (apply Rdiv_le_0_compat; lra).
        destruct (@radius_le u (- t / c) Hu Hs) as [D _].
        replace (- (- t / c * (- t / c)) / 2) with (- (t * t) / (2 * (c * c))) in D by (field; lra).
        specialize (D ltac:(lra)). replace (cos y) with (- c) by (unfold c; ring).
        assert (X2 : sqrt (ln (1 - u) * -2) * c < - t / c * c) by (apply Rmult_lt_compat_r; auto).
        replace (- t / c * c) with (- t) in X2 by (field; lra). lra.
      * pose proof (sqrt_pos (ln (1 - u) * - 2)). nra.
Qed.
Lemma G_even : forall t y, G (- t) y = G t y.
Proof. intros. unfold G. destruct (Rlt_dec 0 (cos y)); auto. f_equal. f_equal. ring. Qed.
Lemma G_full : forall t, 0 <= t -> is_RInt (G t) 0 PI (PI / 2 - K * E t).
Proof.
  intros t Ht. pose proof PI_RGT_0. assert (Z : is_RInt (G t) (PI / 2) PI 0).
  { eapply is_RInt_ext with (f := fun _ => 0).
    - rewrite Rmin_left, Rmax_right by lra. intros x Hx. symmetry. apply G_neg. apply cos_le_0; lra.
    - pose proof (@is_RInt_const R_NormedModule (PI / 2) PI 0) as J. assert (Q : (PI - PI / 2) * 0 = 0) by ring.
      change (is_RInt (fun _ => 0) (PI / 2) PI ((PI - PI / 2) * 0)) in J. rewrite Q in J. exact J. }
  replace (PI / 2 - K * E t) with (plus (PI / 2 - K * E t) 0) by (unfold plus; cbn; ring).
  apply (@is_RInt_Chasles R_NormedModule) with (b := PI / 2); auto. apply G_half. auto.
Qed.
Lemma value_mean : forall t, is_RInt (fun y => if Rle_dec 0 t then 1 - G t y else G t (PI - y)) 0 PI (Phi t * PI).
Proof.
  intros t. pose proof PI_RGT_0. destruct (Rle_dec 0 t) as [Ht|Ht].
  - replace (Phi t * PI) with (minus (scal (PI - 0) 1) (PI / 2 - K * E t)).
    2: { unfold Phi, minus, plus, opp, scal. cbn. unfold mult. cbn. field. lra. }
    apply (@is_RInt_minus R_NormedModule). { apply (@is_RInt_const R_NormedModule). } apply G_full. auto.
  - replace (Phi t * PI) with (PI / 2 - K * E (- t)). 2: { rewrite E_odd. unfold Phi. field. lra. }
    assert (Hn : 0 <= - t) by lra. pose proof (G_full Hn) as I.
    assert (J : is_RInt (fun y => scal (- 1) (G (- t) (- 1 * y + PI))) 0 PI (- (PI / 2 - K * E (- t)))).
    { apply (@is_RInt_comp_lin R_NormedModule (G (- t)) (- 1) PI 0 PI). replace (-1 * 0 + PI) with PI by ring. replace (-1 * PI + PI) with 0 by ring.
      apply (@is_RInt_swap R_NormedModule). auto. }
    apply (@is_RInt_opp R_NormedModule) in J. replace (PI / 2 - K * E (- t)) with (opp (- (PI / 2 - K * E (- t)))) by (unfold opp; cbn; ring).
    eapply is_RInt_ext; [|exact J]. intros x _. cbv beta. unfold opp, scal. cbn. unfold mult. cbn. rewrite G_even.
    replace (- 1 * x + PI) with (PI - x) by ring. ring.
Qed.

(* ------------------------------------------------------------------------- *)
(** * C94                                                                      *)

Section C94.
  Context {S : Type} (eps : R) (unit half_turn : distr S R) (start mid fin : R -> R -> S).
  (** The generator is in state [start u y] when its next two draws are [u] of [0, 1) and [y] of [0, pi). *)
  Context (first_draw : forall u y, 0 <= u < 1 -> 0 <= y < PI -> unit (start u y) = Ok (mid u y, u)).
  Context (second_draw : forall u y, 0 <= u < 1 -> 0 <= y < PI -> half_turn (mid u y) = Ok (fin u y, y)).
  Local Notation sample := (normal_float r_ops (r_float eps) ln unit half_turn).

  (** With [u] and [y] uniform, the sample is at most [t] with the probability the standard normal law gives. *)
  Theorem C94_normal : forall t, exists p, normal_cdf t p /\
    probability (fun u y => exists g x, sample (start u y) = Ok (g, x) /\ x <= t) PI p.
  Proof.
    intros t. exists (Phi t). split; [apply Phi_cdf|]. eexists. split; [|apply value_mean]. intros y Hy. cbv beta.
    eapply fills_ext; [|apply value_fills]. intros u Hu. cbv beta.
    pose proof (@first_draw u y Hu ltac:(lra)) as D1. pose proof (@second_draw u y Hu ltac:(lra)) as D2.
    destruct (C76_normal eps unit half_turn (start u y) D1 D2 Hu) as (V & _). split.
    - intros L. exists (fin u y), (sqrt (ln (1 - u) * -2) * cos y). auto.
    - intros (g & x & X & L). rewrite V in X. apply Ok_inj in X. injection X as _ <-. exact L.
  Qed.
  (** No pair of draws fails. *)
  Theorem C94_normal_every_draw : forall u y, 0 <= u < 1 -> 0 <= y < PI -> exists x, sample (start u y) = Ok (fin u y, x).
  Proof.
    intros u y Hu Hy. destruct (C76_normal eps unit half_turn (start u y) (first_draw Hu Hy) (second_draw Hu Hy) Hu) as (V & _). eauto.
  Qed.
End C94.
(** These are probabilities, and the standard normal law is a law: one value each, total mass one. *)
Theorem C94_unique : (forall P p q, probability P PI p -> probability P PI q -> p = q) /\
  (forall t p q, normal_cdf t p -> normal_cdf t q -> p = q) /\
  (forall t, exists p, normal_cdf t p) /\
  is_RInt_gen normal_density (Rbar_locally m_infty) (Rbar_locally p_infty) 1.
Proof.
  pose proof PI_RGT_0 as HP. pose proof K_pos as HK. pose proof K_sq as HS. split; [|split; [|split]].
  - intros P p q A B. exact (@probability_unique P PI p q HP A B).
  - apply cdf_unique.
  - intros t. exists (Phi t). apply Phi_cdf.
  - intros Q [eps HQ]. set (M := Rmax 1 (2 / eps)).
    exists (fun a => a < - M) (fun b => M < b). { exists (- M). auto. } { exists M. auto. }
    intros a b Ha Hb. exists (K / PI * (E b - E a)). split. { apply density_int. }
    apply HQ. change (Rabs (K / PI * (E b - E a) - 1) < eps).
    assert (M1 : 1 <= M) by apply Rmax_l. assert (M2 : 2 / eps <= M) by apply Rmax_r. pose proof (cond_pos eps) as He.
    assert (Hs : 0 < - a) by lra. pose proof (E_low Hs) as L1. pose proof (E_K (Rlt_le _ _ Hs)) as [L0 _]. rewrite E_odd in L1, L0.
    assert (Hs' : 0 < b) by lra. pose proof (E_low Hs') as L3. pose proof (E_K (Rlt_le _ _ Hs')) as [L2 _].
    assert (Hk : 0 < K / PI) by (apply Rdiv_lt_0_compat; auto).
    replace (K / PI * (E b - E a) - 1) with (- (K / PI * ((K - E b) + (K - - E a)))).
    2: { replace (K / PI * (K - E b + (K - - E a))) with (2 * (K * K) / PI - K / PI * (E b - E a)) by (field; lra). rewrite HS. field. lra. }
    rewrite Rabs_Ropp, Rabs_pos_eq by (apply Rmult_le_pos; lra).
    assert (P2 : 0 < 2 / eps) by (apply Rdiv_lt_0_compat; lra).
    assert (W : forall z, M < z -> 2 / (z * z) < eps).
    { intros z Hz. apply Rlt_le_trans with (2 / (2 / eps)); [|right; field; lra]. apply Rmult_lt_compat_l; [lra|].
      apply Rinv_lt_contravar; [apply Rmult_lt_0_compat; nra|]. nra. }
    apply Rle_lt_trans with (K / PI * (K * (2 / (b * b)) + K * (2 / (- a * - a)))). { apply Rmult_le_compat_l; lra. }
    replace (K / PI * (K * (2 / (b * b)) + K * (2 / (- a * - a)))) with (K * K / PI * (2 / (b * b) + 2 / (- a * - a))) by (field; lra). rewrite HS.
    replace (PI / 2 / PI * (2 / (b * b) + 2 / (- a * - a))) with (/ 2 * (2 / (b * b) + 2 / (- a * - a))) by (field; lra).
    pose proof (W b Hb). pose proof (W (- a) ltac:(lra)). lra.
Qed.
(** A generator that meets the hypotheses: the state is the list of draws to come. *)
Definition next : distr (list R) R := fun g => match g with x :: r => Ok (r, x) | [] => Panic end.
Example C94_normal_ex : forall t, exists p, normal_cdf t p /\
  probability (fun u y => exists g x, normal_float r_ops (r_float 1) ln next next [u; y] = Ok (g, x) /\ x <= t) PI p.
Proof. intros t. apply (@C94_normal (list R) 1 next next (fun u y => [u; y]) (fun _ y => [y]) (fun _ _ => [])); reflexivity. Qed.
(** Half of the samples are at most zero. *)
Example C94_half_ex : probability (fun u y => exists g x, normal_float r_ops (r_float 1) ln next next [u; y] = Ok (g, x) /\ x <= 0) PI (/ 2).
Proof.
  destruct (C94_normal_ex 0) as (p & C & P). replace (/ 2) with p; auto. apply (@cdf_unique 0); auto.
  replace (/ 2) with (Phi 0); [apply Phi_cdf|]. unfold Phi. rewrite E_0. ring.
Qed.

(* ------------------------------------------------------------------------- *)
(** * C95: the uniform law on plane rotations                                  *)

(** The integral of a periodic function over a period does not depend on where it starts. *)
Lemma periodic : forall (h : R -> R) b, (forall x, continuous h x) -> (forall x, h (x + 2 * PI) = h x) ->
  RInt (fun a => h (a + b)) 0 (2 * PI) = RInt h 0 (2 * PI).
Proof.
  intros h b C P. assert (X : forall u v, ex_RInt h u v) by (intros; apply (@ex_RInt_continuous R_CompleteNormedModule); intros; apply C).
  assert (S : forall c u v, is_RInt (fun a => h (a + c)) u v (RInt h (u + c) (v + c))).
  { intros c u v. eapply is_RInt_ext with (f := fun y => scal 1 (h (1 * y + c))).
    - intros x _. change (1 * h (1 * x + c) = h (x + c)). rewrite !Rmult_1_l. reflexivity.
    - apply (@is_RInt_comp_lin R_NormedModule h 1 c u v). rewrite !Rmult_1_l. apply (@RInt_correct R_CompleteNormedModule). auto. }
  rewrite (@is_RInt_unique R_CompleteNormedModule _ _ _ _ (S b 0 (2 * PI))). rewrite Rplus_0_l.
  pose proof (@RInt_Chasles R_CompleteNormedModule h b 0 (2 * PI + b) (X _ _) (X _ _)) as E1.
  pose proof (@RInt_Chasles R_CompleteNormedModule h 0 (2 * PI) (2 * PI + b) (X _ _) (X _ _)) as E2.
  pose proof (@opp_RInt_swap R_CompleteNormedModule h 0 b (X _ _)) as E3.
  assert (E4 : RInt h (2 * PI) (2 * PI + b) = RInt h 0 b).
  { pose proof (S (2 * PI) 0 b) as Q. rewrite Rplus_0_l, (Rplus_comm b) in Q.
    apply (@is_RInt_unique R_CompleteNormedModule) in Q. rewrite <- Q. apply (@RInt_ext R_CompleteNormedModule). intros x _. apply P. }
  change (RInt h b 0 + RInt h 0 (2 * PI + b) = RInt h b (2 * PI + b)) in E1.
  change (RInt h 0 (2 * PI) + RInt h (2 * PI) (2 * PI + b) = RInt h 0 (2 * PI + b)) in E2.
  change (- RInt h 0 b = RInt h b 0) in E3.
  match goal with |- @eq _ ?a ?b => change (@eq R a b) end. lra.
Qed.
Section C95.
  Context {S : Type} (eps : R) (ranged : distr S R) (start fin : R -> S).
  (** The generator is in state [start a] when its next draw from [0, 2 pi) is [a]. *)
  Context (draw_angle : forall a, 0 <= a < 2 * PI -> ranged (start a) = Ok (fin a, a)).
  Local Notation sample := (uniform_rot2 (r_float eps) ranged).
  Local Notation t2 := (rot2_transform r_ops).

  (** For any quantity [f] that depends continuously on the rotation, and any fixed rotation [s]: the average of [f] over
      the samples is its average over the samples followed by [s], and over the samples preceded by [s]. *)
  Theorem C95_invariant : forall (f : complex R -> R) s (F FL FR : R -> R),
    (forall x, continuous (fun p : R * R => f (Cx (fst p) (snd p))) x) -> unit_c r_ops s ->
    (forall a, 0 <= a < 2 * PI -> exists g r q l, sample (start a) = Ok (g, r) /\ t_chain t2 s r = Ok q /\ t_chain t2 r s = Ok l /\
      F a = f r /\ FL a = f q /\ FR a = f l) ->
    exists m, mean_turn F m /\ mean_turn FL m /\ mean_turn FR m.
  Proof.
    intros f s F FL FR C U D. pose proof PI_RGT_0 as HP. destruct (C61_angle2 eps) as (_ & An). destruct (An s U) as (b & _ & _ & Eb).
    change (rot2_new (r_float eps) b) with (Ok (Cx (cos b) (sin b))) in Eb. apply Ok_inj in Eb. subst s.
    set (h := fun a => f (Cx (cos a) (sin a))).
    assert (Ch : forall x, continuous h x).
    { intros x. unfold h. apply (continuous_comp_2 cos sin (fun u v => f (Cx u v))).
      - apply (@ex_derive_continuous _ R_NormedModule). auto_derive. auto.
      - apply (@ex_derive_continuous _ R_NormedModule). auto_derive. auto.
      - apply (C (cos x, sin x)). }
    assert (Ph : forall x, h (x + 2 * PI) = h x).
    { intros x. unfold h. replace (x + 2 * PI) with (x + 2 * INR 1 * PI) by (cbn; ring). rewrite cos_period, sin_period. auto. }
    assert (V : forall a, 0 <= a < 2 * PI -> F a = h a /\ FL a = h (a + b) /\ FR a = h (a + b)).
    { intros a Ha. destruct (D a Ha) as (g & r & q & l & E1 & E2 & E3 & -> & -> & ->). unfold uniform_rot2 in E1. rewrite (draw_angle Ha) in E1. cbn [bind] in E1.
      change (rot2_new (r_float eps) a) with (Ok (Cx (cos a) (sin a))) in E1. cbn [bind] in E1. apply Ok_inj in E1. injection E1 as _ <-.
      cbn [t_chain rot2_transform] in E2, E3. rewrite (c_mul_v r_ring) in E2, E3. apply Ok_inj in E2. apply Ok_inj in E3. subst q l. unfold h.
      rewrite cos_plus, sin_plus. split; [reflexivity|]. cbn. split; do 2 f_equal; ring. }
    assert (Q : forall m : R, m / (2 * PI) * (2 * PI) = m) by (intros; field; lra).
    exists (RInt h 0 (2 * PI) / (2 * PI)). unfold mean_turn. rewrite Q.
    assert (I1 : is_RInt h 0 (2 * PI) (RInt h 0 (2 * PI))).
    { apply (@RInt_correct R_CompleteNormedModule). apply (@ex_RInt_continuous R_CompleteNormedModule). intros; apply Ch. }
    assert (I2 : is_RInt (fun a => h (a + b)) 0 (2 * PI) (RInt h 0 (2 * PI))).
    { rewrite <- (periodic b Ch Ph). apply (@RInt_correct R_CompleteNormedModule). apply (@ex_RInt_continuous R_CompleteNormedModule). intros.
      apply (continuous_comp (fun a => a + b) h); [|apply Ch]. apply (@ex_derive_continuous _ R_NormedModule). auto_derive. auto. }
    split; [|split]; [eapply is_RInt_ext; [|exact I1]|eapply is_RInt_ext; [|exact I2]|eapply is_RInt_ext; [|exact I2]]; rewrite Rmin_left, Rmax_right by lra; intros a Ha; symmetry; apply V; lra.
  Qed.
  (** The image of a point averages to the centre. *)
  Theorem C95_centre : forall x y (X Y : R -> R),
    (forall a, 0 <= a < 2 * PI -> exists g r, sample (start a) = Ok (g, r) /\ t_apply t2 r [x; y] = Ok [X a; Y a]) ->
    mean_turn X 0 /\ mean_turn Y 0.
  Proof.
    intros x y X Y D. pose proof PI_RGT_0 as HP.
    assert (V : forall a, 0 <= a < 2 * PI -> X a = x * cos a - y * sin a /\ Y a = x * sin a + y * cos a).
    { intros a Ha. destruct (D a Ha) as (g & r & E1 & E2). unfold uniform_rot2 in E1. rewrite (draw_angle Ha) in E1. cbn [bind] in E1.
      destruct (C61_new2 eps a) as (r' & R1 & _ & R2). rewrite R1 in E1. cbn [bind] in E1. apply Ok_inj in E1. injection E1 as _ <-.
      rewrite R2 in E2. apply Ok_inj in E2. injection E2 as <- <-. auto. }
    assert (I : forall u v, is_RInt (fun a => u * cos a + v * sin a) 0 (2 * PI) (0 * (2 * PI))).
    { intros u v. replace (0 * (2 * PI)) with (minus (u * sin (2 * PI) - v * cos (2 * PI)) (u * sin 0 - v * cos 0)).
      2: { rewrite sin_2PI, cos_2PI, sin_0, cos_0. unfold minus, plus, opp. cbn. ring. }
      apply (@is_RInt_derive R_CompleteNormedModule (fun a => u * sin a - v * cos a)).
      - intros a _. auto_derive; auto. ring.
      - intros a _. apply (@ex_derive_continuous _ R_NormedModule). auto_derive. auto. }
    unfold mean_turn. split; eapply is_RInt_ext; [|exact (I x (- y))| |exact (I y x)]; rewrite Rmin_left, Rmax_right by lra; intros a Ha.
    - destruct (V a ltac:(lra)) as (-> & _). rring.
    - destruct (V a ltac:(lra)) as (_ & ->). rring.
  Qed.
End C95.

(* ------------------------------------------------------------------------- *)
(** * C96: the law of [Uniform] on rotations of space                          *)

Lemma turn_mean : forall u v w, mean_turn (fun a => u * cos a + v * sin a + w) w.
Proof.
  intros u v w. unfold mean_turn. replace (w * (2 * PI)) with (minus (u * sin (2 * PI) - v * cos (2 * PI) + w * (2 * PI)) (u * sin 0 - v * cos 0 + w * 0)).
  2: { rewrite sin_2PI, cos_2PI, sin_0, cos_0. unfold minus, plus, opp. cbn. ring. }
  apply (@is_RInt_derive R_CompleteNormedModule (fun a => u * sin a - v * cos a + w * a)).
  - intros a _. auto_derive; auto. ring.
  - intros a _. apply (@ex_derive_continuous _ R_NormedModule). auto_derive. auto.
Qed.
Lemma mean_ext : forall f g m, (forall a, 0 <= a < 2 * PI -> f a = g a) -> mean_turn f m -> mean_turn g m.
Proof.
  intros f g m E I. pose proof PI_RGT_0. unfold mean_turn in *. eapply is_RInt_ext; [|exact I]. rewrite Rmin_left, Rmax_right by lra.
  intros; apply E; lra.
Qed.
Lemma mean_unique : forall f m m', mean_turn f m -> mean_turn f m' -> m = m'.
Proof.
  intros f m m' A B. pose proof PI_RGT_0. unfold mean_turn in *. apply (@is_RInt_unique R_CompleteNormedModule) in A. apply (@is_RInt_unique R_CompleteNormedModule) in B.
  assert (X : m * (2 * PI) = m' * (2 * PI)) by congruence. apply Rmult_eq_reg_r in X; lra.
Qed.
Section C96.
  Context {S : Type} (eps : R) (normal ranged : distr S R) (fuel : nat) (i j k : R) (start mid fin : R -> S).
  (** The axis drawn is [[i; j; k]], and the angle drawn after it is [a]. *)
  Context (draw_axis : forall a, 0 <= a < 2 * PI -> unit_v r_ops (r_float eps) normal fuel 3 (start a) = Ok (mid a, [i; j; k])).
  Context (draw_angle : forall a, 0 <= a < 2 * PI -> ranged (mid a) = Ok (fin a, a)).
  Context (unit_axis : i * i + j * j + k * k = 1).
  Local Notation sample := (uniform_rot3 r_ops (r_float eps) normal fuel ranged).
  Local Notation t3 := (rot3_transform r_ops).

  Lemma sample_value : forall a, 0 <= a < 2 * PI ->
    sample (start a) = Ok (fin a, Qt (cos (a / 2)) (i * sin (a / 2)) (j * sin (a / 2)) (k * sin (a / 2))).
  Proof.
    intros a Ha. unfold uniform_rot3. rewrite (draw_axis Ha). cbn [bind]. rewrite (draw_angle Ha). cbn [bind]. rewrite rot3_new_v. reflexivity.
  Qed.
  (** Averaged over the angle, the image of a point is its projection on the axis. *)
  Theorem C96_mean_image : forall x y z (X Y Z : R -> R),
    (forall a, 0 <= a < 2 * PI -> exists g r, sample (start a) = Ok (g, r) /\ t_apply t3 r [x; y; z] = Ok [X a; Y a; Z a]) ->
    let d := i * x + j * y + k * z in mean_turn X (d * i) /\ mean_turn Y (d * j) /\ mean_turn Z (d * k).
  Proof.
    intros x y z X Y Z D d.
    assert (V : forall a, 0 <= a < 2 * PI ->
      X a = (x - d * i) * cos a + (j * z - k * y) * sin a + d * i /\
      Y a = (y - d * j) * cos a + (k * x - i * z) * sin a + d * j /\
      Z a = (z - d * k) * cos a + (i * y - j * x) * sin a + d * k).
    { intros a Ha. destruct (D a Ha) as (g & r & E1 & E2). rewrite (sample_value Ha) in E1. apply Ok_inj in E1. injection E1 as _ <-.
      destruct (@C61_new3 eps [i; j; k] a (unit3_i unit_axis)) as (r' & R1 & _ & R2 & _). rewrite rot3_new_v in R1. apply Ok_inj in R1. subst r'.
      destruct (R2 [x; y; z] eq_refl) as (v & V1 & V2). rewrite E2 in V1. apply Ok_inj in V1. subst v. unfold rodrigues, lift2 in V2.
      rewrite (v_smul_3 r_ring), (v_cross3_v r_ring) in V2. cbn [bind] in V2. rewrite !(v_smul_3 r_ring), (v_dot_3 r_ring) in V2. cbn [bind] in V2.
      rewrite (v_smul_3 r_ring), (v_add_3 r_ring) in V2. cbn [bind] in V2. rewrite (v_add_3 r_ring) in V2. apply Ok_inj in V2.
      injection V2 as <- <- <-. cbn. unfold d. repeat split; ring. }
    split; [|split].
    - eapply mean_ext; [|apply turn_mean]. intros a Ha. symmetry. apply V. auto.
    - eapply mean_ext; [|apply turn_mean]. intros a Ha. symmetry. apply (proj2 (V a Ha)).
    - eapply mean_ext; [|apply turn_mean]. intros a Ha. symmetry. apply (proj2 (V a Ha)).
  Qed.

  (** The trace of the matrix of a rotation, from the images of the basis vectors. *)
  Definition trace3 (r : quat R) (t : R) : Prop := exists x1 y1 z1 x2 y2 z2 x3 y3 z3,
    t_apply t3 r [1; 0; 0] = Ok [x1; y1; z1] /\ t_apply t3 r [0; 1; 0] = Ok [x2; y2; z2] /\ t_apply t3 r [0; 0; 1] = Ok [x3; y3; z3] /\
    t = x1 + y2 + z3.
  Lemma trace3_v : forall w x y z t, trace3 (Qt w x y z) t -> t = 3 * (w * w) - x * x - y * y - z * z.
  Proof.
    intros w x y z t (x1 & y1 & z1 & x2 & y2 & z2 & x3 & y3 & z3 & A & B & C & ->). rewrite (rot3_apply_v r_ring) in A, B, C.
    apply Ok_inj in A. apply Ok_inj in B. apply Ok_inj in C. injection A as <- _ _. injection B as _ <- _. injection C as _ _ <-. cbn. ring.
  Qed.
  (** The samples are not spread evenly over all rotations: the trace averages to 1, whatever the axis; after a fixed half
      turn it averages, summed over half turns about the three coordinate axes, to -1, while an even spread would not be
      changed by a fixed turn and would give 3. *)
  Theorem C96_not_invariant : forall T TX TY TZ : R -> R,
    (forall a, 0 <= a < 2 * PI -> exists g r hx hy hz rx ry rz, sample (start a) = Ok (g, r) /\ trace3 r (T a) /\
      rot3_new r_ops (r_float eps) [1; 0; 0] PI = Ok hx /\ t_chain t3 hx r = Ok rx /\ trace3 rx (TX a) /\
      rot3_new r_ops (r_float eps) [0; 1; 0] PI = Ok hy /\ t_chain t3 hy r = Ok ry /\ trace3 ry (TY a) /\
      rot3_new r_ops (r_float eps) [0; 0; 1] PI = Ok hz /\ t_chain t3 hz r = Ok rz /\ trace3 rz (TZ a)) ->
    mean_turn T 1 /\ exists mx my mz, mean_turn TX mx /\ mean_turn TY my /\ mean_turn TZ mz /\ mx + my + mz = - 1.
  Proof.
    intros T TX TY TZ D.
    assert (V : forall a, 0 <= a < 2 * PI -> T a = 2 * cos a + 0 * sin a + 1 /\
      TX a = - 2 * (i * i) * cos a + 0 * sin a + (2 * (i * i) - 1) /\
      TY a = - 2 * (j * j) * cos a + 0 * sin a + (2 * (j * j) - 1) /\
      TZ a = - 2 * (k * k) * cos a + 0 * sin a + (2 * (k * k) - 1)).
    { intros a Ha. destruct (D a Ha) as (g & r & hx & hy & hz & rx & ry & rz & E1 & Tr & Hx & Rx & Tx & Hy & Ry & Ty & Hz & Rz & Tz).
      rewrite (sample_value Ha) in E1. apply Ok_inj in E1. injection E1 as _ <-.
      rewrite rot3_new_v, cos_PI2, sin_PI2 in Hx, Hy, Hz. apply Ok_inj in Hx. apply Ok_inj in Hy. apply Ok_inj in Hz. subst hx hy hz.
      cbn [t_chain rot3_transform] in Rx, Ry, Rz. rewrite (q_mul_v r_ring) in Rx, Ry, Rz.
      apply Ok_inj in Rx. apply Ok_inj in Ry. apply Ok_inj in Rz. subst rx ry rz.
      apply trace3_v in Tr. apply trace3_v in Tx. apply trace3_v in Ty. apply trace3_v in Tz. cbn in Tx, Ty, Tz.
      destruct (half_angle a) as (H1 & H2 & _). set (c := cos (a / 2)) in *. set (s := sin (a / 2)) in *. rewrite H2, Tr, Tx, Ty, Tz.
      clear - H1 unit_axis. assert (J : j * j = 1 - i * i - k * k) by lra.
      split; [|split; [|split]].
      - transitivity (3 * (c * c) - (i * i + j * j + k * k) * (s * s)). { ring. } rewrite unit_axis. lra.
      - transitivity (4 * (i * i) * (s * s) - (c * c) - (i * i + j * j + k * k) * (s * s)). { ring. } rewrite unit_axis.
        replace (c * c) with (1 - s * s) by lra. ring.
      - transitivity (4 * (j * j) * (s * s) - (c * c) - (i * i + j * j + k * k) * (s * s)). { ring. } rewrite unit_axis.
        replace (c * c) with (1 - s * s) by lra. ring.
      - transitivity (4 * (k * k) * (s * s) - (c * c) - (i * i + j * j + k * k) * (s * s)). { ring. } rewrite unit_axis.
        replace (c * c) with (1 - s * s) by lra. ring. }
    split; [|exists (2 * (i * i) - 1), (2 * (j * j) - 1), (2 * (k * k) - 1); split; [|split; [|split]]].
    - eapply mean_ext; [|apply turn_mean]. intros a Ha. symmetry. apply V. auto.
    - eapply mean_ext; [|apply turn_mean]. intros a Ha. symmetry. apply (proj2 (V a Ha)).
    - eapply mean_ext; [|apply turn_mean]. intros a Ha. symmetry. apply (proj2 (proj2 (V a Ha))).
    - eapply mean_ext; [|apply turn_mean]. intros a Ha. symmetry. apply (proj2 (proj2 (V a Ha))).
    - lra.
  Qed.
End C96.
Theorem C96_unique : forall f m m', mean_turn f m -> mean_turn f m' -> m = m'.
Proof. apply mean_unique. Qed.
(** Sources that meet the hypotheses of C95 and C96. *)
Example C95_ex : forall x y, exists X Y : R -> R,
  (forall a, 0 <= a < 2 * PI -> exists g r, uniform_rot2 (r_float 1) next [a] = Ok (g, r) /\
     t_apply (rot2_transform r_ops) r [x; y] = Ok [X a; Y a]) /\ mean_turn X 0 /\ mean_turn Y 0.
Proof.
  intros x y. exists (fun a => x * cos a - y * sin a), (fun a => x * sin a + y * cos a).
  assert (D : forall a, 0 <= a < 2 * PI -> exists g r, uniform_rot2 (r_float 1) next [a] = Ok (g, r) /\
     t_apply (rot2_transform r_ops) r [x; y] = Ok [x * cos a - y * sin a; x * sin a + y * cos a]).
  { intros a _. destruct (C61_new2 1 a) as (r & R1 & _ & R2). exists [], r. split; auto. unfold uniform_rot2. cbn [next bind]. rewrite R1. reflexivity. }
  split; auto. apply (@C95_centre (list R) 1 next (fun a => [a]) (fun _ => [])) with (x := x) (y := y); auto.
Qed.
Lemma axis_z : forall r, unit_v r_ops (r_float 1) next 1 3 (0 :: 0 :: 2 :: r) = Ok (r, [0; 0; 1]).
Proof.
  intros r. assert (L : len [0; 0; 2] = 2). { unfold len. cbn. replace (0 + 0 * 0 + 0 * 0 + 2 * 2) with (2 * 2) by ring. apply sqrt_square. lra. }
  unfold unit_v. assert (Nz : nonzero_v r_ops (r_float 1) next 1 3 (0 :: 0 :: 2 :: r) = Ok (r, [0; 0; 2])).
  { apply C76_nonzero; [lia|]. exists 0%nat. split; [lia|]. apply SpecDistr.fg_now; [repeat econstructor|]. rewrite L. lra. }
  rewrite Nz. cbn [bind f_sqrt r_float]. rewrite (@normalize3 0 0 2 2); [cbn [bind]; do 2 f_equal; listeq; field| |lra].
  replace (0 * 0 + 0 * 0 + 2 * 2) with (2 * 2) by ring. apply sqrt_square. lra.
Qed.
Example C96_ex : forall x y z, exists X Y Z : R -> R,
  (forall a, 0 <= a < 2 * PI -> exists g r, uniform_rot3 r_ops (r_float 1) next 1 next [0; 0; 2; a] = Ok (g, r) /\
     t_apply (rot3_transform r_ops) r [x; y; z] = Ok [X a; Y a; Z a]) /\ mean_turn X 0 /\ mean_turn Y 0 /\ mean_turn Z z.
Proof.
  intros x y z. exists (fun a => x * cos a - y * sin a), (fun a => x * sin a + y * cos a), (fun _ => z).
  assert (D : forall a, 0 <= a < 2 * PI -> exists g r, uniform_rot3 r_ops (r_float 1) next 1 next [0; 0; 2; a] = Ok (g, r) /\
     t_apply (rot3_transform r_ops) r [x; y; z] = Ok [x * cos a - y * sin a; x * sin a + y * cos a; z]).
  { intros a _. exists [], (Qt (cos (a / 2)) (0 * sin (a / 2)) (0 * sin (a / 2)) (1 * sin (a / 2))). split.
    - unfold uniform_rot3. rewrite axis_z. cbn [next bind]. rewrite rot3_new_v. reflexivity.
    - rewrite (rot3_apply_v r_ring). destruct (half_angle a) as (H1 & -> & ->). cbn. set (c := cos (a / 2)) in *. set (s := sin (a / 2)) in *.
      f_equal. listeq; try ring. transitivity ((c * c + s * s) * z). { ring. } rewrite H1. ring. }
  split; auto. pose proof (@C96_mean_image (list R) 1 next next 1 0 0 1 (fun a => [0; 0; 2; a]) (fun a => [a]) (fun _ => [])
    (fun a _ => axis_z [a]) (fun _ _ => eq_refl) ltac:(ring) x y z _ _ _ D) as (A & B & C). cbv zeta in A, B, C.
  replace ((0 * x + 0 * y + 1 * z) * 0) with 0 in A, B by ring. replace ((0 * x + 0 * y + 1 * z) * 1) with z in C by ring. auto.
Qed.

Print Assumptions C94_normal.
Print Assumptions C94_normal_every_draw.
Print Assumptions C94_unique.
Print Assumptions C95_invariant.
Print Assumptions C95_centre.
Print Assumptions C96_mean_image.
Print Assumptions C96_not_invariant.
Print Assumptions C96_unique.
