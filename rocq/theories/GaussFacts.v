(** Facts about the Gaussian integral, used for C94: E(y) is the integral of exp(-v^2/2) over [0, y], H A t that of
    exp(-t^2 (1 + x^2) / 2) / (1 + x^2) over [0, A]. *)
From Coq Require Import Reals Lra Psatz.
From Coquelicot Require Import Coquelicot.
Set Implicit Arguments.
Local Open Scope R_scope.

Definition bell (v : R) : R := exp (- (v * v) / 2).
Definition E (y : R) : R := RInt bell 0 y.
Definition h (t x : R) : R := exp (- (t * t) * (1 + x * x) / 2) / (1 + x * x).
Definition H (A t : R) : R := RInt (h t) 0 A.

Lemma one_sq : forall x, 0 < 1 + x * x.
Proof. intros. nra. Qed.
Lemma one_sq_ne : forall x, 1 + x * x <> 0.
Proof. intros. pose proof (one_sq x). lra. Qed.
Lemma bell_pos : forall v, 0 < bell v.
Proof. intros. apply exp_pos. Qed.
Lemma bell_le : forall v, bell v <= 1.
Proof.
  intros. unfold bell. rewrite <- exp_0. destruct (Req_dec v 0) as [->|n].
  - right. f_equal. lra.
  - left. apply exp_increasing. nra.
Qed.
Lemma bell_cont : forall v, continuous bell v.
Proof. intros. apply (@ex_derive_continuous _ R_NormedModule). unfold bell. auto_derive. auto. Qed.
Lemma bell_ex : forall a b, ex_RInt bell a b.
Proof. intros. apply (@ex_RInt_continuous R_CompleteNormedModule). intros. apply bell_cont. Qed.
Lemma E_deriv : forall y, is_derive E y (bell y).
Proof.
  intros. apply (@is_derive_RInt R_CompleteNormedModule) with (a := 0).
  - apply filter_forall. intros z. apply RInt_correct. apply bell_ex.
  - apply bell_cont.
Qed.
Lemma E_0 : E 0 = 0.
Proof. apply (@RInt_point R_CompleteNormedModule). Qed.

Lemma h_cont : forall t x, continuous (h t) x.
Proof. intros. apply (@ex_derive_continuous _ R_NormedModule). unfold h. auto_derive. apply one_sq_ne. Qed.
Lemma h_ex : forall t a b, ex_RInt (h t) a b.
Proof. intros. apply (@ex_RInt_continuous R_CompleteNormedModule). intros. apply h_cont. Qed.
Lemma h_deriv : forall t x, is_derive (fun u => h u x) t (- t * exp (- (t * t) * (1 + x * x) / 2)).
Proof.
  intros. unfold h. auto_derive; auto. match goal with |- context [exp ?a] => match goal with |- _ = _ * exp ?b => replace a with b by field end end. field. apply one_sq_ne.
Qed.
Lemma exp_split : forall t x, exp (- (t * t) * (1 + x * x) / 2) = bell t * bell (t * x).
Proof. intros. unfold bell. rewrite <- exp_plus. f_equal. field. Qed.
Lemma scaled : forall t A, is_RInt (fun x => t * bell (t * x)) 0 A (E (t * A)).
Proof.
  intros. pose proof (@RInt_correct R_CompleteNormedModule bell 0 (t * A) (bell_ex 0 (t * A))) as I.
  replace 0 with (t * 0 + 0) in I at 1 by ring. replace (t * A) with (t * A + 0) in I at 1 by ring.
  apply (@is_RInt_comp_lin R_NormedModule) in I. eapply is_RInt_ext; [|exact I].
  intros x _. unfold scal. cbn. unfold mult. cbn. rewrite Rplus_0_r. reflexivity.
Qed.
Lemma H_deriv : forall A t, is_derive (H A) t (- bell t * E (t * A)).
Proof.
  intros A t. unfold H.
  replace (- bell t * E (t * A)) with (RInt (fun x => Derive (fun u => h u x) t) 0 A).
  - apply is_derive_RInt_param.
    + apply filter_forall. intros y x _. eexists. apply h_deriv.
    + intros x _. apply continuity_2d_pt_ext with (f := fun u v => (- u) * exp (- (u * u) * (1 + v * v) / 2)).
      { intros u v. symmetry. apply is_derive_unique. apply h_deriv. }
      apply continuity_2d_pt_mult.
      * apply continuity_2d_pt_opp. apply continuity_2d_pt_id1.
      * apply continuity_1d_2d_pt_comp with (f := exp).
        { apply derivable_continuous_pt. apply derivable_pt_exp. }
        apply continuity_2d_pt_mult; [|apply continuity_2d_pt_const].
        apply continuity_2d_pt_mult.
        { apply continuity_2d_pt_opp. apply continuity_2d_pt_mult; apply continuity_2d_pt_id1. }
        apply continuity_2d_pt_plus; [apply continuity_2d_pt_const|]. apply continuity_2d_pt_mult; apply continuity_2d_pt_id2.
    + apply filter_forall. intros y. apply h_ex.
  - apply is_RInt_unique.
    pose proof (@is_RInt_scal R_NormedModule _ _ _ (- bell t) _ (scaled t A)) as I. unfold scal in I. cbn in I. unfold mult in I. cbn in I.
    eapply is_RInt_ext; [|exact I]. intros x _. cbn. symmetry. apply is_derive_unique.
    replace (- bell t * (t * bell (t * x))) with (- t * exp (- (t * t) * (1 + x * x) / 2)) by (rewrite exp_split; ring). apply h_deriv.
Qed.

(** A function with zero derivative everywhere is constant. *)
Lemma flat : forall f : R -> R, (forall x, is_derive f x 0) -> forall x, f x = f 0.
Proof.
  intros f D x. destruct (Req_dec x 0) as [->|n]; auto.
  destruct (MVT_gen f 0 x (fun _ => 0)) as (c & _ & Hc).
  - intros; apply D.
  - intros y _. apply continuity_pt_filterlim. apply (@ex_derive_continuous _ R_NormedModule). eexists. apply D.
  - lra.
Qed.
(** Two functions with the same derivative and the same value at zero. *)
Lemma same_deriv : forall f g d : R -> R, (forall x, is_derive f x (d x)) -> (forall x, is_derive g x (d x)) -> f 0 = g 0 -> forall x, f x = g x.
Proof.
  intros f g d Df Dg H0 x. pose proof (@flat (fun x => f x - g x)) as F.
  assert (D : forall x, is_derive (fun x => f x - g x) x 0).
  { intros y. replace 0 with (d y - d y) by ring. apply (@is_derive_minus _ R_NormedModule); auto. }
  specialize (F D x). cbn in F. lra.
Qed.
Lemma H_0 : forall A, H A 0 = atan A.
Proof.
  intros A. apply (same_deriv (f := fun A => H A 0) (g := atan) (fun x => / (1 + x * x))).
  - intros x. unfold H. replace (/ (1 + x * x)) with (h 0 x).
    + apply (@is_derive_RInt R_CompleteNormedModule) with (a := 0).
      * apply filter_forall. intros z. apply RInt_correct. apply h_ex.
      * apply h_cont.
    + unfold h. replace (- (0 * 0) * (1 + x * x) / 2) with 0 by field. rewrite exp_0. field. apply one_sq_ne.
  - intros x. pose proof (is_derive_Reals atan x (/ (1 + x * x))) as [_ D]. apply D.
    pose proof (derivable_pt_lim_atan x) as Q. unfold Rsqr in Q. replace (x ^ 2) with (x * x) in Q by ring. auto.
  - unfold H. rewrite atan_0. apply (@RInt_point R_CompleteNormedModule).
Qed.
Lemma square_rule : forall t, E t * E t + 2 * H 1 t = PI / 2.
Proof.
  intros t. replace (PI / 2) with ((fun t => E t * E t + 2 * H 1 t) 0).
  - apply (flat (f := fun t => E t * E t + 2 * H 1 t)). intros x.
    replace 0 with ((bell x * E x + E x * bell x) + 2 * (- bell x * E (x * 1))) by (rewrite Rmult_1_r; ring).
    apply (@is_derive_plus _ R_NormedModule).
    + apply is_derive_Reals. apply (derivable_pt_lim_mult E E x (bell x) (bell x)); apply is_derive_Reals; apply E_deriv.
    + apply (@is_derive_scal (fun t => H 1 t)). apply H_deriv.
  - cbv beta. rewrite E_0, H_0, atan_1. field.
Qed.
Lemma E_pos : forall t, 0 <= t -> 0 <= E t.
Proof.
  intros t Ht. unfold E. apply RInt_ge_0; auto. { apply bell_ex. } intros. left. apply bell_pos.
Qed.
Definition K : R := sqrt (PI / 2).
Lemma K_sq : K * K = PI / 2.
Proof. apply sqrt_sqrt. pose proof PI_RGT_0. lra. Qed.
Lemma K_pos : 0 < K.
Proof. apply sqrt_lt_R0. pose proof PI_RGT_0. lra. Qed.
Lemma H1_bound : forall t, 0 <= H 1 t <= PI / 4 * bell t.
Proof.
  intros t. unfold H. split.
  - apply RInt_ge_0; [lra|apply h_ex|]. intros. left. apply Rmult_lt_0_compat; [apply exp_pos|]. apply Rinv_0_lt_compat. apply one_sq.
  - rewrite <- atan_1, <- H_0. unfold H. rewrite Rmult_comm.
    apply Rle_trans with (RInt (fun x => bell t * h 0 x) 0 1).
    2: { right. apply (@RInt_scal R_CompleteNormedModule (h 0) 0 1 (bell t)). apply h_ex. }
    apply RInt_le; [lra|apply h_ex| |].
    + apply (@ex_RInt_scal R_NormedModule). apply h_ex.
    + intros x _. unfold h. rewrite !exp_split.
      replace (bell 0) with 1. 2: { unfold bell. rewrite <- exp_0. f_equal. field. }
      replace (bell (0 * x)) with 1. 2: { unfold bell. rewrite <- exp_0. f_equal. field. }
      pose proof (bell_pos t). pose proof (bell_le (t * x)). pose proof (bell_pos (t * x)).
      unfold Rdiv. rewrite <- Rmult_assoc. apply Rmult_le_compat_r. { left. apply Rinv_0_lt_compat. apply one_sq. } nra.
Qed.
Lemma E_K : forall y, 0 <= y -> 0 <= K - E y <= K * bell y.
Proof.
  intros y Hy. pose proof (square_rule y) as S. pose proof (H1_bound y) as B. pose proof K_sq as KS. pose proof K_pos. pose proof (E_pos Hy).
  assert (Q : (K - E y) * (K + E y) = 2 * H 1 y) by (transitivity (K * K - E y * E y); [ring|lra]).
  assert (L : 2 * H 1 y <= K * K * bell y) by (rewrite KS; lra).
  split.
  - apply Rnot_lt_le. intros n. nra.
  - pose proof (bell_pos y). assert (Z : (K - E y) * (K + E y) <= K * bell y * K) by lra.
    destruct (Rle_lt_dec (K - E y) 0); [nra|]. assert ((K - E y) * K <= K * bell y * K) by nra. nra.
Qed.
Lemma H_form : forall A t, H A t = atan A - RInt (fun s => bell s * E (s * A)) 0 t.
Proof.
  intros A t. apply (same_deriv (f := fun t => H A t) (g := fun t => atan A - RInt (fun s => bell s * E (s * A)) 0 t) (fun t => - bell t * E (t * A))).
  - intros. apply H_deriv.
  - intros x. replace (- bell x * E (x * A)) with (0 - bell x * E (x * A)) by ring.
    apply (@is_derive_minus _ R_NormedModule). { apply (@is_derive_const _ R_NormedModule). }
    assert (C : forall s, continuous (fun s => bell s * E (s * A)) s).
    { intros s. apply (@continuous_mult _ R_AbsRing); [apply bell_cont|].
      apply (@ex_derive_continuous _ R_NormedModule). apply (ex_derive_comp E (fun s => s * A)). { eexists. apply E_deriv. } auto_derive. auto. }
    apply (@is_derive_RInt R_CompleteNormedModule (fun s => bell s * E (s * A)) (fun t => RInt (fun s => bell s * E (s * A)) 0 t) 0 x).
    + apply filter_forall. intros z. apply RInt_correct. apply (@ex_RInt_continuous R_CompleteNormedModule). intros; apply C.
    + apply C.
  - rewrite H_0. rewrite (@RInt_point R_CompleteNormedModule). unfold zero. cbn. ring.
Qed.
(** [H A t] is within [K^2 / A] of [atan A - K E(t)]. *)
Lemma H_limit : forall A t, 0 < A -> 0 <= t -> Rabs (H A t - (atan A - K * E t)) <= K * K / A.
Proof.
  intros A t HA Ht. rewrite H_form.
  assert (C : forall s, continuous (fun s => bell s * E (s * A)) s).
  { intros s. apply (@continuous_mult _ R_AbsRing); [apply bell_cont|].
    apply (@ex_derive_continuous _ R_NormedModule). apply (ex_derive_comp E (fun s => s * A)). { eexists. apply E_deriv. } auto_derive. auto. }
  assert (I1 : ex_RInt (fun s => bell s * E (s * A)) 0 t) by (apply (@ex_RInt_continuous R_CompleteNormedModule); intros; apply C).
  assert (I2 : ex_RInt (fun s => K * bell s) 0 t) by (apply (@ex_RInt_scal R_NormedModule); apply bell_ex).
  replace (atan A - RInt (fun s => bell s * E (s * A)) 0 t - (atan A - K * E t)) with (RInt (fun s => K * bell s - bell s * E (s * A)) 0 t).
  2: { transitivity (RInt (fun s => K * bell s) 0 t - RInt (fun s => bell s * E (s * A)) 0 t).
       - apply (@RInt_minus R_CompleteNormedModule (fun s => K * bell s) (fun s => bell s * E (s * A)) 0 t I2 I1).
       - replace (RInt (fun s => K * bell s) 0 t) with (K * E t). { match goal with |- @eq _ ?a ?b => change (@eq R a b) end. ring. } symmetry.
         apply (@RInt_scal R_CompleteNormedModule bell 0 t K (bell_ex 0 t)). }
  assert (I3 : ex_RInt (fun s => K * bell s - bell s * E (s * A)) 0 t) by (apply (@ex_RInt_minus R_NormedModule); auto).
  assert (B : forall s, 0 < s < t -> 0 <= K * bell s - bell s * E (s * A) <= K / A * (A * bell (A * s))).
  { intros s Hs. assert (0 <= s * A) by nra. pose proof (E_K H0) as [L U]. pose proof (bell_pos s). pose proof (bell_le s).
    replace (K / A * (A * bell (A * s))) with (K * bell (s * A)) by (rewrite (Rmult_comm A s); field; lra). split; nra. }
  assert (I4 : is_RInt (fun x => K / A * (A * bell (A * x))) 0 t (K / A * E (A * t))) by exact (@is_RInt_scal R_NormedModule _ _ _ (K / A) _ (scaled A t)).
  rewrite Rabs_pos_eq.
  - apply Rle_trans with (K / A * E (A * t)).
    + rewrite <- (is_RInt_unique _ _ _ _ I4). apply RInt_le; auto. { eexists. exact I4. } intros; apply B; auto.
    + assert (0 <= A * t) by nra. pose proof (E_K H0) as [L U]. pose proof K_pos. replace (K * K / A) with (K / A * K) by (field; lra).
      apply Rmult_le_compat_l; [|lra]. left. apply Rdiv_lt_0_compat; auto.
  - apply RInt_ge_0; auto. intros; apply B; auto.
Qed.

(** The integral over the angle: [G t phi] is exp(-t^2 / (2 cos^2 phi)) where the cosine is positive. *)
Definition G (t p : R) : R := if Rlt_dec 0 (cos p) then exp (- (t * t) / (2 * (cos p * cos p))) else 0.
Lemma G_pos : forall t p, 0 < cos p -> G t p = exp (- (t * t) / (2 * (cos p * cos p))).
Proof. intros. unfold G. destruct (Rlt_dec 0 (cos p)); auto. contradiction. Qed.
Lemma G_neg : forall t p, cos p <= 0 -> G t p = 0.
Proof. intros. unfold G. destruct (Rlt_dec 0 (cos p)); auto. lra. Qed.
Lemma G_range : forall t p, 0 <= G t p <= 1.
Proof.
  intros. unfold G. destruct (Rlt_dec 0 (cos p)); [|lra]. split; [left; apply exp_pos|].
  rewrite <- exp_0. assert (Q : 0 < 2 * (cos p * cos p)) by nra.
  assert (- (t * t) / (2 * (cos p * cos p)) <= 0).
  { unfold Rdiv. apply Rmult_le_0_r; [nra|]. left. apply Rinv_0_lt_compat. auto. }
  destruct (Req_dec (- (t * t) / (2 * (cos p * cos p))) 0) as [->|n]; [lra|]. left. apply exp_increasing. lra.
Qed.
Lemma exp_neg_le : forall z, 0 < z -> exp (- z) <= / z.
Proof.
  intros z Hz. rewrite exp_Ropp. apply Rinv_le_contravar; auto. pose proof (exp_ineq1_le z). lra.
Qed.
Lemma G_small : forall t p, t <> 0 -> G t p <= 2 * (cos p * cos p) / (t * t).
Proof.
  intros t p Ht. assert (T : 0 < t * t) by nra. unfold G. destruct (Rlt_dec 0 (cos p)).
  - assert (Q : 0 < 2 * (cos p * cos p)) by nra.
    replace (- (t * t) / (2 * (cos p * cos p))) with (- (t * t / (2 * (cos p * cos p)))) by (field; lra).
    replace (2 * (cos p * cos p) / (t * t)) with (/ (t * t / (2 * (cos p * cos p)))) by (field; split; lra).
    apply exp_neg_le. apply Rdiv_lt_0_compat; auto.
  - apply Rmult_le_pos; [nra|]. left. apply Rinv_0_lt_compat. auto.
Qed.
Lemma cos_cont : forall p, continuous cos p.
Proof. intros. apply (@ex_derive_continuous _ R_NormedModule). auto_derive. auto. Qed.
Lemma G_cont_pos : forall t p, 0 < cos p -> continuous (G t) p.
Proof.
  intros t p Hp. apply continuous_ext_loc with (g := fun p => exp (- (t * t) / (2 * (cos p * cos p)))).
  - assert (L : locally (cos p) (fun c => 0 < c)). { exact (open_gt 0 (cos p) Hp). }
    pose proof (cos_cont p L) as C. destruct C as [d Hd]. exists d. intros q Hq. symmetry. apply G_pos. exact (Hd q Hq).
  - apply (@ex_derive_continuous _ R_NormedModule). auto_derive. nra.
Qed.
Lemma G_cont_zero : forall t p, t <> 0 -> cos p = 0 -> continuous (G t) p.
Proof.
  intros t p Ht Hp. assert (T : 0 < t * t) by nra. apply filterlim_locally. intros eps.
  assert (C : continuous (fun q => 2 * (cos q * cos q) / (t * t)) p).
  { apply (@ex_derive_continuous _ R_NormedModule). auto_derive. lra. }
  assert (C' := proj1 (filterlim_locally _ _) C eps). destruct C' as [d Hd]. exists d. intros q Hq. specialize (Hd q Hq). clear Hq. cbv beta in Hd. revert Hd.
  unfold ball. cbn. unfold AbsRing_ball, abs, minus, plus, opp. cbn. rewrite Hp. rewrite (G_neg t p) by lra.
  replace (2 * (0 * 0) / (t * t)) with 0 by (field; lra). rewrite !Ropp_0, !Rplus_0_r. intros B.
  pose proof (G_range t q). pose proof (G_small q Ht). rewrite Rabs_pos_eq by lra. rewrite Rabs_pos_eq in B by lra. lra.
Qed.
Lemma cos_half_pos : forall p, 0 <= p < PI / 2 -> 0 < cos p.
Proof. intros. apply cos_gt_0; lra. Qed.
Lemma G_ex : forall t a b, t <> 0 -> 0 <= a <= b -> b <= PI / 2 -> ex_RInt (G t) a b.
Proof.
  intros t a b Ht Hab Hb. apply (@ex_RInt_continuous R_CompleteNormedModule). rewrite Rmin_left, Rmax_right by lra. intros z Hz.
  destruct (Req_dec z (PI / 2)) as [->|n].
  - apply G_cont_zero; auto. apply cos_PI2.
  - apply G_cont_pos. apply cos_half_pos. lra.
Qed.
Lemma tan_deriv : forall p, cos p <> 0 -> is_derive tan p (1 + tan p * tan p).
Proof.
  intros p Hp. unfold tan at 1. auto_derive; auto. unfold tan. pose proof (sin2_cos2 p) as S. unfold Rsqr in S. field_simplify; auto.
Qed.
Lemma G_H : forall t A, 0 < A -> is_RInt (G t) 0 (atan A) (H A t).
Proof.
  intros t A HA. pose proof (atan_bound A) as B. assert (P : 0 < atan A) by (rewrite <- atan_0; apply atan_increasing; auto).
  assert (I : is_RInt (fun y => scal (1 + tan y * tan y) (h t (tan y))) 0 (atan A) (RInt (h t) (tan 0) (tan (atan A)))).
  { apply (@is_RInt_comp R_CompleteNormedModule (h t) tan (fun y => 1 + tan y * tan y)).
    - intros. apply h_cont.
    - rewrite Rmin_left, Rmax_right by lra. intros x Hx. assert (C : 0 < cos x) by (apply cos_half_pos; lra). split.
      + apply tan_deriv. lra.
      + apply (@ex_derive_continuous _ R_NormedModule). unfold tan. auto_derive. split; lra. }
  rewrite tan_0, tan_atan in I. eapply is_RInt_ext; [|exact I]. rewrite Rmin_left, Rmax_right by lra. intros x Hx.
  assert (C : 0 < cos x) by (apply cos_half_pos; lra). rewrite G_pos by auto. unfold scal. cbn. unfold mult. cbn. unfold h.
  replace ((1 + tan x * tan x) * (exp (- (t * t) * (1 + tan x * tan x) / 2) / (1 + tan x * tan x))) with (exp (- (t * t) * (1 + tan x * tan x) / 2))
    by (field; apply one_sq_ne).
  f_equal. unfold tan. pose proof (sin2_cos2 x) as S. unfold Rsqr in S.
  replace (1 + sin x / cos x * (sin x / cos x)) with ((sin x * sin x + cos x * cos x) / (cos x * cos x)) by (field; lra). rewrite S. field. lra.
Qed.
Lemma atan_le : forall x, 0 <= x -> atan x <= x.
Proof.
  intros x Hx. rewrite <- H_0. unfold H. replace x with (RInt (fun _ => 1) 0 x) at 2.
  - apply RInt_le; auto. { apply h_ex. } { apply ex_RInt_const. }
    intros y _. unfold h. replace (- (0 * 0) * (1 + y * y) / 2) with 0 by field. rewrite exp_0. unfold Rdiv. rewrite Rmult_1_l.
    rewrite <- Rinv_1 at 2. apply Rinv_le_contravar; [lra|nra].
  - rewrite RInt_const. unfold scal. cbn. unfold mult. cbn. ring.
Qed.
Lemma atan_near : forall A, 0 < A -> 0 <= PI / 2 - atan A <= / A.
Proof.
  intros A HA. pose proof (atan_bound A). split; [lra|]. assert (P : 0 < / A) by (apply Rinv_0_lt_compat; auto).
  assert (Q : atan (/ A) = PI / 2 - atan A). { apply atan_inv. auto. }
  rewrite <- Q. apply atan_le. lra.
Qed.
Lemma squeeze : forall x c, 0 <= c -> (forall A, 0 < A -> Rabs x <= c / A) -> x = 0.
Proof.
  intros x c Hc B. destruct (Req_dec x 0) as [|n]; auto. exfalso. assert (P : 0 < Rabs x) by (apply Rabs_pos_lt; auto).
  assert (Q : 0 < (c + 1) / Rabs x) by (apply Rdiv_lt_0_compat; lra). specialize (B _ Q).
  replace (c / ((c + 1) / Rabs x)) with (c / (c + 1) * Rabs x) in B by (field; lra).
  assert (c / (c + 1) < 1). { apply Rmult_lt_reg_r with (c + 1); [lra|]. unfold Rdiv. rewrite Rmult_assoc, Rinv_l by lra. lra. }
  nra.
Qed.
Lemma G_half : forall t, 0 <= t -> is_RInt (G t) 0 (PI / 2) (PI / 2 - K * E t).
Proof.
  intros t Ht. pose proof PI_RGT_0. destruct (Req_dec t 0) as [->|n].
  - rewrite E_0. replace (PI / 2 - K * 0) with (scal (PI / 2 - 0) 1) by (unfold scal; cbn; unfold mult; cbn; ring).
    eapply is_RInt_ext; [|apply (@is_RInt_const R_NormedModule)]. rewrite Rmin_left, Rmax_right by lra. intros x Hx.
    assert (C : 0 < cos x) by (apply cos_half_pos; lra). rewrite G_pos by auto. replace (- (0 * 0) / (2 * (cos x * cos x))) with 0 by (field; lra).
    symmetry. apply exp_0.
  - assert (X : ex_RInt (G t) 0 (PI / 2)) by (apply G_ex; auto; lra).
    replace (PI / 2 - K * E t) with (RInt (G t) 0 (PI / 2)). { apply (@RInt_correct R_CompleteNormedModule). auto. }
    assert (D : RInt (G t) 0 (PI / 2) - (PI / 2 - K * E t) = 0); [|lra].
    pose proof K_sq as KS. assert (Hc : 0 <= K * K + 2) by nra.
    apply squeeze with (c := K * K + 2); auto. intros A HA. pose proof (atan_near HA) as N. pose proof (atan_bound A) as B.
    assert (P : 0 < atan A) by (rewrite <- atan_0; apply atan_increasing; auto).
    assert (X1 : ex_RInt (G t) 0 (atan A)) by (apply G_ex; auto; lra).
    assert (X2 : ex_RInt (G t) (atan A) (PI / 2)) by (apply G_ex; auto; lra).
    assert (C : RInt (G t) 0 (PI / 2) = H A t + RInt (G t) (atan A) (PI / 2)).
    { rewrite <- (is_RInt_unique _ _ _ _ (G_H t HA)). symmetry. apply (@RInt_Chasles R_CompleteNormedModule); auto. }
    assert (Z : 0 <= RInt (G t) (atan A) (PI / 2) <= PI / 2 - atan A).
    { split.
      - apply RInt_ge_0; auto; [lra|]. intros; apply G_range.
      - apply Rle_trans with (RInt (fun _ => 1) (atan A) (PI / 2)).
        + apply RInt_le; auto; [lra|apply ex_RInt_const|]. intros; apply G_range.
        + rewrite RInt_const. unfold scal. cbn. unfold mult. cbn. lra. }
    rewrite C. pose proof (H_limit HA Ht) as L. replace ((K * K + 2) / A) with (K * K / A + / A + / A) by (field; lra).
    apply Rabs_le_between in L. apply Rabs_le_between. lra.
Qed.
