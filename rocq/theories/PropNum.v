(** C82: delegation to [num_complex]; C83: what it means over the reals when [num_complex] computes the textbook
    functions. *)
From Coq Require Import Reals Lra Psatz ZArith Lia List.
From Coquelicot Require Import Complex.
From Verif Require Import SpecRing CxFacts RealInst PropReal SpecNum NumModel.
Import ListNotations.
Set Implicit Arguments.

(** * C82: the wrappers pass real and imaginary part, and bring back the result, in order *)
Definition num_of {T : Type} (z : complex T) : T * T := (re z, im z).
Definition of_num {T : Type} (t : T * T) : complex T := Cx (fst t) (snd t).
Definition back {T : Type} (r : res (T * T)) : res (complex T) :=
  match r with Ok t => Ok (of_num t) | Panic => Panic | UB => UB | Fuel => Fuel end.

Theorem C82_conversion : forall T (z : complex T) (t : T * T),
  c_into_num z = Ok (num_of z) /\ c_from_num t = Ok (of_num t) /\
  (let! n := c_into_num z in c_from_num n) = Ok z /\ (let! w := c_from_num t in c_into_num w) = Ok t.
Proof. intros T [a b] [x y]. repeat split. Qed.
Theorem C82_unary : forall T Str (N : num_complex T Str) (z : complex T) (t : T) (w : complex T) e k,
  c_exp N z = back (n_exp N (num_of z)) /\ c_ln N z = back (n_ln N (num_of z)) /\ c_sqrt N z = back (n_sqrt N (num_of z)) /\
  c_cbrt N z = back (n_cbrt N (num_of z)) /\ c_sin N z = back (n_sin N (num_of z)) /\ c_cos N z = back (n_cos N (num_of z)) /\
  c_tan N z = back (n_tan N (num_of z)) /\ c_asin N z = back (n_asin N (num_of z)) /\ c_acos N z = back (n_acos N (num_of z)) /\
  c_atan N z = back (n_atan N (num_of z)) /\ c_sinh N z = back (n_sinh N (num_of z)) /\ c_cosh N z = back (n_cosh N (num_of z)) /\
  c_tanh N z = back (n_tanh N (num_of z)) /\ c_asinh N z = back (n_asinh N (num_of z)) /\ c_acosh N z = back (n_acosh N (num_of z)) /\
  c_atanh N z = back (n_atanh N (num_of z)) /\ c_finv N z = back (n_finv N (num_of z)) /\
  c_powf N z t = back (n_powf N (num_of z) t) /\ c_log N z t = back (n_log N (num_of z) t) /\ c_expf N z t = back (n_expf N (num_of z) t) /\
  c_powc N z w = back (n_powc N (num_of z) (num_of w)) /\ c_fdiv N z w = back (n_fdiv N (num_of z) (num_of w)) /\
  c_rem N z w = back (n_rem N (num_of z) (num_of w)) /\ c_powu N z e = back (n_powu N (num_of z) e) /\ c_powi N z k = back (n_powi N (num_of z) k).
Proof. intros T Str N [a b] t [c d] e k. repeat split. Qed.
Theorem C82_from_str_radix : forall T Str (N : num_complex T Str) s radix,
  c_from_str_radix N s radix = Ok (option_map of_num (n_from_str_radix N s radix)).
Proof. intros. unfold c_from_str_radix. destruct (n_from_str_radix N s radix) as [[x y]|]; reflexivity. Qed.

(** * C83 *)
Local Open Scope C_scope.
Local Notation C1 := (RtoC 1).
Local Notation C0 := (RtoC 0).
Local Notation C2 := (RtoC 2).

Lemma Ceq : forall a b : C, fst a = fst b -> snd a = snd b -> a = b.
Proof. intros [] [] H1 H2. cbn in *. congruence. Qed.
Lemma Cexp_plus : forall a b, Cexp (a + b) = Cexp a * Cexp b.
Proof. intros [x y] [u v]. apply Ceq; cbn; rewrite exp_plus, ?cos_plus, ?sin_plus; ring. Qed.
Lemma Cexp_0 : Cexp C0 = C1.
Proof. apply Ceq; cbn; rewrite exp_0, ?cos_0, ?sin_0; ring. Qed.
Lemma Cexp_opp : forall a, Cexp a * Cexp (- a) = C1.
Proof. intros. rewrite <- Cexp_plus, <- Cexp_0. f_equal. ring. Qed.
Lemma Cexp_neq : forall a, Cexp a <> C0.
Proof. intros a E. pose proof (Cexp_opp a) as H. rewrite E, Cmult_0_l in H. apply (f_equal fst) in H. cbn in H. lra. Qed.
Lemma Cexp_opp' : forall a, Cexp (- a) = / Cexp a.
Proof. intros a. pose proof (Cexp_opp a) as H. pose proof (@Cexp_neq a). rewrite <- (Cmult_1_r (/ Cexp a)), <- H. field. auto. Qed.
Lemma C2_neq : C2 <> C0.
Proof. intros E. apply (f_equal fst) in E. cbn in E. lra. Qed.
Lemma Ci_sq : Ci * Ci = - C1.
Proof. apply Ceq; cbn; ring. Qed.
Lemma Ci_neq : Ci <> C0.
Proof. intros E. apply (f_equal snd) in E. cbn in E. lra. Qed.
Lemma two_i_eq : two_i = C2 * Ci.
Proof. apply Ceq; cbn; ring. Qed.
Lemma mod_pos : forall z, z <> C0 -> (0 < Cmod z)%R.
Proof. intros z H. apply Cmod_gt_0. auto. Qed.
Lemma mod_sqr : forall z, Cmod z = sqrt (fst z * fst z + snd z * snd z).
Proof. intros [x y]. unfold Cmod. cbn. f_equal. ring. Qed.
Lemma polar : forall z, (Cmod z * cos (atan2 (snd z) (fst z)) = fst z /\ Cmod z * sin (atan2 (snd z) (fst z)) = snd z)%R.
Proof. intros z. rewrite mod_sqr. apply atan2_spec. Qed.
Lemma Cexp_ln : forall z, z <> C0 -> Cexp (Cln z) = z.
Proof.
  intros z H. unfold Cexp, Cln. cbn [fst snd]. rewrite exp_ln by (apply mod_pos; auto). destruct (polar z) as (A & B). apply Ceq; cbn; auto.
Qed.
Lemma Csqrt_sqr : forall z, Csqrt z * Csqrt z = z.
Proof.
  intros z. destruct (polar z) as (A & B). unfold Csqrt. set (t := atan2 (snd z) (fst z)) in *. pose proof (sqrt_sqrt (Cmod z) (Cmod_ge_0 z)) as S. set (r := sqrt (Cmod z)) in *.
  replace t with (2 * (t / 2))%R in A, B by field. rewrite cos_2a in A. rewrite sin_2a in B. rewrite <- S in A, B. apply Ceq; cbn; lra.
Qed.
Lemma Csqrt_re : forall z, (0 <= fst (Csqrt z))%R.
Proof.
  intros z. cbn. apply Rmult_le_pos; [apply sqrt_pos|]. pose proof (atan2_bound (fst z) (snd z)). apply cos_ge_0; lra.
Qed.
Lemma Csincos : forall z, Csin z * Csin z + Ccos z * Ccos z = C1.
Proof.
  intros z. unfold Csin, Ccos. rewrite two_i_eq. pose proof (Cexp_opp (Ci * z)) as H. set (a := Cexp (Ci * z)) in *. set (b := Cexp (- (Ci * z))) in *.
  pose proof C2_neq. pose proof Ci_neq. pose proof Ci_sq as I.
  replace ((a - b) / (C2 * Ci) * ((a - b) / (C2 * Ci)) + (a + b) / C2 * ((a + b) / C2)) with ((a - b) * (a - b) / (C2 * C2 * (Ci * Ci)) + (a + b) * (a + b) / (C2 * C2)) by (field; auto).
  rewrite I. replace ((a - b) * (a - b) / (C2 * C2 * - C1) + (a + b) * (a + b) / (C2 * C2)) with (a * b) by (apply Ceq; destruct a, b; cbn; field). exact H.
Qed.
Lemma C2_eq : C2 = C1 + C1.
Proof. apply Ceq; cbn; ring. Qed.
Lemma C11_neq : C1 + C1 <> C0.
Proof. rewrite <- C2_eq. apply C2_neq. Qed.
Ltac cnz := let E := fresh in intros E; first [ now (apply (f_equal fst) in E; cbn in E; lra) | now (apply (f_equal snd) in E; cbn in E; lra) ].
Ltac cfield := rewrite ?two_i_eq, ?C2_eq; field; repeat split; first [ assumption | cnz ].
Lemma Csin_add : forall a b, Csin (a + b) = Csin a * Ccos b + Ccos a * Csin b.
Proof.
  intros a b. unfold Csin, Ccos. replace (- (Ci * (a + b))) with (- (Ci * a) + - (Ci * b)) by ring. replace (Ci * (a + b)) with (Ci * a + Ci * b) by ring.
  rewrite !Cexp_plus. cfield.
Qed.
Lemma Ccos_add : forall a b, Ccos (a + b) = Ccos a * Ccos b - Csin a * Csin b.
Proof.
  intros a b. unfold Csin, Ccos. replace (- (Ci * (a + b))) with (- (Ci * a) + - (Ci * b)) by ring. replace (Ci * (a + b)) with (Ci * a + Ci * b) by ring.
  rewrite !Cexp_plus. set (x := Cexp (Ci * a)). set (x' := Cexp (- (Ci * a))). set (y := Cexp (Ci * b)). set (y' := Cexp (- (Ci * b))).
  replace ((x - x') / two_i * ((y - y') / two_i)) with ((x - x') * (y - y') / (C2 * C2 * (Ci * Ci))) by cfield. rewrite Ci_sq. cfield.
Qed.
Lemma Csinh_add : forall a b, Csinh (a + b) = Csinh a * Ccosh b + Ccosh a * Csinh b.
Proof. intros a b. unfold Csinh, Ccosh. replace (- (a + b)) with (- a + - b) by ring. rewrite !Cexp_plus. cfield. Qed.
Lemma Ccosh_add : forall a b, Ccosh (a + b) = Ccosh a * Ccosh b + Csinh a * Csinh b.
Proof. intros a b. unfold Csinh, Ccosh. replace (- (a + b)) with (- a + - b) by ring. rewrite !Cexp_plus. cfield. Qed.
Lemma Csinhcosh : forall z, Ccosh z * Ccosh z - Csinh z * Csinh z = C1.
Proof. intros z. rewrite <- (Cexp_opp z). unfold Csinh, Ccosh. cfield. Qed.
Lemma Ceuler : forall z, Cexp (Ci * z) = Ccos z + Ci * Csin z.
Proof. intros z. unfold Csin, Ccos. cfield. Qed.
Lemma Cexp_hyp : forall z, Cexp z = Ccosh z + Csinh z.
Proof. intros z. unfold Csinh, Ccosh. cfield. Qed.
(* coordinates *)
Lemma Cexp_i : forall x y, Cexp (Ci * (x, y)%R) = (exp (- y) * cos x, exp (- y) * sin x)%R.
Proof. intros. unfold Cexp. cbn. replace (0 * x - 1 * y)%R with (- y)%R by ring. replace (0 * y + 1 * x)%R with x by ring. reflexivity. Qed.
Lemma Cexp_mi : forall x y, Cexp (- (Ci * (x, y)%R)) = (exp y * cos x, - (exp y * sin x))%R.
Proof.
  intros. unfold Cexp. cbn. replace (- (0 * x - 1 * y))%R with y by ring. replace (- (0 * y + 1 * x))%R with (- x)%R by ring. rewrite cos_neg, sin_neg. f_equal. ring.
Qed.
Lemma Csin_xy : forall x y, Csin (x, y)%R = (sin x * cosh y, cos x * sinh y)%R.
Proof. intros. unfold Csin. rewrite Cexp_i, Cexp_mi. unfold two_i, cosh, sinh. apply Ceq; cbn; field. Qed.
Lemma Ccos_xy : forall x y, Ccos (x, y)%R = (cos x * cosh y, - (sin x * sinh y))%R.
Proof. intros. unfold Ccos. rewrite Cexp_i, Cexp_mi. unfold cosh, sinh. apply Ceq; cbn; field. Qed.
Lemma Cexp_m : forall x y, Cexp (- (x, y)%R) = (exp (- x) * cos y, - (exp (- x) * sin y))%R.
Proof. intros. unfold Cexp. cbn. rewrite cos_neg, sin_neg. f_equal. ring. Qed.
Lemma Csinh_xy : forall x y, Csinh (x, y)%R = (sinh x * cos y, cosh x * sin y)%R.
Proof. intros. unfold Csinh. rewrite Cexp_m. unfold Cexp, cosh, sinh. apply Ceq; cbn; field. Qed.
Lemma Ccosh_xy : forall x y, Ccosh (x, y)%R = (cosh x * cos y, sinh x * sin y)%R.
Proof. intros. unfold Ccosh. rewrite Cexp_m. unfold Cexp, cosh, sinh. apply Ceq; cbn; field. Qed.
(* inverse functions *)
Lemma prod1 : forall a b, a * b = C1 -> a <> C0 /\ / a = b.
Proof.
  intros a b H. assert (N : a <> C0). { intros ->. rewrite Cmult_0_l in H. apply (f_equal fst) in H. cbn in H. lra. }
  split; auto. rewrite <- (Cmult_1_r (/ a)), <- H. field. auto.
Qed.
Lemma Csin_asin : forall z, Csin (- Ci * Cln (Csqrt (C1 - z * z) + Ci * z)) = z.
Proof.
  intros z. pose proof (Csqrt_sqr (C1 - z * z)) as S. set (s := Csqrt (C1 - z * z)) in *. pose proof Ci_sq as I.
  assert (P : (s + Ci * z) * (s - Ci * z) = C1). { replace ((s + Ci * z) * (s - Ci * z)) with (s * s - Ci * Ci * (z * z)) by ring. rewrite S, I. ring. }
  destruct (prod1 P) as (N & V). unfold Csin. replace (Ci * (- Ci * Cln (s + Ci * z))) with (- (Ci * Ci) * Cln (s + Ci * z)) by ring. rewrite I.
  replace (- - C1 * Cln (s + Ci * z)) with (Cln (s + Ci * z)) by ring. rewrite Cexp_opp', Cexp_ln, V by auto. cfield.
Qed.
Lemma Ccos_acos : forall z, Ccos (- Ci * Cln (Ci * Csqrt (C1 - z * z) + z)) = z.
Proof.
  intros z. pose proof (Csqrt_sqr (C1 - z * z)) as S. set (s := Csqrt (C1 - z * z)) in *. pose proof Ci_sq as I.
  assert (P : (Ci * s + z) * (z - Ci * s) = C1). { replace ((Ci * s + z) * (z - Ci * s)) with (z * z - Ci * Ci * (s * s)) by ring. rewrite S, I. ring. }
  destruct (prod1 P) as (N & V). unfold Ccos. replace (Ci * (- Ci * Cln (Ci * s + z))) with (- (Ci * Ci) * Cln (Ci * s + z)) by ring. rewrite I.
  replace (- - C1 * Cln (Ci * s + z)) with (Cln (Ci * s + z)) by ring. rewrite Cexp_opp', Cexp_ln, V by auto. cfield.
Qed.
Lemma Csinh_asinh : forall z, Csinh (Cln (z + Csqrt (C1 + z * z))) = z.
Proof.
  intros z. pose proof (Csqrt_sqr (C1 + z * z)) as S. set (s := Csqrt (C1 + z * z)) in *.
  assert (P : (z + s) * (s - z) = C1). { replace ((z + s) * (s - z)) with (s * s - z * z) by ring. rewrite S. ring. }
  destruct (prod1 P) as (N & V). unfold Csinh. rewrite Cexp_opp', Cexp_ln, V by auto. cfield.
Qed.
Lemma Ccosh_acosh : forall z, Ccosh (C2 * Cln (Csqrt ((z + C1) / C2) + Csqrt ((z - C1) / C2))) = z.
Proof.
  intros z. pose proof (Csqrt_sqr ((z + C1) / C2)) as SA. set (a := Csqrt ((z + C1) / C2)) in *. pose proof (Csqrt_sqr ((z - C1) / C2)) as SB. set (b := Csqrt ((z - C1) / C2)) in *.
  assert (P : (a + b) * (a - b) = C1). { replace ((a + b) * (a - b)) with (a * a - b * b) by ring. rewrite SA, SB. cfield. }
  destruct (prod1 P) as (N & V). unfold Ccosh. rewrite Cexp_opp'. replace (C2 * Cln (a + b)) with (Cln (a + b) + Cln (a + b)) by (rewrite C2_eq; ring).
  rewrite Cexp_plus, Cexp_ln by auto. replace (/ ((a + b) * (a + b))) with ((/ (a + b)) * (/ (a + b))) by (field; auto). rewrite V.
  replace (((a + b) * (a + b) + (a - b) * (a - b)) / C2) with (a * a + b * b) by cfield. rewrite SA, SB. cfield.
Qed.
Lemma half_ratio : forall p q, p <> C0 -> q <> C0 -> let e := Cexp ((Cln p - Cln q) / C2) in e * e = p / q /\ e <> C0.
Proof.
  intros p q Hp Hq e. split; [|apply Cexp_neq]. unfold e. rewrite <- Cexp_plus. replace ((Cln p - Cln q) / C2 + (Cln p - Cln q) / C2) with (Cln p + - Cln q) by cfield.
  rewrite Cexp_plus, Cexp_opp', !Cexp_ln by auto. reflexivity.
Qed.
Lemma Cdiv_0 : forall a b, b <> C0 -> a / b = C0 -> a = C0.
Proof. intros a b H E. replace a with (a / b * b) by (field; auto). rewrite E. ring. Qed.
Lemma Cmul_neq : forall a b, a <> C0 -> b <> C0 -> a * b <> C0.
Proof. intros a b Ha Hb. apply Cmult_neq_0; auto. Qed.
Lemma Ctan_atan : forall z, z <> Ci -> z <> - Ci ->
  let w := (Cln (C1 + Ci * z) - Cln (C1 - Ci * z)) / two_i in Ccos w <> C0 /\ Csin w / Ccos w = z.
Proof.
  intros z H1 H2 w. set (p := C1 + Ci * z) in *. set (q := C1 - Ci * z) in *.
  assert (Hp : p <> C0). { intros E. apply H1. replace z with (- Ci * (p - C1)). { rewrite E. ring. } unfold p. replace (- Ci * (C1 + Ci * z - C1)) with (- (Ci * Ci) * z) by ring. rewrite Ci_sq. ring. }
  assert (Hq : q <> C0). { intros E. apply H2. replace z with (Ci * (q - C1)). { rewrite E. ring. } unfold q. replace (Ci * (C1 - Ci * z - C1)) with (- (Ci * Ci) * z) by ring. rewrite Ci_sq. ring. }
  assert (Ew : Ci * w = (Cln p - Cln q) / C2) by (unfold w; cfield). destruct (half_ratio Hp Hq) as (E & Ne).
  unfold Csin, Ccos. rewrite Cexp_opp', Ew. set (e := Cexp ((Cln p - Cln q) / C2)) in *.
  assert (D : e * e + C1 = C2 / q). { rewrite E. unfold p, q in *. cfield. }
  assert (Dn : e * e + C1 <> C0). { rewrite D. intros X. apply Cdiv_0 in X; auto. apply C2_neq. auto. }
  assert (S : e + / e = (e * e + C1) / e) by (field; auto).
  split.
  - rewrite S. intros X. apply Cdiv_0 in X; [|apply C2_neq]. apply Cdiv_0 in X; auto.
  - replace ((e - / e) / two_i / ((e + / e) / C2)) with ((e * e - C1) / (Ci * (e * e + C1))).
    + rewrite E. replace (p / q - C1) with ((p - q) / q) by (field; auto). replace (p / q + C1) with ((p + q) / q) by (field; auto).
      replace (p + q) with C2 by (unfold p, q; rewrite C2_eq; ring). replace (p - q) with (C2 * Ci * z) by (unfold p, q; rewrite C2_eq; ring). cfield.
    + rewrite S. replace (e - / e) with ((e * e - C1) / e) by (field; auto). rewrite two_i_eq. field. repeat split; auto using C2_neq, Ci_neq.
Qed.
Lemma Ctanh_atanh : forall z, z <> C1 -> z <> - C1 ->
  let w := (Cln (C1 + z) - Cln (C1 - z)) / C2 in Ccosh w <> C0 /\ Csinh w / Ccosh w = z.
Proof.
  intros z H1 H2 w. set (p := C1 + z) in *. set (q := C1 - z) in *.
  assert (Hp : p <> C0). { intros E. apply H2. replace z with (p - C1) by (unfold p; ring). rewrite E. ring. }
  assert (Hq : q <> C0). { intros E. apply H1. replace z with (C1 - q) by (unfold q; ring). rewrite E. ring. }
  destruct (half_ratio Hp Hq) as (E & Ne). unfold Csinh, Ccosh. rewrite Cexp_opp'. fold w in E, Ne. set (e := Cexp w) in *.
  assert (D : e * e + C1 = C2 / q). { rewrite E. unfold p, q in *. cfield. }
  assert (Dn : e * e + C1 <> C0). { rewrite D. intros X. apply Cdiv_0 in X; auto. apply C2_neq. auto. }
  assert (S : e + / e = (e * e + C1) / e) by (field; auto).
  split.
  - rewrite S. intros X. apply Cdiv_0 in X; [|apply C2_neq]. apply Cdiv_0 in X; auto.
  - replace ((e - / e) / C2 / ((e + / e) / C2)) with ((e * e - C1) / (e * e + C1)).
    + rewrite E. replace (p / q - C1) with ((p - q) / q) by (field; auto). replace (p / q + C1) with ((p + q) / q) by (field; auto).
      replace (p + q) with C2 by (unfold p, q; rewrite C2_eq; ring). replace (p - q) with (C2 * z) by (unfold p, q; rewrite C2_eq; ring). cfield.
    + rewrite S. replace (e - / e) with ((e * e - C1) / e) by (field; auto). field. repeat split; auto using C2_neq.
Qed.
Lemma Cln_exp : forall z, (- PI < snd z <= PI)%R -> Cln (Cexp z) = z.
Proof.
  intros [x y] H. cbn in H. unfold Cln. pose proof (exp_pos x) as Px.
  assert (M : Cmod (Cexp (x, y)%R) = exp x).
  { rewrite mod_sqr. cbn. apply sqrt_lem_1.
    - nra.
    - lra.
    - pose proof (sin2_cos2 y) as S. unfold Rsqr in S. replace (exp x * cos y * (exp x * cos y) + exp x * sin y * (exp x * sin y))%R with (exp x * exp x * (sin y * sin y + cos y * cos y))%R by ring. rewrite S. ring. }
  rewrite M, ln_exp. cbn [Cexp fst snd]. f_equal. apply atan2_polar; auto.
Qed.
Lemma Cpow_add : forall z m n, Cpow z (m + n) = Cpow z m * Cpow z n.
Proof. intros z m n. induction m; cbn [Cpow Nat.add]; [ring|rewrite IHm; ring]. Qed.
Lemma Cpow_mul : forall z w n, Cpow (z * w) n = Cpow z n * Cpow w n.
Proof. intros z w n. induction n; cbn [Cpow]; [ring|rewrite IHn; ring]. Qed.
Lemma Cpow_pow : forall z m n, Cpow (Cpow z m) n = Cpow z (m * n).
Proof. intros z m n. rewrite Nat.mul_comm. induction n; cbn [Cpow Nat.mul]; [reflexivity|rewrite Cpow_add, IHn; ring]. Qed.
Lemma Cpow_exp : forall z n, Cpow (Cexp z) n = Cexp (RtoC (INR n) * z).
Proof.
  intros z n. induction n; cbn [Cpow]. { rewrite <- Cexp_0. f_equal. apply Ceq; cbn; ring. }
  rewrite IHn, <- Cexp_plus, S_INR. f_equal. rewrite RtoC_plus. ring.
Qed.

Section C83.
  Context {Str : Type} (N : num_complex R Str) (H : textbook N).
  Local Notation cplx := (complex R).
  Local Notation o := r_ops.
  Local Notation zero := (Cx 0 0)%R.
  Local Notation one := (Cx 1 0)%R.

  Lemma nn : forall z : cplx, of_num (num_of z) = z. Proof. intros []. reflexivity. Qed.
  Lemma nn' : forall t : C, num_of (of_num t) = t. Proof. intros []. reflexivity. Qed.
  Lemma num_neq : forall z : cplx, z <> zero -> num_of z <> C0.
  Proof. intros [a b] Hz E. apply Hz. injection E as -> ->. reflexivity. Qed.
  Lemma add_n : forall a b : cplx, c_add o a b = Ok (of_num (num_of a + num_of b)). Proof. intros [] []. reflexivity. Qed.
  Lemma sub_n : forall a b : cplx, c_sub o a b = Ok (of_num (num_of a - num_of b)). Proof. intros [] []. reflexivity. Qed.
  Lemma mul_n : forall a b : cplx, c_mul o a b = Ok (of_num (num_of a * num_of b)). Proof. intros [] []. reflexivity. Qed.
  Lemma neg_n : forall a : cplx, c_neg o a = Ok (of_num (- num_of a)). Proof. intros []. reflexivity. Qed.
  Lemma conj_n : forall a : cplx, c_conj o a = Ok (of_num (Cconj (num_of a))). Proof. intros []. reflexivity. Qed.
  Lemma inv_n : forall a : cplx, a <> zero -> c_inv o a = Ok (of_num (/ num_of a)).
  Proof.
    intros [a b] Hn. assert (Q : (a * a + b * b)%R <> 0%R). { intros E. apply Hn. assert (a = 0 /\ b = 0)%R as (-> & ->) by (split; nra). reflexivity. }
    unfold c_inv. change (c_conj o (Cx a b)) with (Ok (Cx a (- b)%R)). cbn [bind]. change (c_norm_sqr o (Cx a b)) with (Ok (a * a + b * b)%R). cbn [bind].
    unfold c_div_s, v_sdiv. cbn [c_into_vector re im]. rewrite VFacts.v_map_res. cbn [map_res o_div r_ops]. destruct (Req_EM_T (a * a + b * b) 0); [contradiction|]. cbn.
    unfold of_num. cbn. f_equal. f_equal; f_equal; ring.
  Qed.
  Lemma div_n : forall a b : cplx, b <> zero -> c_div o a b = Ok (of_num (num_of a / num_of b)).
  Proof. intros a b Hb. unfold c_div. rewrite inv_n by auto. cbn [bind]. rewrite mul_n, nn'. reflexivity. Qed.
  Lemma norm_n : forall eps (a : cplx), c_norm o (r_float eps) a = Ok (Cmod (num_of a)).
  Proof. intros eps a. rewrite c_norm_v. f_equal. rewrite mod_sqr. reflexivity. Qed.

  Lemma exp_n : forall z : cplx, c_exp N z = Ok (of_num (Cexp (num_of z))).
  Proof. intros []. unfold c_exp. cbn. rewrite (tb_exp H). reflexivity. Qed.
  Lemma ln_n : forall z : cplx, z <> zero -> c_ln N z = Ok (of_num (Cln (num_of z))).
  Proof. intros z Hz. apply num_neq in Hz. destruct z. unfold c_ln. cbn. rewrite (tb_ln H) by auto. reflexivity. Qed.
  Lemma sqrt_n : forall z : cplx, c_sqrt N z = Ok (of_num (Csqrt (num_of z))).
  Proof. intros [x y]. unfold c_sqrt. change (c_into_num (Cx x y)) with (Ok (x, y)). cbn [bind]. rewrite (tb_sqrt H). reflexivity. Qed.
  Lemma sin_n : forall z : cplx, c_sin N z = Ok (of_num (Csin (num_of z))).
  Proof. intros [x y]. unfold c_sin. change (c_into_num (Cx x y)) with (Ok (x, y)). cbn [bind]. rewrite (tb_sin H). reflexivity. Qed.
  Lemma cos_n : forall z : cplx, c_cos N z = Ok (of_num (Ccos (num_of z))).
  Proof. intros [x y]. unfold c_cos. change (c_into_num (Cx x y)) with (Ok (x, y)). cbn [bind]. rewrite (tb_cos H). reflexivity. Qed.
  Lemma sinh_n : forall z : cplx, c_sinh N z = Ok (of_num (Csinh (num_of z))).
  Proof. intros [x y]. unfold c_sinh. change (c_into_num (Cx x y)) with (Ok (x, y)). cbn [bind]. rewrite (tb_sinh H). reflexivity. Qed.
  Lemma cosh_n : forall z : cplx, c_cosh N z = Ok (of_num (Ccosh (num_of z))).
  Proof. intros [x y]. unfold c_cosh. change (c_into_num (Cx x y)) with (Ok (x, y)). cbn [bind]. rewrite (tb_cosh H). reflexivity. Qed.
  Lemma powu_n : forall (z : cplx) n, c_powu N z n = Ok (of_num (Cpow (num_of z) n)).
  Proof. intros [x y] n. unfold c_powu. change (c_into_num (Cx x y)) with (Ok (x, y)). cbn [bind]. rewrite (tb_powu H). reflexivity. Qed.
  Lemma both : forall A (x y : A), x = y -> Ok x =! Ok y. Proof. intros A x y ->. eexists. split; reflexivity. Qed.

  (** Exponential. *)
  Theorem C83_exp : forall a b : cplx, forall eps,
    (let! s := c_add o a b in c_exp N s) =! (let! x := c_exp N a in let! y := c_exp N b in c_mul o x y) /\
    (let! z := c_zero o in c_exp N z) =! c_one o /\
    (let! x := c_exp N a in let! m := c_neg o a in let! y := c_exp N m in c_mul o x y) =! c_one o /\
    (let! c := c_conj o a in c_exp N c) =! (let! x := c_exp N a in c_conj o x) /\
    c_exp N a =! c_from_polar o (r_float eps) (exp (re a)) (im a) /\
    (let! x := c_exp N a in c_norm o (r_float eps) x) = Ok (exp (re a)).
  Proof.
    intros a b eps. split; [|split; [|split; [|split; [|split]]]].
    - rewrite add_n. cbn [bind]. rewrite !exp_n, nn'. cbn [bind]. rewrite mul_n, !nn', Cexp_plus. apply both. auto.
    - change (c_zero o) with (Ok zero). cbn [bind]. rewrite exp_n. apply both. change (num_of zero) with C0. rewrite Cexp_0. reflexivity.
    - rewrite exp_n. cbn [bind]. rewrite neg_n. cbn [bind]. rewrite exp_n. cbn [bind]. rewrite mul_n, !nn', Cexp_opp. apply both. reflexivity.
    - rewrite conj_n, exp_n. cbn [bind]. rewrite exp_n, conj_n, !nn'. apply both. f_equal. destruct a as [x y]. unfold Cexp, Cconj. cbn. rewrite cos_neg, sin_neg. f_equal. ring.
    - rewrite exp_n. apply both. reflexivity.
    - rewrite exp_n. cbn [bind]. rewrite norm_n, nn'. f_equal. rewrite mod_sqr. cbn. apply sqrt_lem_1; [nra|left; apply exp_pos|].
      pose proof (sin2_cos2 (im a)) as S. unfold Rsqr in S.
      replace (exp (re a) * cos (im a) * (exp (re a) * cos (im a)) + exp (re a) * sin (im a) * (exp (re a) * sin (im a)))%R with (exp (re a) * exp (re a) * (sin (im a) * sin (im a) + cos (im a) * cos (im a)))%R by ring. rewrite S. ring.
  Qed.
  (** Logarithm: a right inverse of [exp], and an inverse on the strip -pi < im <= pi; polar form of the argument. *)
  Theorem C83_ln : forall z : cplx, forall eps,
    (z <> zero -> (let! l := c_ln N z in c_exp N l) = Ok z /\
       exists r t, c_to_polar o (r_float eps) z = Ok (r, t) /\ (0 < r)%R /\ c_ln N z = Ok (Cx (ln r) t)) /\
    ((- PI < im z <= PI)%R -> (let! e := c_exp N z in c_ln N e) = Ok z).
  Proof.
    intros z eps. split.
    - intros Hz. rewrite ln_n by auto. cbn [bind]. rewrite exp_n, nn', Cexp_ln, nn by (apply num_neq; auto). split; auto.
      exists (Cmod (num_of z)), (atan2 (im z) (re z)). split; [rewrite c_to_polar_v, mod_sqr; reflexivity|]. split; [|reflexivity].
      apply mod_pos, num_neq; auto.
    - intros Hi. rewrite exp_n. cbn [bind]. rewrite ln_n.
      + rewrite nn', Cln_exp, nn by auto. reflexivity.
      + intros E. apply (@Cexp_neq (num_of z)). apply (f_equal num_of) in E. rewrite nn' in E. exact E.
  Qed.
  (** Powers. *)
  Theorem C83_powu : forall (z w : cplx) m n,
    c_powu N z 0 = c_one o /\ c_powu N z 1 = Ok z /\ c_powu N z (S n) =! (let! p := c_powu N z n in c_mul o z p) /\
    c_powu N z (m + n) =! (let! p := c_powu N z m in let! q := c_powu N z n in c_mul o p q) /\
    (let! p := c_powu N z m in c_powu N p n) =! c_powu N z (m * n) /\
    (let! p := c_mul o z w in c_powu N p n) =! (let! p := c_powu N z n in let! q := c_powu N w n in c_mul o p q).
  Proof.
    intros z w m n. rewrite !powu_n. cbn [bind]. rewrite !mul_n. cbn [bind]. rewrite !powu_n, ?nn'. split; [reflexivity|]. split; [|split; [|split; [|split]]].
    - cbn [Cpow]. rewrite Cmult_1_r, nn. reflexivity.
    - apply both. reflexivity.
    - apply both. rewrite Cpow_add. reflexivity.
    - apply both. rewrite Cpow_pow. reflexivity.
    - apply both. rewrite Cpow_mul. reflexivity.
  Qed.
  (** [powu] is the product of n copies. *)
  Theorem C83_powu_product : forall (z : cplx) n, c_powu N z n =! c_product o (repeat z n).
  Proof.
    intros z n. rewrite powu_n. unfold c_product. change (c_one o) with (Ok (of_num C1)). cbn [bind].
    assert (G : forall t, fold_res (c_mul o) (of_num t) (repeat z n) = Ok (of_num (t * Cpow (num_of z) n))).
    { induction n as [|n IH]; intros t; cbn [repeat fold_res Cpow]. { rewrite Cmult_1_r. reflexivity. }
      rewrite mul_n. cbn [bind]. rewrite nn', IH. f_equal. f_equal. ring. }
    rewrite G, Cmult_1_l. apply both. reflexivity.
  Qed.
  Lemma Cinv_neq : forall t, t <> C0 -> / t <> C0.
  Proof. intros t Ht E. assert (X : t * / t = C1) by (apply Cinv_r; auto). rewrite E, Cmult_0_r in X. apply (f_equal fst) in X. cbn in X. lra. Qed.
  Definition Zpow (t : C) (k : Z) : C := if (0 <=? k)%Z then Cpow t (Z.to_nat k) else Cpow (/ t) (Z.to_nat (- k)).
  Lemma Zpow_succ : forall t k, t <> C0 -> Zpow t (k + 1) = t * Zpow t k.
  Proof.
    intros t k Ht. unfold Zpow. destruct (Z.leb_spec 0 k) as [L|L]; destruct (Z.leb_spec 0 (k + 1)) as [L'|L']; try lia.
    - replace (Z.to_nat (k + 1)) with (S (Z.to_nat k)) by lia. reflexivity.
    - replace (Z.to_nat (k + 1)) with 0%nat by lia. replace (Z.to_nat (- k)) with 1%nat by lia. cbn [Cpow]. rewrite Cmult_1_r, Cinv_r by auto. reflexivity.
    - replace (Z.to_nat (- k)) with (S (Z.to_nat (- (k + 1)))) by lia. cbn [Cpow]. rewrite Cmult_assoc, Cinv_r by auto. ring.
  Qed.
  Lemma Zpow_add : forall t j k, t <> C0 -> Zpow t (j + k) = Zpow t j * Zpow t k.
  Proof.
    intros t j k Ht. revert j. 
    assert (P : forall n j, Zpow t (j + Z.of_nat n) = Cpow t n * Zpow t j).
    { induction n as [|n IH]; intros j. { rewrite Z.add_0_r. cbn [Cpow]. ring. } rewrite Nat2Z.inj_succ. replace (j + Z.succ (Z.of_nat n))%Z with (j + Z.of_nat n + 1)%Z by lia. rewrite Zpow_succ, IH by auto. cbn [Cpow]. ring. }
    assert (Q : forall n, Cpow t n * Cpow (/ t) n = C1). { intros n. rewrite <- Cpow_mul, Cinv_r by auto. induction n; cbn [Cpow]; [reflexivity|rewrite IHn; ring]. }
    intros j. destruct (Z.leb_spec 0 k) as [L|L].
    - replace k with (Z.of_nat (Z.to_nat k)) at 1 by lia. rewrite P. unfold Zpow at 3. replace (0 <=? k)%Z with true by (symmetry; apply Z.leb_le; lia). ring.
    - pose proof (P (Z.to_nat (- k)) (j + k)%Z) as E. replace (j + k + Z.of_nat (Z.to_nat (- k)))%Z with j in E by lia. rewrite E. unfold Zpow at 3. replace (0 <=? k)%Z with false by (symmetry; apply Z.leb_gt; lia).
      rewrite <- (Cmult_1_l (Zpow t (j + k))) at 1. rewrite <- (Q (Z.to_nat (- k))). ring.
  Qed.
  Lemma powi_n : forall (z : cplx) k, z <> zero -> c_powi N z k = Ok (of_num (Zpow (num_of z) k)).
  Proof. intros z k Hz. pose proof (num_neq Hz) as Hn. destruct z as [x y]. unfold c_powi. change (c_into_num (Cx x y)) with (Ok (x, y)). cbn [bind]. rewrite (tb_powi H) by exact Hn. reflexivity. Qed.
  Theorem C83_powi : forall (z : cplx) j k n, z <> zero ->
    c_powi N z (Z.of_nat n) =! c_powu N z n /\ c_powi N z (-1) =! c_inv o z /\
    c_powi N z (j + k) =! (let! p := c_powi N z j in let! q := c_powi N z k in c_mul o p q).
  Proof.
    intros z j k n Hz. rewrite !powi_n, powu_n, inv_n by auto. cbn [bind]. rewrite mul_n, !nn', Zpow_add by (apply num_neq; auto). split; [|split]; apply both.
    - unfold Zpow. replace (0 <=? Z.of_nat n)%Z with true by (symmetry; apply Z.leb_le; lia). rewrite Nat2Z.id. reflexivity.
    - f_equal. change (Zpow (num_of z) (-1)) with (/ num_of z * C1). ring.
    - reflexivity.
  Qed.
  (** Roots. *)
  Theorem C83_roots : forall z : cplx,
    (exists r, c_sqrt N z = Ok r /\ c_mul o r r = Ok z /\ (0 <= re r)%R) /\
    (z <> zero -> exists r, c_cbrt N z = Ok r /\ c_powu N r 3 = Ok z).
  Proof.
    intros z. split.
    - rewrite sqrt_n. eexists. split; [reflexivity|]. rewrite mul_n, !nn', Csqrt_sqr, nn. split; auto. apply Csqrt_re.
    - intros Hz. pose proof (num_neq Hz) as Hn. exists (of_num (Cexp (Cln (num_of z) / RtoC 3))). split.
      + destruct z as [x y]. unfold c_cbrt. change (c_into_num (Cx x y)) with (Ok (x, y)). cbn [bind]. rewrite (tb_cbrt H) by exact Hn. reflexivity.
      + rewrite powu_n, nn', Cpow_exp. replace (RtoC (INR 3) * (Cln (num_of z) / RtoC 3)) with (Cln (num_of z)).
        * rewrite Cexp_ln, nn by auto. reflexivity.
        * replace (INR 3) with 3%R by (cbn; ring). field. cnz.
  Qed.
  (** General powers. *)
  Lemma powc_n : forall z w : cplx, z <> zero -> c_powc N z w = Ok (of_num (Cexp (num_of w * Cln (num_of z)))).
  Proof.
    intros z w Hz. pose proof (num_neq Hz) as Hn. destruct z as [x y], w as [a b]. unfold c_powc. change (c_into_num (Cx x y)) with (Ok (x, y)). change (c_into_num (Cx a b)) with (Ok (a, b)). cbn [bind].
    rewrite (tb_powc H) by exact Hn. reflexivity.
  Qed.
  Lemma powf_n : forall (z : cplx) t, z <> zero -> c_powf N z t = Ok (of_num (Cexp (RtoC t * Cln (num_of z)))).
  Proof.
    intros z t Hz. pose proof (num_neq Hz) as Hn. destruct z as [x y]. unfold c_powf. change (c_into_num (Cx x y)) with (Ok (x, y)). cbn [bind].
    rewrite (tb_powf H) by exact Hn. reflexivity.
  Qed.
  Theorem C83_powers : forall (z : cplx), z <> zero -> forall (v w : cplx) (s t : R) (n : nat),
    (let! e := c_add o v w in c_powc N z e) =! (let! p := c_powc N z v in let! q := c_powc N z w in c_mul o p q) /\
    c_powc N z (Cx t 0%R) =! c_powf N z t /\
    c_powf N z (s + t)%R =! (let! p := c_powf N z s in let! q := c_powf N z t in c_mul o p q) /\
    c_powf N z (INR n) =! c_powu N z n /\ 
    (let! p := c_powf N z (/ 2)%R in c_mul o p p) = Ok z.
  Proof.
    intros z Hz v w s t n. pose proof (num_neq Hz) as Hn. rewrite add_n. cbn [bind]. rewrite !powc_n, !powf_n, powu_n by auto. cbn [bind]. rewrite !mul_n, !nn'.
    split; [|split; [|split; [|split]]]; try apply both.
    - rewrite <- Cexp_plus. do 2 f_equal. ring.
    - reflexivity.
    - rewrite <- Cexp_plus, RtoC_plus. do 2 f_equal. ring.
    - rewrite <- Cpow_exp, Cexp_ln by auto. reflexivity.
    - rewrite <- Cexp_plus. replace (RtoC (/ 2) * Cln (num_of z) + RtoC (/ 2) * Cln (num_of z)) with (Cln (num_of z)). { rewrite Cexp_ln, nn by auto. reflexivity. }
      destruct (Cln (num_of z)) as [x y]. apply Ceq; cbn; field.
  Qed.
  (** [expf] and [log] in a positive base other than 1 are inverse to each other in the same sense as [exp] and [ln]. *)
  Theorem C83_log : forall (z : cplx) b, (0 < b)%R ->
    (z <> zero -> b <> 1%R -> (let! l := c_log N z b in c_expf N l b) = Ok z) /\
    (forall w, (let! s := c_add o z w in c_expf N s b) =! (let! x := c_expf N z b in let! y := c_expf N w b in c_mul o x y)).
  Proof.
    intros z b Hb.
    assert (E : forall w : cplx, c_expf N w b = Ok (of_num (Cexp (num_of w * RtoC (ln b))))).
    { intros [x y]. unfold c_expf. change (c_into_num (Cx x y)) with (Ok (x, y)). cbn [bind]. rewrite (tb_expf H) by auto. reflexivity. }
    split.
    - intros Hz H1. pose proof (num_neq Hz) as Hn.
      assert (L : c_log N z b = Ok (of_num (Cln (num_of z) / RtoC (ln b)))). { destruct z as [x y]. unfold c_log. change (c_into_num (Cx x y)) with (Ok (x, y)). cbn [bind]. rewrite (tb_log H) by auto. reflexivity. }
      rewrite L. cbn [bind]. rewrite E, nn'. assert (NL : RtoC (ln b) <> C0).
      { intros X. apply RtoC_inj in X. apply H1. apply ln_inv; [lra|lra|]. rewrite X, ln_1. reflexivity. }
      replace (Cln (num_of z) / RtoC (ln b) * RtoC (ln b)) with (Cln (num_of z)) by (field; auto). rewrite Cexp_ln, nn by auto. reflexivity.
    - intros w. rewrite add_n. cbn [bind]. rewrite !E. cbn [bind]. rewrite mul_n, !nn'. apply both. rewrite <- Cexp_plus. do 2 f_equal. ring.
  Qed.
  (** Trigonometric functions: values, Pythagoras, addition theorems, Euler's formula. *)
  Theorem C83_trig : forall a b : cplx,
    c_sin N a = Ok (Cx (sin (re a) * cosh (im a)) (cos (re a) * sinh (im a)))%R /\
    c_cos N a = Ok (Cx (cos (re a) * cosh (im a)) (- (sin (re a) * sinh (im a))))%R /\
    (let! s := c_sin N a in let! c := c_cos N a in lift2 (c_add o) (c_mul o s s) (c_mul o c c)) =! c_one o /\
    (let! x := c_add o a b in c_sin N x) =! (let! s := c_sin N a in let! c := c_cos N a in let! s' := c_sin N b in let! c' := c_cos N b in lift2 (c_add o) (c_mul o s c') (c_mul o c s')) /\
    (let! x := c_add o a b in c_cos N x) =! (let! s := c_sin N a in let! c := c_cos N a in let! s' := c_sin N b in let! c' := c_cos N b in lift2 (c_sub o) (c_mul o c c') (c_mul o s s')) /\
    (let! i := c_i o in let! x := c_mul o i a in c_exp N x) =! (let! i := c_i o in let! s := c_sin N a in let! c := c_cos N a in let! t := c_mul o i s in c_add o c t).
  Proof.
    intros a b. change (c_i o) with (Ok (of_num Ci)). rewrite add_n, !sin_n, !cos_n. cbn [bind]. rewrite !mul_n. cbn [lift2 bind].
    rewrite !add_n, !sub_n, ?sin_n, ?cos_n, ?exp_n, !nn'. split; [|split; [|split; [|split; [|split]]]]; try apply both.
    - destruct a as [x y]. change (num_of (Cx x y)) with (x, y). rewrite Csin_xy. reflexivity.
    - destruct a as [x y]. change (num_of (Cx x y)) with (x, y). rewrite Ccos_xy. reflexivity.
    - rewrite Csincos. reflexivity.
    - rewrite Csin_add. reflexivity.
    - rewrite Ccos_add. reflexivity.
    - rewrite Ceuler. reflexivity.
  Qed.
  Theorem C83_hyperbolic : forall a b : cplx,
    c_sinh N a = Ok (Cx (sinh (re a) * cos (im a)) (cosh (re a) * sin (im a)))%R /\
    c_cosh N a = Ok (Cx (cosh (re a) * cos (im a)) (sinh (re a) * sin (im a)))%R /\
    (let! s := c_sinh N a in let! c := c_cosh N a in lift2 (c_sub o) (c_mul o c c) (c_mul o s s)) =! c_one o /\
    (let! x := c_add o a b in c_sinh N x) =! (let! s := c_sinh N a in let! c := c_cosh N a in let! s' := c_sinh N b in let! c' := c_cosh N b in lift2 (c_add o) (c_mul o s c') (c_mul o c s')) /\
    (let! x := c_add o a b in c_cosh N x) =! (let! s := c_sinh N a in let! c := c_cosh N a in let! s' := c_sinh N b in let! c' := c_cosh N b in lift2 (c_add o) (c_mul o c c') (c_mul o s s')) /\
    c_exp N a =! (let! s := c_sinh N a in let! c := c_cosh N a in c_add o c s).
  Proof.
    intros a b. rewrite add_n, exp_n, !sinh_n, !cosh_n. cbn [bind]. rewrite !mul_n. cbn [lift2 bind].
    rewrite !add_n, !sub_n, ?sinh_n, ?cosh_n, !nn'. split; [|split; [|split; [|split; [|split]]]]; try apply both.
    - destruct a as [x y]. change (num_of (Cx x y)) with (x, y). rewrite Csinh_xy. reflexivity.
    - destruct a as [x y]. change (num_of (Cx x y)) with (x, y). rewrite Ccosh_xy. reflexivity.
    - rewrite Csinhcosh. reflexivity.
    - rewrite Csinh_add. reflexivity.
    - rewrite Ccosh_add. reflexivity.
    - rewrite Cexp_hyp. reflexivity.
  Qed.
  (** Tangents are quotients, and the inverse functions are right inverses. *)
  Theorem C83_tangents : forall z : cplx,
    (c_cos N z <> Ok zero -> (let! t := c_tan N z in let! c := c_cos N z in c_mul o t c) =! c_sin N z) /\
    (c_cosh N z <> Ok zero -> (let! t := c_tanh N z in let! c := c_cosh N z in c_mul o t c) =! c_sinh N z).
  Proof.
    intros [x y]. rewrite cos_n, cosh_n, sin_n, sinh_n. set (t := num_of (Cx x y)). split; intros Hc.
    - assert (Nz : Ccos t <> C0) by (intros E; apply Hc; rewrite E; reflexivity). unfold c_tan. change (c_into_num (Cx x y)) with (Ok t). cbn [bind]. rewrite (tb_tan H) by auto.
      cbn [bind]. change (c_from_num (Csin t / Ccos t)) with (Ok (of_num (Csin t / Ccos t))). cbn [bind]. rewrite mul_n, !nn'. apply both. f_equal. field. auto.
    - assert (Nz : Ccosh t <> C0) by (intros E; apply Hc; rewrite E; reflexivity). unfold c_tanh. change (c_into_num (Cx x y)) with (Ok t). cbn [bind]. rewrite (tb_tanh H) by auto.
      cbn [bind]. change (c_from_num (Csinh t / Ccosh t)) with (Ok (of_num (Csinh t / Ccosh t))). cbn [bind]. rewrite mul_n, !nn'. apply both. f_equal. field. auto.
  Qed.
  Theorem C83_inverse_functions : forall z : cplx,
    (let! w := c_asin N z in c_sin N w) = Ok z /\ (let! w := c_acos N z in c_cos N w) = Ok z /\
    (let! w := c_asinh N z in c_sinh N w) = Ok z /\ (let! w := c_acosh N z in c_cosh N w) = Ok z /\
    (z <> Cx 0 1 -> z <> Cx 0 (-1) -> (let! w := c_atan N z in c_tan N w) = Ok z)%R /\
    (z <> Cx 1 0 -> z <> Cx (-1) 0 -> (let! w := c_atanh N z in c_tanh N w) = Ok z)%R.
  Proof.
    intros [x y]. unfold c_asin, c_acos, c_asinh, c_acosh, c_atan, c_atanh. change (c_into_num (Cx x y)) with (Ok (x, y)). cbn [bind].
    rewrite (tb_asin H), (tb_acos H), (tb_asinh H), (tb_acosh H). cbn [bind].
    assert (FN : forall t : C, c_from_num t = Ok (of_num t)) by (intros []; reflexivity). rewrite !FN. cbn [bind]. rewrite sin_n, cos_n, sinh_n, cosh_n, !nn'.
    rewrite Csin_asin, Ccos_acos, Csinh_asinh, Ccosh_acosh. do 4 (split; [reflexivity|]). split; intros H1 H2.
    - assert (G1 : ((x, y) : C) <> Ci) by (intros E; apply H1; injection E as -> ->; reflexivity).
      assert (G2 : ((x, y) : C) <> - Ci). { intros E. apply H2. pose proof (f_equal fst E) as E1. pose proof (f_equal snd E) as E2. cbn [fst snd] in E1, E2. rewrite E1, E2. unfold Copp, Ci, RtoC. cbn [fst snd]. f_equal; ring. }
      rewrite (tb_atan H) by auto. destruct (Ctan_atan G1 G2) as (Nz & E). cbn [bind]. rewrite FN. cbn [bind].
      set (w := (Cln (C1 + Ci * (x, y)%R) - Cln (C1 - Ci * (x, y)%R)) / two_i) in *. unfold c_tan. replace (c_into_num (of_num w)) with (Ok w) by (destruct w; reflexivity). cbn [bind].
      rewrite (tb_tan H) by auto. cbn [bind]. rewrite E. reflexivity.
    - assert (G1 : ((x, y) : C) <> C1) by (intros E; apply H1; injection E as -> ->; reflexivity).
      assert (G2 : ((x, y) : C) <> - C1). { intros E. apply H2. pose proof (f_equal fst E) as E1. pose proof (f_equal snd E) as E2. cbn [fst snd] in E1, E2. rewrite E1, E2. unfold Copp, Ci, RtoC. cbn [fst snd]. f_equal; ring. }
      rewrite (tb_atanh H) by auto. destruct (Ctanh_atanh G1 G2) as (Nz & E). cbn [bind]. rewrite FN. cbn [bind].
      set (w := (Cln (C1 + (x, y)%R) - Cln (C1 - (x, y)%R)) / C2) in *. unfold c_tanh. replace (c_into_num (of_num w)) with (Ok w) by (destruct w; reflexivity). cbn [bind].
      rewrite (tb_tanh H) by auto. cbn [bind]. rewrite E. reflexivity.
  Qed.
  (** [finv], [fdiv] agree with [inv] and [/]; [%] leaves a remainder z - w q, q a Gaussian integer, smaller than
      sqrt 2 |w|. *)
  Theorem C83_division : forall z w : cplx, w <> zero ->
    c_finv N w =! c_inv o w /\ c_fdiv N z w =! c_div o z w /\
    exists p q : Z, exists r m n, c_rem N z w = Ok r /\ (let! t := c_mul o w (Cx (IZR p) (IZR q)) in c_add o t r) = Ok z /\
      c_norm_sqr o r = Ok m /\ c_norm_sqr o w = Ok n /\ (m < 2 * n)%R.
  Proof.
    intros z w Hw. pose proof (num_neq Hw) as Hn. rewrite inv_n, div_n by auto. split; [|split].
    - destruct w as [x y]. unfold c_finv. change (c_into_num (Cx x y)) with (Ok (x, y)). cbn [bind]. rewrite (tb_finv H) by exact Hn. apply both. reflexivity.
    - destruct z as [u v], w as [x y]. unfold c_fdiv. change (c_into_num (Cx x y)) with (Ok (x, y)). change (c_into_num (Cx u v)) with (Ok (u, v)). cbn [bind]. rewrite (tb_fdiv H) by exact Hn. apply both. reflexivity.
    - destruct (tb_rem H (num_of z) Hn) as (p & q & E & B1 & B2). exists p, q, (of_num (num_of z - num_of w * (IZR p, IZR q))). 
      assert (NS : forall t : cplx, c_norm_sqr o t = Ok (fst (num_of t) * fst (num_of t) + snd (num_of t) * snd (num_of t))%R) by (intros []; reflexivity).
      do 2 eexists. split; [|split; [|split; [apply NS|split; [apply NS|]]]].
      + unfold c_rem. replace (c_into_num z) with (Ok (num_of z)) by (destruct z; reflexivity). replace (c_into_num w) with (Ok (num_of w)) by (destruct w; reflexivity). cbn [bind]. rewrite E. reflexivity.
      + rewrite mul_n. cbn [bind]. rewrite add_n, !nn'. change (num_of (Cx (IZR p) (IZR q))) with (IZR p, IZR q). f_equal. rewrite <- (nn z) at 2. f_equal. ring.
      + rewrite nn'. set (d := num_of z / num_of w - (IZR p, IZR q)). replace (num_of z - num_of w * (IZR p, IZR q)) with (num_of w * d) by (unfold d; field; auto).
        change (fst (num_of z / num_of w)%C - IZR p)%R with (fst d) in B1. change (snd (num_of z / num_of w)%C - IZR q)%R with (snd d) in B2.
        assert (P : (0 < fst (num_of w) * fst (num_of w) + snd (num_of w) * snd (num_of w))%R).
        { pose proof (mod_pos Hn) as M. rewrite mod_sqr in M. apply Rnot_le_lt. intros X. rewrite sqrt_neg_0 in M by auto. lra. }
        destruct (num_of w) as [a b]. destruct d as [e f]. cbn [fst snd] in *. replace (fst ((a, b) * (e, f))) with (a * e - b * f)%R by reflexivity. replace (snd ((a, b) * (e, f))) with (a * f + b * e)%R by reflexivity.
        replace ((a * e - b * f) * (a * e - b * f) + (a * f + b * e) * (a * f + b * e))%R with ((e * e + f * f) * (a * a + b * b))%R by ring.
        apply Rmult_lt_compat_r; auto. assert (e * e < 1)%R by (unfold Rabs in B1; destruct (Rcase_abs e); nra). assert (f * f < 1)%R by (unfold Rabs in B2; destruct (Rcase_abs f); nra). lra.
  Qed.
  (** The rotation by an angle is the exponential of i times the angle. *)
  Theorem C83_rotation : forall eps t, rot2_new (r_float eps) t =! (let! i := c_i o in let! x := c_mul_s o i t in c_exp N x).
  Proof.
    intros eps t. change (c_i o) with (Ok (Cx 0 1)%R). cbn [bind]. change (c_mul_s o (Cx 0 1)%R t) with (Ok (Cx (0 * t) (1 * t)))%R. cbn [bind]. rewrite exp_n. apply both.
    unfold of_num, Cexp. cbn. rewrite Rmult_0_l, Rmult_1_l, exp_0, !Rmult_1_l. reflexivity.
  Qed.
End C83.

(** The contract can be met. *)
Definition r_num : num_complex R unit :=
  {| n_powu := fun z n => Ok (Cpow z n);
     n_powi := fun z k => Ok (if (0 <=? k)%Z then Cpow z (Z.to_nat k) else Cpow (/ z) (Z.to_nat (- k)));
     n_exp := fun z => Ok (Cexp z); n_ln := fun z => Ok (Cln z); n_sqrt := fun z => Ok (Csqrt z);
     n_cbrt := fun z => Ok (Cexp (Cln z / RtoC 3));
     n_powf := fun z t => Ok (Cexp (RtoC t * Cln z)); n_log := fun z b => Ok (Cln z / RtoC (ln b));
     n_powc := fun z w => Ok (Cexp (w * Cln z)); n_expf := fun z b => Ok (Cexp (z * RtoC (ln b)));
     n_sin := fun z => Ok (Csin z); n_cos := fun z => Ok (Ccos z); n_tan := fun z => Ok (Csin z / Ccos z);
     n_asin := fun z => Ok (- Ci * Cln (Csqrt (C1 - z * z) + Ci * z));
     n_acos := fun z => Ok (- Ci * Cln (Ci * Csqrt (C1 - z * z) + z));
     n_atan := fun z => Ok ((Cln (C1 + Ci * z) - Cln (C1 - Ci * z)) / two_i);
     n_sinh := fun z => Ok (Csinh z); n_cosh := fun z => Ok (Ccosh z); n_tanh := fun z => Ok (Csinh z / Ccosh z);
     n_asinh := fun z => Ok (Cln (z + Csqrt (C1 + z * z)));
     n_acosh := fun z => Ok (C2 * Cln (Csqrt ((z + C1) / C2) + Csqrt ((z - C1) / C2)));
     n_atanh := fun z => Ok ((Cln (C1 + z) - Cln (C1 - z)) / C2);
     n_finv := fun z => Ok (/ z); n_fdiv := fun z w => Ok (z / w);
     n_rem := fun z w => Ok (z - w * (IZR (Int_part (fst (z / w))), IZR (Int_part (snd (z / w)))));
     n_from_str_radix := fun _ _ => None |}.
Theorem C83_contract_met : textbook r_num.
Proof.
  split; intros; try reflexivity. exists (Int_part (fst (z / w))), (Int_part (snd (z / w))). split; [reflexivity|].
  pose proof (base_Int_part (fst (z / w))). pose proof (base_Int_part (snd (z / w))). split; apply Rabs_def1; lra.
Qed.
Example C83_example : c_powu r_num (Cx 1 1)%R 2 = Ok (Cx 0 2)%R /\ c_exp r_num (Cx 0 PI)%R = Ok (Cx (-1) 0)%R.
Proof.
  split.
  - rewrite (powu_n C83_contract_met). unfold of_num. cbn. f_equal. f_equal; ring.
  - rewrite (exp_n C83_contract_met). unfold of_num, Cexp. cbn. rewrite exp_0, cos_PI, sin_PI. f_equal. f_equal; ring.
Qed.

Print Assumptions C82_conversion.
Print Assumptions C82_unary.
Print Assumptions C82_from_str_radix.
Print Assumptions C83_exp.
Print Assumptions C83_ln.
Print Assumptions C83_powu.
Print Assumptions C83_powu_product.
Print Assumptions C83_powi.
Print Assumptions C83_roots.
Print Assumptions C83_powers.
Print Assumptions C83_log.
Print Assumptions C83_trig.
Print Assumptions C83_hyperbolic.
Print Assumptions C83_tangents.
Print Assumptions C83_inverse_functions.
Print Assumptions C83_division.
Print Assumptions C83_rotation.
Print Assumptions C83_contract_met.
