(** C117: order in floating point: sums, products, lengths and norms are monotone; a length is never below a component, a
    normalised component never above one; lengths along the axes are exact. *)
From Coq Require Import ZArith Reals Lra Lia Psatz SpecFloat List.
From Flocq Require Import Core BinarySingleNaN.
From Verif Require Import SpecFacts VFacts VecProofs MFacts MatProofs AlgFacts ComplexModel TraitsModel FloatInst SpecRound FlocqFacts PropFloat PropOrder PropRound PropFNorm PropExact PropBound PropDetErr SpecFRange PropFRange.
Import ListNotations.
Set Implicit Arguments.
Local Open Scope list_scope.
Local Open Scope R_scope.

Section Mono.
  Context (prec emax : Z) (rem : spec_float -> spec_float -> spec_float) (Hp : (0 < prec)%Z) (He : (prec < emax)%Z).
  Local Notation fo := (sf_ops prec emax rem).
  Local Notation fexp := (SpecFloat.fexp prec emax).
  Local Notation rnd := (round radix2 fexp ZnearestE).
  Local Notation number := (number_of prec emax).
  Local Notation valid x := (valid_binary prec emax x = true).
  Local Notation add := (SFadd prec emax).
  Local Notation mul := (SFmul prec emax).
  Local Notation div := (SFdiv prec emax).
  Local Notation root := (SFsqrt prec emax).
  Local Notation big := (bpow radix2 emax).
  Local Notation zero := (S754_zero false).
  (** x <= y as the API compares floats: false if one of them is NaN. *)
  Local Notation leq x y := (o_le fo x y = true).
  Local Instance vexp' : Valid_exp fexp. Proof. apply (@fexp_correct prec emax Hp). Qed.

  (* infinities as the next power of two *)
  Definition ev (x : spec_float) : R := match x with S754_infinity s => if s then - big else big | _ => value x end.
  Definition clamp (r : R) : R := Rmax (- big) (Rmin big r).
  Lemma big_pos : 1 < big.
  Proof. change 1 with (bpow radix2 0). apply bpow_lt. lia. Qed.
  Lemma num_or : forall x, valid x -> is_nan x = false -> number x \/ x = S754_infinity false \/ x = S754_infinity true.
  Proof. intros [s|[]| |s m e] V N; try discriminate; auto; left; split; auto. Qed.
  Lemma ev_lt : forall x, number x -> ev x = value x /\ - big < value x < big.
  Proof. intros x N. pose proof (@number_lt prec emax x N) as B. apply Rabs_def2 in B. destruct N as (V & F). destruct x; try discriminate; cbn [ev]; split; auto; lra. Qed.
  Lemma leq_ev : forall x y, valid x -> valid y -> is_nan x = false -> is_nan y = false -> (leq x y <-> ev x <= ev y).
  Proof.
    intros x y Vx Vy Nx Ny. pose proof big_pos as B. cbn [o_le sf_ops].
    destruct (num_or _ Vx Nx) as [Fx|[->| ->]], (num_or _ Vy Ny) as [Fy|[->| ->]]; try destruct (ev_lt Fx) as (Ex & Bx); try destruct (ev_lt Fy) as (Ey & By).
    - rewrite Ex, Ey. exact (proj1 (proj2 (@C80_compare prec emax rem x y Fx Fy))).
    - rewrite Ex. cbn [ev]. destruct Fx as (_ & Fx). destruct x; try discriminate; split; intros; (reflexivity || lra).
    - rewrite Ex. cbn [ev]. destruct Fx as (_ & Fx). destruct x; try discriminate; split; intros H; (discriminate H || lra).
    - rewrite Ey. cbn [ev]. destruct Fy as (_ & Fy). destruct y; try discriminate; split; intros H; (discriminate H || lra).
    - split; intros; (reflexivity || lra).
    - cbn [ev]. split; intros H; (discriminate H || lra).
    - rewrite Ey. cbn [ev]. destruct Fy as (_ & Fy). destruct y; try discriminate; split; intros; (reflexivity || lra).
    - cbn [ev]. split; intros; (reflexivity || lra).
    - split; intros; (reflexivity || lra).
  Qed.
  Lemma leq_nan : forall x y, leq x y -> is_nan x = false /\ is_nan y = false.
  Proof. intros [[]|[]| |[] m e] [[]|[]| |[] m' e'] H; try discriminate; auto. Qed.
  Lemma leq_refl : forall x, valid x -> is_nan x = false -> leq x x.
  Proof. intros. apply leq_ev; auto. lra. Qed.
  Lemma leq_trans : forall x y z, valid x -> valid y -> valid z -> leq x y -> leq y z -> leq x z.
  Proof. intros x y z Vx Vy Vz A B. destruct (leq_nan _ _ A), (leq_nan _ _ B). rewrite leq_ev in * by auto. lra. Qed.

  Lemma clamp_le : forall a b, a <= b -> clamp a <= clamp b.
  Proof. intros. unfold clamp. apply Rle_max_compat_l. apply Rle_min_compat_l. auto. Qed.
  Lemma clamp_in : forall a, Rabs a < big -> clamp a = a.
  Proof. intros a H. apply Rabs_def2 in H. unfold clamp. rewrite Rmin_right, Rmax_right; lra. Qed.
  Lemma clamp_hi : forall a, big <= a -> clamp a = big.
  Proof. intros a H. pose proof big_pos. unfold clamp. rewrite Rmin_left, Rmax_right; lra. Qed.
  Lemma clamp_lo : forall a, a <= - big -> clamp a = - big.
  Proof. intros a H. pose proof big_pos. unfold clamp. rewrite Rmin_right, Rmax_left; lra. Qed.
  Lemma rnd_ge0 : forall a, 0 <= a -> 0 <= rnd a.
  Proof. intros a H. rewrite <- (@round_0 radix2 fexp ZnearestE (valid_rnd_N _)). apply (@rnd_le prec emax Hp). auto. Qed.
  Lemma rnd_le0 : forall a, a <= 0 -> rnd a <= 0.
  Proof. intros a H. rewrite <- (@round_0 radix2 fexp ZnearestE (valid_rnd_N _)). apply (@rnd_le prec emax Hp). auto. Qed.
  Lemma sign_nonneg : forall b : binary_float prec emax, is_finite b = true -> if Bsign b then B2R b <= 0 else 0 <= B2R b.
  Proof.
    intros [s|s| |s m e H] F; try discriminate; cbn; [destruct s; lra|]. unfold F2R. cbn. pose proof (bpow_gt_0 radix2 e). destruct s; cbn.
    - assert (IZR (Z.neg m) < 0) by (apply IZR_lt; lia). nra.
    - assert (0 < IZR (Z.pos m)) by (apply IZR_lt; lia). nra.
  Qed.
  (* the overflow branch of the three operations *)
  Lemma over : forall z s t, z = binary_overflow prec emax mode_NE s -> (if s then t <= 0 else 0 <= t) -> ~ Rabs (rnd t) < big -> is_nan z = false /\ ev z = clamp (rnd t).
  Proof.
    intros z s t -> S O. split; [reflexivity|]. change (ev (binary_overflow prec emax mode_NE s)) with (if s then - big else big). destruct s.
    - pose proof (rnd_le0 S) as L. rewrite clamp_lo; auto. destruct (Rle_lt_dec (rnd t) (- big)); auto. exfalso. apply O. apply Rabs_def1; pose proof big_pos; lra.
    - pose proof (rnd_ge0 S) as L. rewrite clamp_hi; auto. destruct (Rle_lt_dec big (rnd t)); auto. exfalso. apply O. apply Rabs_def1; pose proof big_pos; lra.
  Qed.
  Lemma under : forall z t, number z -> value z = rnd t -> is_nan z = false /\ ev z = clamp (rnd t).
  Proof.
    intros z t N E. destruct (ev_lt N) as (E1 & B). rewrite E1, E. rewrite E in B. split; [|symmetry; apply clamp_in, Rabs_def1; lra].
    destruct N as (_ & F). destruct z; auto; discriminate.
  Qed.
  Lemma add_ev : forall x y, number x -> number y -> is_nan (add x y) = false /\ ev (add x y) = clamp (rnd (value x + value y)).
  Proof.
    intros x y Nx Ny. destruct (Rlt_le_dec (Rabs (rnd (value x + value y))) big) as [L|L]. { destruct (@add_in prec emax Hp He x y Nx Ny L). apply under; auto. }
    destruct Nx as (Vx & Fx), Ny as (Vy & Fy). destruct (lift _ _ _ Vx) as (a & <-), (lift _ _ _ Vy) as (b & <-). rewrite (@add_B prec emax Hp He). rewrite !finite_B, !value_B in *.
    pose proof (Bplus_correct prec emax Hp He mode_NE a b Fx Fy) as H. cbn [round_mode] in H. rewrite Rlt_bool_false in H by exact L. destruct H as (E & S).
    apply over with (Bsign a); auto; [|lra]. pose proof (sign_nonneg a Fx) as A. pose proof (sign_nonneg b Fy) as B. rewrite <- S in B. destruct (Bsign a); lra.
  Qed.
  Lemma mul_ev : forall x y, number x -> number y -> is_nan (mul x y) = false /\ ev (mul x y) = clamp (rnd (value x * value y)).
  Proof.
    intros x y Nx Ny. destruct (Rlt_le_dec (Rabs (rnd (value x * value y))) big) as [L|L]. { destruct (@mul_in prec emax Hp He x y Nx Ny L). apply under; auto. }
    destruct Nx as (Vx & Fx), Ny as (Vy & Fy). destruct (lift _ _ _ Vx) as (a & <-), (lift _ _ _ Vy) as (b & <-). rewrite (@mul_B prec emax Hp He). rewrite !finite_B, !value_B in *.
    pose proof (Bmult_correct prec emax Hp He mode_NE a b) as H. cbn [round_mode] in H. rewrite Rlt_bool_false in H by exact L. 
    apply over with (xorb (Bsign a) (Bsign b)); auto; [|lra]. pose proof (sign_nonneg a Fx) as A. pose proof (sign_nonneg b Fy) as B. destruct (Bsign a), (Bsign b); cbn [xorb]; nra.
  Qed.
  Lemma div_ev : forall x y, number x -> number y -> value y <> 0 -> is_nan (div x y) = false /\ ev (div x y) = clamp (rnd (value x / value y)).
  Proof.
    intros x y Nx Ny Z. destruct (Rlt_le_dec (Rabs (rnd (value x / value y))) big) as [L|L]. { destruct (@div_in prec emax Hp He x y Nx Ny Z L). apply under; auto. }
    destruct Nx as (Vx & Fx), Ny as (Vy & Fy). destruct (lift _ _ _ Vx) as (a & <-), (lift _ _ _ Vy) as (b & <-). rewrite (@div_B prec emax Hp He). rewrite !finite_B, !value_B in *.
    pose proof (Bdiv_correct prec emax Hp He mode_NE a b Z) as H. cbn [round_mode] in H. rewrite Rlt_bool_false in H by exact L. 
    apply over with (xorb (Bsign a) (Bsign b)); auto; [|lra]. pose proof (sign_nonneg a Fx) as A. pose proof (sign_nonneg b Fy) as B. unfold Rdiv.
    assert (I : (0 < B2R b -> 0 < / B2R b) /\ (B2R b < 0 -> / B2R b < 0)) by (split; [apply Rinv_0_lt_compat|apply Rinv_lt_0_compat]). destruct I as (I1 & I2).
    destruct (Bsign a), (Bsign b); cbn [xorb]; try (assert (/ B2R b < 0) by (apply I2; lra)); try (assert (0 < / B2R b) by (apply I1; lra)); nra.
  Qed.

  (** Addition is monotone wherever both results are not NaN. *)
  Lemma add_inf : forall x y, is_nan (add x y) = false ->
    (x = S754_infinity false \/ y = S754_infinity false -> add x y = S754_infinity false) /\
    (x = S754_infinity true \/ y = S754_infinity true -> add x y = S754_infinity true).
  Proof. intros [[]|[]| |[] m e] [[]|[]| |[] m' e'] N; split; intros [H|H]; try discriminate H; try discriminate N; try reflexivity. Qed.
  Lemma inf_leq : forall x, is_nan x = false -> leq x (S754_infinity false) /\ leq (S754_infinity true) x.
  Proof. intros [[]|[]| |[] m e] N; try discriminate; auto. Qed.
  Lemma add_leq : forall x x' y y', valid x -> valid x' -> valid y -> valid y' -> leq x x' -> leq y y' -> is_nan (add x y) = false -> is_nan (add x' y') = false -> leq (add x y) (add x' y').
  Proof.
    intros x x' y y' Vx Vx' Vy Vy' Lx Ly N N'. destruct (leq_nan _ _ Lx) as (Nx & Nx'), (leq_nan _ _ Ly) as (Ny & Ny').
    destruct (@add_inf x y N) as (_ & I1). destruct (@add_inf x' y' N') as (I2 & _).
    destruct (num_or _ Vx' Nx') as [Fx'|[E|E]]; [|rewrite I2 by auto; apply inf_leq; auto|].
    2:{ subst x'. assert (x = S754_infinity true). { destruct (num_or _ Vx Nx) as [Fx|[->| ->]]; auto; [|discriminate]. exfalso. apply leq_ev in Lx; auto. destruct (ev_lt Fx) as (A & B). rewrite A in Lx. cbn [ev] in Lx. lra. }
        rewrite I1 by auto. apply inf_leq; auto. }
    destruct (num_or _ Vy' Ny') as [Fy'|[E|E]]; [|rewrite I2 by auto; apply inf_leq; auto|].
    2:{ subst y'. assert (y = S754_infinity true). { destruct (num_or _ Vy Ny) as [Fy|[->| ->]]; auto; [|discriminate]. exfalso. apply leq_ev in Ly; auto. destruct (ev_lt Fy) as (A & B). rewrite A in Ly. cbn [ev] in Ly. lra. }
        rewrite I1 by auto. apply inf_leq; auto. }
    destruct (num_or _ Vx Nx) as [Fx|[E|E]]; [| |rewrite I1 by auto; apply inf_leq; auto].
    2:{ exfalso. subst x. apply leq_ev in Lx; auto. destruct (ev_lt Fx') as (A & B). rewrite A in Lx. cbn [ev] in Lx. lra. }
    destruct (num_or _ Vy Ny) as [Fy|[E|E]]; [| |rewrite I1 by auto; apply inf_leq; auto].
    2:{ exfalso. subst y. apply leq_ev in Ly; auto. destruct (ev_lt Fy') as (A & B). rewrite A in Ly. cbn [ev] in Ly. lra. }
    apply leq_ev; auto; try (apply add_valid; auto). rewrite (proj2 (add_ev Fx Fy)), (proj2 (add_ev Fx' Fy')). apply clamp_le, (@rnd_le prec emax Hp).
    apply leq_ev in Lx; auto. apply leq_ev in Ly; auto. rewrite (proj1 (ev_lt Fx)), (proj1 (ev_lt Fx')) in Lx. rewrite (proj1 (ev_lt Fy)), (proj1 (ev_lt Fy')) in Ly. lra.
  Qed.
  (** Multiplication of non-negative floats. *)
  Lemma mul_inf : forall x y, leq zero x -> leq zero y -> is_nan (mul x y) = false -> x = S754_infinity false \/ y = S754_infinity false -> mul x y = S754_infinity false.
  Proof. intros [[]|[]| |[] m e] [[]|[]| |[] m' e'] Lx Ly N [H|H]; try discriminate H; try discriminate N; try discriminate Lx; try discriminate Ly; reflexivity. Qed.
  Lemma zero_ok : valid zero /\ is_nan zero = false /\ ev zero = 0.
  Proof. repeat split. Qed.
  Lemma leq_inf : forall x, leq (S754_infinity false) x -> x = S754_infinity false.
  Proof. intros [[]|[]| |[] m e] H; try discriminate; auto. Qed.
  Lemma nonneg_or : forall x, valid x -> leq zero x -> (number x /\ 0 <= value x) \/ x = S754_infinity false.
  Proof.
    intros x V L. destruct (leq_nan _ _ L) as (_ & N). destruct (num_or _ V N) as [F|[->| ->]]; auto; [|discriminate]. left. split; auto.
    apply leq_ev in L; auto. rewrite (proj1 (ev_lt F)) in L. exact L.
  Qed.
  Lemma mul_leq : forall x x' y y', valid x -> valid x' -> valid y -> valid y' -> leq zero x -> leq zero y -> leq x x' -> leq y y' -> is_nan (mul x y) = false -> is_nan (mul x' y') = false -> leq (mul x y) (mul x' y').
  Proof.
    intros x x' y y' Vx Vx' Vy Vy' Zx Zy Lx Ly N N'. assert (Zx' : leq zero x') by (eapply leq_trans; [| | |exact Zx|exact Lx]; auto). assert (Zy' : leq zero y') by (eapply leq_trans; [| | |exact Zy|exact Ly]; auto).
    destruct (nonneg_or _ Vx' Zx') as [(Fx' & Px')|E]; [|rewrite (@mul_inf x' y') by auto; apply inf_leq; auto].
    destruct (nonneg_or _ Vy' Zy') as [(Fy' & Py')|E]; [|rewrite (@mul_inf x' y') by auto; apply inf_leq; auto].
    destruct (nonneg_or _ Vx Zx) as [(Fx & Px)|E]; [|subst x; apply leq_inf in Lx; subst x'; destruct Fx'; discriminate].
    destruct (nonneg_or _ Vy Zy) as [(Fy & Py)|E]; [|subst y; apply leq_inf in Ly; subst y'; destruct Fy'; discriminate].
    apply leq_ev; auto; try (apply mul_valid; auto). rewrite (proj2 (mul_ev Fx Fy)), (proj2 (mul_ev Fx' Fy')). apply clamp_le, (@rnd_le prec emax Hp).
    destruct (leq_nan _ _ Lx), (leq_nan _ _ Ly). apply leq_ev in Lx; auto. apply leq_ev in Ly; auto. rewrite (proj1 (ev_lt Fx)), (proj1 (ev_lt Fx')) in Lx. rewrite (proj1 (ev_lt Fy)), (proj1 (ev_lt Fy')) in Ly. apply Rmult_le_compat; auto.
  Qed.
  Lemma mul_nonneg : forall x y, valid x -> valid y -> leq zero x -> leq zero y -> is_nan (mul x y) = false -> leq zero (mul x y).
  Proof.
    intros x y Vx Vy Zx Zy N. destruct (nonneg_or _ Vx Zx) as [(Fx & Px)|E]; [|rewrite (@mul_inf x y) by auto; reflexivity].
    destruct (nonneg_or _ Vy Zy) as [(Fy & Py)|E]; [|rewrite (@mul_inf x y) by auto; reflexivity].
    apply leq_ev; auto; try (apply mul_valid; auto). rewrite (proj2 (mul_ev Fx Fy)). rewrite (proj2 (proj2 zero_ok)). rewrite <- (@clamp_in 0) by (rewrite Rabs_R0; pose proof big_pos; lra). apply clamp_le, rnd_ge0. nra.
  Qed.
  Lemma add_nonneg : forall x y, valid x -> valid y -> leq zero x -> leq zero y -> is_nan (add x y) = false /\ leq zero (add x y).
  Proof.
    intros x y Vx Vy Zx Zy. assert (N : is_nan (add x y) = false).
    { destruct (nonneg_or _ Vx Zx) as [(Fx & Px)|E]; [|subst x; destruct y as [[]|[]| |[] m e]; try discriminate; reflexivity].
      destruct (nonneg_or _ Vy Zy) as [(Fy & Py)|E]; [apply add_ev; auto|subst y; destruct x as [[]|[]| |[] m e]; try discriminate; reflexivity]. }
    split; auto. change zero with (add zero zero) at 1. apply add_leq; auto; reflexivity.
  Qed.
  (** Adding something non-negative does not decrease. *)
  Lemma fmt_num : forall x, number x -> rnd (value x) = value x.
  Proof. intros x (V & F). apply (@rnd_id prec emax), (@fmt prec emax). auto. Qed.
  Lemma add_more : forall x y, valid x -> valid y -> is_nan x = false -> leq zero y -> is_nan (add x y) = false -> leq x (add x y) /\ leq x (add y x).
  Proof.
    intros x y Vx Vy Nx Zy N. rewrite (SFadd_comm prec emax y x). assert (leq x (add x y)); auto.
    destruct (num_or _ Vx Nx) as [Fx|[->| ->]]; [|rewrite (proj1 (@add_inf _ _ N)) by auto; reflexivity|apply inf_leq; auto].
    destruct (nonneg_or _ Vy Zy) as [(Fy & Py)|E]; [|rewrite (proj1 (@add_inf _ _ N)) by auto; apply inf_leq; auto].
    apply leq_ev; auto; try (apply add_valid; auto). rewrite (proj2 (add_ev Fx Fy)), (proj1 (ev_lt Fx)). rewrite <- (clamp_in _ (number_lt Fx)) at 1. apply clamp_le. rewrite <- (fmt_num Fx) at 1. apply (@rnd_le prec emax Hp). lra.
  Qed.
  (** Absolute values and squares. *)
  Lemma abs_valid : forall x, valid x -> valid (SFabs x).
  Proof. intros [|[]| |]; auto. Qed.
  Lemma abs_nan : forall x, is_nan (SFabs x) = is_nan x.
  Proof. intros [|[]| |]; auto. Qed.
  Lemma abs_nonneg : forall x, is_nan x = false -> leq zero (SFabs x).
  Proof. intros [|[]| |] H; auto; discriminate. Qed.
  Lemma abs_square : forall x, mul (SFabs x) (SFabs x) = mul x x.
  Proof. intros [[]|[]| |[] m e]; reflexivity. Qed.
  Lemma square_nan : forall x, valid x -> is_nan (mul x x) = is_nan x.
  Proof.
    intros x V. destruct (is_nan x) eqn:N. { destruct x; try discriminate. reflexivity. }
    destruct (num_or _ V N) as [F|[->| ->]]; [apply mul_ev; auto|reflexivity|reflexivity].
  Qed.
  Lemma square_nonneg : forall x, valid x -> is_nan x = false -> leq zero (mul x x).
  Proof. intros x V N. rewrite <- abs_square. apply mul_nonneg; try apply abs_valid; try apply abs_nonneg; auto. rewrite abs_square, square_nan; auto. Qed.
  Lemma square_leq : forall x y, valid x -> valid y -> leq (SFabs x) (SFabs y) -> leq (mul x x) (mul y y).
  Proof.
    intros x y Vx Vy L. destruct (leq_nan _ _ L) as (Nx & Ny). rewrite abs_nan in Nx, Ny. rewrite <- (abs_square x), <- (abs_square y).
    apply mul_leq; try apply abs_valid; try apply abs_nonneg; auto; rewrite abs_square, square_nan; auto.
  Qed.
  (** Square roots. *)
  Lemma root_ev : forall x, number x -> 0 <= value x -> number (root x) /\ value (root x) = rnd (sqrt (value x)).
  Proof. intros x (V & F) P. destruct (@sqrt_round prec emax Hp He x V F P). split; auto. split; auto. apply sqrt_valid; auto. Qed.
  Lemma root_leq : forall x y, valid x -> valid y -> leq zero x -> leq x y -> leq (root x) (root y).
  Proof.
    intros x y Vx Vy Z L. assert (Zy : leq zero y) by (eapply leq_trans; [| | |exact Z|exact L]; auto).
    destruct (nonneg_or _ Vy Zy) as [(Fy & Py)|E].
    - destruct (nonneg_or _ Vx Z) as [(Fx & Px)|E]; [|subst x; apply leq_inf in L; subst y; destruct Fy; discriminate].
      destruct (root_ev Fx Px) as (Nx & Ex), (root_ev Fy Py) as (Ny & Ey). apply leq_ev in L; auto; [|destruct Fx as (_ & F); destruct x; auto; discriminate|destruct Fy as (_ & F); destruct y; auto; discriminate].
      rewrite (proj1 (ev_lt Fx)), (proj1 (ev_lt Fy)) in L.
      apply leq_ev; try apply sqrt_valid; auto; [destruct Nx as (_ & F); destruct (root x); auto; discriminate|destruct Ny as (_ & F); destruct (root y); auto; discriminate|].
      rewrite (proj1 (ev_lt Nx)), (proj1 (ev_lt Ny)), Ex, Ey. apply (@rnd_le prec emax Hp), sqrt_le_1_alt. auto.
    - subst y. change (root (S754_infinity false)) with (S754_infinity false). apply inf_leq. destruct (nonneg_or _ Vx Z) as [(Fx & Px)|E]; [|subst x; reflexivity].
      destruct (root_ev Fx Px) as ((_ & F) & _). destruct (root x); auto; discriminate.
  Qed.
  (** The square root of a square (in radix 2) gives the number back. *)
  Lemma root_square_R : forall x, generic_format radix2 fexp x -> 0 < x -> min_normal emax <= x * x -> rnd (sqrt (rnd (x * x))) = x.
  Proof.
    intros x Gx Px Hn. set (emin := SpecFloat.emin prec emax). assert (Em : (emin + prec - 1 <= 0)%Z) by (unfold emin, SpecFloat.emin; lia).
    assert (M : min_normal emax = bpow radix2 (emin + prec - 1)) by (apply mn_bpow). rewrite M in Hn.
    assert (M1 : bpow radix2 (emin + prec - 1) <= 1) by (change 1 with (bpow radix2 0); apply bpow_le; auto).
    assert (M0 : 0 < bpow radix2 (emin + prec - 1)) by apply bpow_gt_0.
    assert (Xn : bpow radix2 (emin + prec - 1) <= x). { destruct (Rle_lt_dec (bpow radix2 (emin + prec - 1)) x) as [|L]; auto. exfalso. nra. }
    set (k := (mag radix2 x - 1)%Z). assert (Hk : mag radix2 x = (k + 1)%Z :> Z) by (unfold k; lia).
    assert (Kx : (emin + prec <= k + 1)%Z). { rewrite <- Hk. apply mag_ge_bpow. rewrite Rabs_pos_eq by lra. replace (emin + prec - 1)%Z with (emin + prec - 1)%Z by lia. exact Xn. }
    assert (F : forall e, (emin + prec <= e)%Z -> fexp e = (e - prec)%Z). { intros e H. unfold SpecFloat.fexp. fold emin. lia. }
    set (A := bpow radix2 k). set (U := bpow radix2 (- prec)). assert (PA : 0 < A) by apply bpow_gt_0. assert (PU : 0 < U) by apply bpow_gt_0.
    assert (A2 : bpow radix2 (k + 1) = 2 * A). { rewrite bpow_plus. unfold A. change (bpow radix2 1) with 2. ring. }
    assert (AA : bpow radix2 (2 * k) = A * A). { unfold A. rewrite <- bpow_plus. f_equal. lia. }
    assert (AA2 : bpow radix2 (2 * k + 1) = 2 * (A * A)). { rewrite bpow_plus, AA. change (bpow radix2 1) with 2. ring. }
    assert (L1 : A <= x). { unfold A, k. pose proof (bpow_mag_le radix2 x ltac:(lra)) as B. rewrite Rabs_pos_eq in B by lra. exact B. }
    assert (L2 : x < 2 * A). { rewrite <- A2, <- Hk. pose proof (bpow_mag_gt radix2 x) as B. rewrite Rabs_pos_eq in B by lra. exact B. }
    assert (ulp_of : forall z e, 0 < z -> mag radix2 z = e :> Z -> (emin + prec <= e)%Z -> ulp radix2 fexp z = bpow radix2 e * U).
    { intros z e Pz E H. rewrite ulp_neq_0 by lra. unfold cexp. rewrite E, F by auto. unfold U. rewrite <- bpow_plus. reflexivity. }
    assert (Ux : ulp radix2 fexp x = 2 * A * U) by (rewrite (ulp_of x (k + 1)%Z), A2; auto).
    assert (X2 : bpow radix2 (emin + prec - 1) <= Rabs (x * x)) by (rewrite Rabs_pos_eq by nra; auto).
    assert (GA : generic_format radix2 fexp A). { apply generic_format_bpow. rewrite F by lia. lia. }
    assert (Kx2 : (emin + prec <= mag radix2 (x * x))%Z) by (apply mag_ge_bpow; auto).
    set (y := rnd (x * x)). assert (Err : Rabs (y - x * x) <= / 2 * ulp radix2 fexp (x * x)) by (apply error_le_half_ulp; apply vexp').
    set (s := sqrt y).
    assert (Sx : A <= s /\ Rabs (s - x) < A * U).
    { destruct (Rlt_le_dec (x * x) (2 * (A * A))) as [C|C].
      - assert (Mg : mag radix2 (x * x) = (2 * k + 1)%Z :> Z). { apply mag_unique_pos. rewrite AA2. replace (2 * k + 1 - 1)%Z with (2 * k)%Z by lia. rewrite AA. split; [nra|exact C]. }
        rewrite (ulp_of (x * x) (2 * k + 1)%Z), AA2 in Err by (auto; try nra; lia).
        assert (Y : A * A <= y). { rewrite <- AA. unfold y. rewrite <- (@rnd_id prec emax (bpow radix2 (2 * k))) by (apply generic_format_bpow; rewrite F by lia; lia). apply (@rnd_le prec emax Hp). rewrite AA. nra. }
        assert (S2 : s * s = y) by (apply sqrt_sqrt; nra). assert (S0 : 0 <= s) by apply sqrt_pos. assert (SA : A <= s) by nra. split; auto.
        destruct (Rlt_le_dec (Rabs (s - x)) (A * U)) as [|L]; auto. exfalso. rewrite <- S2 in Err. replace (s * s - x * x) with ((s - x) * (s + x)) in Err by ring. rewrite Rabs_mult, (Rabs_pos_eq (s + x)) in Err by lra.
        assert (A * U * (2 * A) <= Rabs (s - x) * (s + x)) by (apply Rmult_le_compat; nra). assert (0 < A * A * U) by (apply Rmult_lt_0_compat; nra). nra.
      - assert (Mg : mag radix2 (x * x) = (2 * k + 2)%Z :> Z). { apply mag_unique_pos. replace (2 * k + 2 - 1)%Z with (2 * k + 1)%Z by lia. rewrite AA2. replace (2 * k + 2)%Z with (2 * k + 1 + 1)%Z by lia. rewrite (bpow_plus radix2 (2 * k + 1)), AA2. change (bpow radix2 1) with 2. split; [auto|]. nra. }
        rewrite (ulp_of (x * x) (2 * k + 2)%Z) in Err by (auto; try nra; lia). replace (2 * k + 2)%Z with (2 * k + 1 + 1)%Z in Err by lia. rewrite (bpow_plus radix2 (2 * k + 1)), AA2 in Err. change (bpow radix2 1) with 2 in Err.
        assert (Y : 2 * (A * A) <= y). { rewrite <- AA2. unfold y. rewrite <- (@rnd_id prec emax (bpow radix2 (2 * k + 1))) by (apply generic_format_bpow; rewrite F by lia; lia). apply (@rnd_le prec emax Hp). rewrite AA2. exact C. }
        assert (S2 : s * s = y) by (apply sqrt_sqrt; nra). assert (S0 : 0 <= s) by apply sqrt_pos. assert (SA : A < s) by nra. split; [lra|].
        destruct (Rlt_le_dec (Rabs (s - x)) (A * U)) as [|L]; auto. exfalso. rewrite <- S2 in Err. replace (s * s - x * x) with ((s - x) * (s + x)) in Err by ring. rewrite Rabs_mult, (Rabs_pos_eq (s + x)) in Err by lra.
        assert (A * U * (s + x) <= Rabs (s - x) * (s + x)) by (apply Rmult_le_compat_r; nra). assert (0 < A * U) by nra. assert (A * U * (2 * A) < A * U * (s + x)) by (apply Rmult_lt_compat_l; lra). nra. }
    destruct Sx as (SA & Sx). set (w := rnd s). assert (Gw : generic_format radix2 fexp w) by (apply generic_format_round; [apply vexp'|apply valid_rnd_N]).
    assert (WA : A <= w). { rewrite <- (@rnd_id prec emax A GA). apply (@rnd_le prec emax Hp). auto. }
    assert (Near : Rabs (w - s) <= Rabs (x - s)). { destruct (@round_N_pt radix2 fexp vexp' (fun t => negb (Z.even t)) s) as (_ & H). apply H. auto. }
    assert (Wx : Rabs (w - x) < 2 * A * U). { replace (w - x) with ((w - s) + (s - x)) by ring. eapply Rle_lt_trans; [apply Rabs_triang|]. rewrite (Rabs_minus_sym x s) in Near. lra. }
    apply Rabs_def2 in Wx. destruct (Rtotal_order w x) as [L|[E|L]]; auto; exfalso.
    - pose proof (@succ_le_lt radix2 fexp vexp' w x Gw Gx L) as H. rewrite succ_eq_pos in H by lra.
      rewrite (ulp_of w (k + 1)%Z), A2 in H; [lra|lra| |lia]. apply mag_unique_pos. rewrite A2. replace (k + 1 - 1)%Z with k by lia. fold A. lra.
    - pose proof (@succ_le_lt radix2 fexp vexp' x w Gx Gw L) as H. rewrite succ_eq_pos in H by lra. lra.
  Qed.
  Lemma num_nan : forall x, number x -> is_nan x = false.
  Proof. intros [| | |] (_ & F); auto; discriminate. Qed.
  Lemma same_float : forall x y, number x -> number y -> value x <> 0 -> value x = value y -> x = y.
  Proof.
    intros x y (Vx & Fx) (Vy & Fy) Z E. destruct (lift _ _ _ Vx) as (a & <-), (lift _ _ _ Vy) as (b & <-). rewrite !value_B, !finite_B in *. f_equal. apply B2R_inj; auto; [|rewrite E in Z].
    - destruct a; auto; exfalso; apply Z; reflexivity.
    - destruct b; auto; exfalso; apply Z; reflexivity.
  Qed.
  Lemma abs_num : forall x, number x -> number (SFabs x) /\ value (SFabs x) = Rabs (value x).
  Proof. intros x N. split; [apply abs_number; auto|apply abs_value]. Qed.
  (** The square of a number does not underflow. *)
  Definition visible (x : spec_float) : Prop := finite x = true -> min_normal emax <= value x * value x.
  Lemma mn_pos : 0 < min_normal emax.
  Proof. unfold min_normal. apply powerRZ_lt. lra. Qed.
  Lemma root_square : forall x, number x -> visible x -> finite (mul x x) = true -> root (mul x x) = SFabs x.
  Proof.
    intros x N V F. assert (P : 0 <= value x * value x) by nra. specialize (V (proj2 N)). pose proof mn_pos as MP. assert (Z : value x <> 0) by (intros Z; rewrite Z in V; lra).
    assert (Nm : number (mul x x)) by (split; auto; apply mul_valid; auto; apply N).
    assert (Em : value (mul x x) = rnd (value x * value x)) by (apply (@mul_round prec emax Hp He); auto; apply N).
    assert (Pm : 0 <= value (mul x x)) by (rewrite Em; apply rnd_ge0; auto). destruct (root_ev Nm Pm) as (Nr & Er). destruct (abs_num N) as (Na & Ea).
    assert (Q : value (root (mul x x)) = Rabs (value x)).
    { rewrite Er, Em. pose proof (@root_square_R (Rabs (value x))) as R. rewrite <- Rabs_mult in R. rewrite (Rabs_pos_eq (value x * value x)) in R by auto. apply R; auto. - apply generic_format_abs, (@fmt prec emax). apply N. - apply Rabs_pos_lt. auto. }
    apply same_float; auto; rewrite Q; auto. apply Rabs_no_R0. auto.
  Qed.
  Lemma root_square_leq : forall x, valid x -> is_nan x = false -> visible x -> leq (SFabs x) (root (mul x x)).
  Proof.
    intros x V N S. destruct (num_or _ V N) as [F|[->| ->]]; try reflexivity. assert (Vm : valid (mul x x)) by (apply mul_valid; auto). assert (Nm : is_nan (mul x x) = false) by (rewrite square_nan; auto).
    destruct (num_or _ Vm Nm) as [Fm|[E|E]].
    - rewrite root_square by (auto; apply Fm). apply leq_refl; [apply abs_valid; auto|rewrite abs_nan; auto].
    - rewrite E. apply inf_leq. rewrite abs_nan. auto.
    - exfalso. pose proof (@square_nonneg x V N) as Q. rewrite E in Q. discriminate.
  Qed.

  (** * Sums *)
  Local Notation fs := (fs prec emax).
  Lemma add_nan : forall x y, is_nan (add x y) = false -> is_nan x = false /\ is_nan y = false.
  Proof. intros [[]|[]| |[] m e] [[]|[]| |[] m' e'] H; try discriminate; auto. Qed.
  Lemma fs_leq : forall k f g, (forall i, (i <= k)%nat -> valid (f i) /\ valid (g i) /\ leq (f i) (g i)) -> is_nan (fs k f) = false -> is_nan (fs k g) = false -> leq (fs k f) (fs k g).
  Proof.
    induction k as [|k IH]; intros f g H Nf Ng; cbn [PropRound.fs] in *. { apply H. lia. }
    destruct (add_nan _ _ Nf), (add_nan _ _ Ng). apply add_leq; auto; try (apply (@fs_valid prec emax Hp He); intros; apply H; lia); try (apply H; lia).
  Qed.
  Lemma fs_nonneg : forall k f, (forall i, (i <= k)%nat -> valid (f i) /\ leq zero (f i)) -> is_nan (fs k f) = false /\ leq zero (fs k f).
  Proof.
    induction k as [|k IH]; intros f H; cbn [PropRound.fs]. { destruct (H 0%nat) as (V & L); auto. split; auto. apply (leq_nan _ _ L). }
    destruct (IH f) as (A & B); auto. destruct (H (Datatypes.S k)) as (V & L); auto. apply add_nonneg; auto. apply (@fs_valid prec emax Hp He). intros. apply H. lia.
  Qed.
  Lemma fs_more : forall k f, (forall i, (i <= k)%nat -> valid (f i) /\ leq zero (f i)) -> forall i, (i <= k)%nat -> leq (f i) (fs k f).
  Proof.
    induction k as [|k IH]; intros f H i Hi; cbn [PropRound.fs]. { replace i with 0%nat by lia. destruct (H 0%nat) as (V & L); auto. apply leq_refl; auto. apply (leq_nan _ _ L). }
    assert (H' : forall i, (i <= k)%nat -> valid (f i) /\ leq zero (f i)) by (intros; apply H; lia). destruct (@fs_nonneg k f H') as (A & B). destruct (H (Datatypes.S k)) as (V & L); auto.
    assert (Vf : valid (fs k f)) by (apply (@fs_valid prec emax Hp He); intros; apply H; lia). destruct (add_nonneg _ _ Vf V B L) as (N & _).
    destruct (Nat.eq_dec i (Datatypes.S k)) as [->|D].
    - apply (@add_more (f (Datatypes.S k)) (fs k f)); auto; [apply (leq_nan _ _ L)|rewrite SFadd_comm; auto].
    - eapply leq_trans; [apply H; lia|exact Vf|apply add_valid; auto|apply IH; auto; lia|apply add_more; auto].
  Qed.

  (** A vector / matrix of well formed floats. *)
  Definition floats (N : nat) (x : list spec_float) : Prop := length x = N /\ Forall (fun a => valid a) x.
  Definition mfloats (M N : nat) (m : list (list spec_float)) : Prop := rect M N m /\ Forall (Forall (fun a => valid a)) m.
  Local Notation at_ x i := (nth i x zero).

  (** sum: larger summands, larger sum (unless infinities of both signs meet). *)
  Theorem C117_sum : forall N x y s t, floats N x -> floats N y -> (forall i, (i < N)%nat -> leq (at_ x i) (at_ y i)) ->
    v_sum fo x = Ok s -> v_sum fo y = Ok t -> is_nan s = false -> is_nan t = false -> leq s t.
  Proof.
    intros N x y s t (Lx & Vx) (Ly & Vy) H Es Et Ns Nt. destruct N as [|k]. { destruct x; discriminate. }
    asfun (sf_ops prec emax rem). rewrite v_sum_fs in Es, Et. apply Ok_inj in Es, Et. subst s t. rewrite Forall_vk in Vx, Vy. apply fs_leq; auto. intros i Hi. split; [apply Vx; lia|]. split; [apply Vy; lia|]. specialize (H i ltac:(lia)). rewrite !nth_vk in H by lia. auto.
  Qed.
  (** dot of non-negative vectors. *)
  Theorem C117_dot : forall N x x' y y' s t, floats N x -> floats N x' -> floats N y -> floats N y' ->
    (forall i, (i < N)%nat -> leq zero (at_ x i) /\ leq (at_ x i) (at_ x' i) /\ leq zero (at_ y i) /\ leq (at_ y i) (at_ y' i)) ->
    v_dot fo N x y = Ok s -> v_dot fo N x' y' = Ok t -> is_nan s = false -> is_nan t = false -> leq s t.
  Proof.
    intros N x x' y y' s t (Lx & Vx) (Lx' & Vx') (Ly & Vy) (Ly' & Vy') H Es Et Ns Nt. destruct N as [|k]. { destruct x, y; discriminate. }
    asfun (sf_ops prec emax rem). rewrite v_dot_fs in Es, Et. apply Ok_inj in Es, Et. subst s t. rewrite Forall_vk in *.
    assert (Nf : forall k f, is_nan (fs k f) = false -> forall i, (i <= k)%nat -> is_nan (f i) = false).
    { clear. induction k as [|k IH]; intros f N i Hi; cbn [PropRound.fs] in N. { replace i with 0%nat by lia. auto. } destruct (add_nan _ _ N). destruct (Nat.eq_dec i (Datatypes.S k)) as [->|]; auto. apply IH; auto. lia. }
    apply fs_leq; auto. intros i Hi. pose proof (Nf _ _ Ns i Hi) as N1. pose proof (Nf _ _ Nt i Hi) as N2. cbn beta in *. specialize (H i ltac:(lia)). rewrite !nth_vk in H by lia. destruct H as (H1 & H2 & H3 & H4).
    assert (I : (i < Datatypes.S k)%nat) by lia. split; [apply mul_valid; auto|]. split; [apply mul_valid; auto|]. apply mul_leq; auto.
  Qed.
  Lemma fdot_leq : forall k (f g f' g' : nat -> spec_float), (forall i, (i < S k)%nat -> valid (f i) /\ valid (g i) /\ valid (f' i) /\ valid (g' i) /\ leq zero (f i) /\ leq (f i) (f' i) /\ leq zero (g i) /\ leq (g i) (g' i)) ->
    is_nan (fs k (fun i => mul (f i) (g i))) = false -> is_nan (fs k (fun i => mul (f' i) (g' i))) = false -> leq (fs k (fun i => mul (f i) (g i))) (fs k (fun i => mul (f' i) (g' i))).
  Proof.
    intros k f g f' g' H N N'. refine (@C117_dot (S k) (vk (S k) f) (vk (S k) f') (vk (S k) g) (vk (S k) g') _ _ _ _ _ _ _ (v_dot_fs prec emax rem k f g) (v_dot_fs prec emax rem k f' g') N N'); try (split; [apply vk_length|]; rewrite Forall_vk; intros i Hi; apply (H i Hi)).
    intros i Hi. rewrite !nth_vk by auto. specialize (H i Hi). tauto.
  Qed.
  (** Products of non-negative matrices and vectors, element by element. *)
  Theorem C117_matrix_product : forall L M N a a' b b' c c', mfloats L M a -> mfloats L M a' -> mfloats M N b -> mfloats M N b' -> (0 < M)%nat ->
    (forall i k, (i < L)%nat -> (k < M)%nat -> leq zero (mget fo a i k) /\ leq (mget fo a i k) (mget fo a' i k)) ->
    (forall k j, (k < M)%nat -> (j < N)%nat -> leq zero (mget fo b k j) /\ leq (mget fo b k j) (mget fo b' k j)) ->
    m_dot fo L M N a b = Ok c -> m_dot fo L M N a' b' = Ok c' ->
    forall i j, (i < L)%nat -> (j < N)%nat -> is_nan (mget fo c i j) = false -> is_nan (mget fo c' i j) = false -> leq (mget fo c i j) (mget fo c' i j).
  Proof.
    intros L M N a a' b b' c c' (Ra & Va) (Ra' & Va') (Rb & Vb) (Rb' & Vb') HM Ha Hb Ec Ec' i j Hi Hj. destruct M as [|k]; [lia|]. asfun (sf_ops prec emax rem). rewrite Forall_mk in *.
    rewrite (m_dot_d fo (fdot prec emax rem) (@fdot_ok prec emax rem)) in Ec, Ec' by auto. apply Ok_inj in Ec, Ec'. subst c c'. rewrite !mget_mk by auto. rewrite !fdot_fs. apply fdot_leq.
    intros l Hl. specialize (Ha i l Hi Hl). specialize (Hb l j Hl Hj). rewrite !mget_mk in Ha, Hb by auto. repeat split; auto; tauto.
  Qed.
  Theorem C117_matrix_vector : forall M N a a' x x' c c', mfloats M N a -> mfloats M N a' -> floats N x -> floats N x' -> (0 < N)%nat ->
    (forall i k, (i < M)%nat -> (k < N)%nat -> leq zero (mget fo a i k) /\ leq (mget fo a i k) (mget fo a' i k)) ->
    (forall k, (k < N)%nat -> leq zero (at_ x k) /\ leq (at_ x k) (at_ x' k)) ->
    m_dot_v fo M N a x = Ok c -> m_dot_v fo M N a' x' = Ok c' ->
    forall i, (i < M)%nat -> is_nan (at_ c i) = false -> is_nan (at_ c' i) = false -> leq (at_ c i) (at_ c' i).
  Proof.
    intros M N a a' x x' c c' (Ra & Va) (Ra' & Va') (Lx & Vx) (Lx' & Vx') HN Ha Hx Ec Ec' i Hi. destruct N as [|k]; [lia|]. asfun (sf_ops prec emax rem). rewrite Forall_mk in *. rewrite Forall_vk in *.
    rewrite (m_dot_v_d fo (fdot prec emax rem) (@fdot_ok prec emax rem)) in Ec, Ec' by auto. apply Ok_inj in Ec, Ec'. subst c c'. rewrite !nth_vk by auto. rewrite !fdot_fs. apply fdot_leq.
    intros l Hl. specialize (Ha i l Hi Hl). specialize (Hx l Hl). rewrite !mget_mk in Ha by auto. rewrite !nth_vk in Hx by auto. repeat split; auto; tauto.
  Qed.

  (** * Lengths and norms *)
  (** None of the components is NaN. *)
  Definition no_nan (x : list spec_float) : Prop := forall i, (i < length x)%nat -> is_nan (at_ x i) = false.
  Lemma squares : forall k f, (forall i, (i < S k)%nat -> valid (f i)) -> (forall i, (i < S k)%nat -> is_nan (f i) = false) ->
    forall i, (i <= k)%nat -> valid (mul (f i) (f i)) /\ leq zero (mul (f i) (f i)).
  Proof. intros k f V N i Hi. split; [apply mul_valid; auto; apply V; lia|]. apply square_nonneg; [apply V|apply N]; lia. Qed.
  (** The squared length and the length exist, are not NaN and not negative, and grow with the absolute values of the components. *)
  Theorem C117_square_length : forall N x, floats N x -> (0 < N)%nat -> no_nan x -> exists s, v_square_length fo x = Ok s /\ valid s /\ leq zero s.
  Proof.
    intros [|k] x (Lx & Vx) HN Nx; [lia|]. unfold no_nan in Nx. rewrite Lx in Nx. asfun (sf_ops prec emax rem). rewrite Forall_vk in Vx. rewrite v_sq_fs. eexists. split; [reflexivity|].
    assert (Q : forall i, (i < S k)%nat -> is_nan (f i) = false) by (intros i Hi; specialize (Nx i Hi); rewrite nth_vk in Nx by auto; auto). split; [apply (@fs_valid prec emax Hp He)|apply fs_nonneg]; apply squares; auto.
  Qed.
  Theorem C117_length : forall N x y, floats N x -> floats N y -> (0 < N)%nat -> (forall i, (i < N)%nat -> leq (SFabs (at_ x i)) (SFabs (at_ y i))) ->
    exists s t s2 t2, v_square_length fo x = Ok s2 /\ v_square_length fo y = Ok t2 /\ leq s2 t2 /\ v_length fo root x = Ok s /\ v_length fo root y = Ok t /\ leq s t.
  Proof.
    intros [|k] x y (Lx & Vx) (Ly & Vy) HN H; [lia|]. asfun (sf_ops prec emax rem). rewrite Forall_vk in *. unfold v_length. rewrite !v_sq_fs. cbn [bind].
    assert (Nf : forall i, (i < S k)%nat -> is_nan (f0 i) = false /\ is_nan (f i) = false /\ leq (SFabs (f0 i)) (SFabs (f i))).
    { intros i Hi. specialize (H i Hi). rewrite !nth_vk in H by auto. destruct (leq_nan _ _ H) as (A & B). rewrite abs_nan in A, B. auto. }
    do 4 eexists. split; [reflexivity|]. split; [reflexivity|].
    destruct (@fs_nonneg k (fun i => mul (f0 i) (f0 i))) as (A1 & A2). { apply squares; auto. apply Nf. }
    destruct (@fs_nonneg k (fun i => mul (f i) (f i))) as (B1 & B2). { apply squares; auto. apply Nf. }
    assert (L : leq (fs k (fun i => mul (f0 i) (f0 i))) (fs k (fun i => mul (f i) (f i)))).
    { apply fs_leq; auto. intros i Hi. split; [apply mul_valid; auto; apply Vx; lia|]. split; [apply mul_valid; auto; apply Vy; lia|]. apply square_leq; [apply Vx|apply Vy|apply Nf]; lia. }
    split; auto. split; [reflexivity|]. split; [reflexivity|]. apply root_leq; auto; apply (@fs_valid prec emax Hp He); intros; apply mul_valid; auto; (apply Vx || apply Vy); lia.
  Qed.
  Theorem C117_norm_l1 : forall N x y, floats N x -> floats N y -> (0 < N)%nat -> (forall i, (i < N)%nat -> leq (SFabs (at_ x i)) (SFabs (at_ y i))) ->
    exists s t, v_norm_l1 fo float_norm_l1 x = Ok s /\ v_norm_l1 fo float_norm_l1 y = Ok t /\ leq s t.
  Proof.
    intros [|k] x y (Lx & Vx) (Ly & Vy) HN H; [lia|]. asfun (sf_ops prec emax rem). rewrite Forall_vk in *. unfold v_norm_l1. change float_norm_l1 with (ok1 SFabs).
    rewrite !(v_map_vk (ok1 SFabs) (fun i => SFabs (_ i)) _) by reflexivity. cbn [bind]. rewrite !v_sum_fs. do 2 eexists. split; [reflexivity|]. split; [reflexivity|].
    assert (Nf : forall i, (i < S k)%nat -> is_nan (f0 i) = false /\ is_nan (f i) = false /\ leq (SFabs (f0 i)) (SFabs (f i))).
    { intros i Hi. specialize (H i Hi). rewrite !nth_vk in H by auto. destruct (leq_nan _ _ H) as (A & B). rewrite abs_nan in A, B. auto. }
    apply fs_leq; try (apply fs_nonneg; intros i Hi; split; [apply abs_valid; (apply Vx || apply Vy); lia|apply abs_nonneg, Nf; lia]).
    intros i Hi. split; [apply abs_valid, Vx; lia|]. split; [apply abs_valid, Vy; lia|]. apply Nf. lia.
  Qed.
  (** norm_l_inf is never above norm_l1. *)
  Lemma max_is : forall k f, (forall i, (i < S k)%nat -> valid (f i) /\ is_nan (f i) = false) ->
    exists m i, (i < S k)%nat /\ v_max fo (vk (S k) f) = Ok m /\ m = f i /\ forall j, (j < S k)%nat -> leq (f j) m.
  Proof.
    intros k f H. rewrite vk_S. destruct (proj2 (@C07_max _ fo is_nan sf_order (f 0%nat) (vk k (fun i => f (S i))))) as (_ & m & E & Im & Nm & G). { apply H. lia. }
    rewrite <- vk_S in Im, G. apply In_nth with (d := zero) in Im. destruct Im as (i & Hi & Ei). rewrite vk_length in Hi. rewrite nth_vk in Ei by auto. exists m, i. split; auto. split; [exact E|]. split; auto. intros j Hj.
    assert (Ij : In (f j) (vk (S k) f)). { rewrite <- (@nth_vk _ (S k) f j zero Hj). apply nth_In. rewrite vk_length. auto. } specialize (G _ Ij). subst m. destruct (H i Hi) as (Vi & Ni), (H j Hj) as (Vj & Nj).
    apply leq_ev; auto. destruct (Rle_lt_dec (ev (f j)) (ev (f i))) as [|L]; auto. exfalso.
    assert (Q : leq (f i) (f j)) by (apply leq_ev; auto; lra). cbn [o_le o_lt sf_ops] in Q, G. unfold SFleb, SFltb in Q, G. destruct (SFcompare (f i) (f j)) as [[]|] eqn:C; try discriminate.
    assert (Q2 : leq (f j) (f i)). { cbn [o_le sf_ops]. unfold SFleb. assert (C2 : SFcompare (f j) (f i) = Some Eq). { revert C. clear. destruct (f i) as [[]|[]| |[] m e], (f j) as [[]|[]| |[] m' e']; cbn; auto; try discriminate; destruct (Z.compare_spec e e') as [->|X|X], (Z.compare_spec e' e') as [_|X2|X2]; try lia; try discriminate; intros C; change (Pos.compare_cont Eq m m') with (m ?= m')%positive in C; change (Pos.compare_cont Eq m' m) with (m' ?= m)%positive; destruct (Pos.compare_spec m m') as [->|X3|X3]; try discriminate; rewrite Pos.compare_refl; auto. } rewrite C2. auto. }
    apply leq_ev in Q2; auto. lra.
  Qed.
  Lemma inf_norm : forall k f, (forall i, (i < S k)%nat -> valid (f i) /\ is_nan (f i) = false) ->
    exists i, (i < S k)%nat /\ v_norm_l_inf fo float_norm_l_inf (vk (S k) f) = Ok (SFabs (f i)) /\ forall j, (j < S k)%nat -> leq (SFabs (f j)) (SFabs (f i)).
  Proof.
    intros k f H. unfold v_norm_l_inf. change float_norm_l_inf with (ok1 SFabs). rewrite (v_map_vk (ok1 SFabs) (fun i => SFabs (f i)) f) by reflexivity. cbn [bind].
    destruct (@max_is k (fun i => SFabs (f i))) as (m & i & Hi & E & -> & G). { intros i Hi. split; [apply abs_valid; apply (H i Hi)|rewrite abs_nan; apply (H i Hi)]. } exists i. auto.
  Qed.
  Theorem C117_norm_l_inf : forall N x y, floats N x -> floats N y -> (0 < N)%nat -> (forall i, (i < N)%nat -> leq (SFabs (at_ x i)) (SFabs (at_ y i))) ->
    exists s t, v_norm_l_inf fo float_norm_l_inf x = Ok s /\ v_norm_l_inf fo float_norm_l_inf y = Ok t /\ leq s t.
  Proof.
    intros [|k] x y (Lx & Vx) (Ly & Vy) HN H; [lia|]. asfun (sf_ops prec emax rem). rewrite Forall_vk in *.
    assert (Nf : forall i, (i < S k)%nat -> is_nan (f0 i) = false /\ is_nan (f i) = false /\ leq (SFabs (f0 i)) (SFabs (f i))).
    { intros i Hi. specialize (H i Hi). rewrite !nth_vk in H by auto. destruct (leq_nan _ _ H) as (A & B). rewrite abs_nan in A, B. auto. }
    destruct (@inf_norm k f0) as (i & Hi & Ei & _). { intros i Hi. split; auto. apply Nf. auto. }
    destruct (@inf_norm k f) as (j & Hj & Ej & G). { intros j Hj. split; auto. apply Nf. auto. }
    do 2 eexists. split; [exact Ei|]. split; [exact Ej|]. eapply leq_trans; [apply abs_valid; auto|apply abs_valid; apply Vy, Hi|apply abs_valid; auto|apply Nf; auto|apply G; auto].
  Qed.
  (** Every component is at most norm_l_inf, which is at most norm_l1. *)
  Theorem C117_inf_below_l1 : forall N x, floats N x -> (0 < N)%nat -> no_nan x ->
    exists s t, v_norm_l_inf fo float_norm_l_inf x = Ok s /\ v_norm_l1 fo float_norm_l1 x = Ok t /\ leq s t /\ forall i, (i < N)%nat -> leq (SFabs (at_ x i)) s.
  Proof.
    intros [|k] x (Lx & Vx) HN Nx; [lia|]. unfold no_nan in Nx. rewrite Lx in Nx. asfun (sf_ops prec emax rem). rewrite Forall_vk in Vx.
    assert (Q : forall i, (i < S k)%nat -> is_nan (f i) = false) by (intros i Hi; specialize (Nx i Hi); rewrite nth_vk in Nx by auto; auto).
    destruct (@inf_norm k f) as (i & Hi & Ei & G). { auto. } unfold v_norm_l1. change float_norm_l1 with (ok1 SFabs). rewrite (v_map_vk (ok1 SFabs) (fun i => SFabs (f i)) f) by reflexivity. cbn [bind]. rewrite v_sum_fs.
    do 2 eexists. split; [exact Ei|]. split; [reflexivity|]. split.
    - apply (@fs_more k (fun i => SFabs (f i))); [|lia]. intros j Hj. split; [apply abs_valid, Vx; lia|apply abs_nonneg, Q; lia].
    - intros j Hj. rewrite nth_vk by auto. auto.
  Qed.
  (** No component is above the length, if the square of some component does not underflow. *)
  Lemma visible_more : forall a b, valid a -> valid b -> leq (SFabs a) (SFabs b) -> visible a -> visible b.
  Proof.
    intros a b Va Vb L V Fb. assert (Nb : number b) by (split; auto). destruct (leq_nan _ _ L) as (Na & _). rewrite abs_nan in Na.
    assert (Fa : number a). { destruct (num_or _ Va Na) as [F|[E|E]]; auto; subst a; apply leq_inf in L; destruct b; discriminate. }
    destruct (abs_num Fa) as (Fa' & Ea), (abs_num Nb) as (Fb' & Eb). apply leq_ev in L; try apply abs_valid; auto; try (rewrite abs_nan; auto); [|apply num_nan; auto]. rewrite (proj1 (ev_lt Fa')), (proj1 (ev_lt Fb')), Ea, Eb in L.
    specialize (V (proj2 Fa)). eapply Rle_trans; [exact V|]. apply Rsqr_le_abs_1. auto.
  Qed.
  Theorem C117_component_below_length : forall N x k, floats N x -> no_nan x -> (k < N)%nat -> visible (at_ x k) ->
    exists l, v_length fo root x = Ok l /\ valid l /\ forall i, (i < N)%nat -> leq (SFabs (at_ x i)) l.
  Proof.
    intros [|n] x k (Lx & Vx) Nx Hk Vis; [lia|]. unfold no_nan in Nx. rewrite Lx in Nx. asfun (sf_ops prec emax rem). rewrite Forall_vk in Vx.
    assert (Q : forall i, (i < S n)%nat -> is_nan (f i) = false) by (intros i Hi; specialize (Nx i Hi); rewrite nth_vk in Nx by auto; auto). unfold v_length. rewrite v_sq_fs. cbn [bind]. eexists. split; [reflexivity|].
    assert (Vs : valid (fs n (fun i => mul (f i) (f i)))) by (apply (@fs_valid prec emax Hp He); apply squares; auto). split; [apply sqrt_valid; auto|].
    assert (C : forall i, (i < S n)%nat -> visible (f i) -> leq (SFabs (f i)) (root (fs n (fun i => mul (f i) (f i))))).
    { intros i Hi V. assert (Vm : valid (mul (f i) (f i))) by (apply mul_valid; auto). apply leq_trans with (y := root (mul (f i) (f i))); [apply abs_valid; auto|apply sqrt_valid; auto|apply sqrt_valid; auto|apply root_square_leq; auto|].
      apply root_leq; auto; [apply square_nonneg; auto|]. apply (@fs_more n (fun i => mul (f i) (f i))); [|lia]. apply squares; auto. }
    rewrite nth_vk in Vis by auto. intros i Hi. rewrite nth_vk by auto.
    assert (Na : forall i, (i < S n)%nat -> is_nan (SFabs (f i)) = false) by (intros; rewrite abs_nan; auto).
    destruct (Rle_lt_dec (ev (SFabs (f k))) (ev (SFabs (f i)))) as [L|L].
    - apply C; auto. eapply visible_more; [apply Vx, Hk|auto| |exact Vis]. apply leq_ev; try apply abs_valid; auto.
    - eapply leq_trans; [apply abs_valid; auto|apply abs_valid; apply Vx, Hk|apply sqrt_valid; auto| |apply C; auto]. apply leq_ev; try apply abs_valid; auto. lra.
  Qed.
  Theorem C117_inf_below_length : forall N x k, floats N x -> no_nan x -> (k < N)%nat -> visible (at_ x k) ->
    exists s l, v_norm_l_inf fo float_norm_l_inf x = Ok s /\ v_length fo root x = Ok l /\ leq s l.
  Proof.
    intros N x k Fx Nx Hk V. destruct (@C117_component_below_length N x k Fx Nx Hk V) as (l & El & _ & Hl). destruct N as [|n]; [lia|]. destruct Fx as (Lx & Vx). unfold no_nan in Nx. rewrite Lx in Nx. asfun (sf_ops prec emax rem). rewrite Forall_vk in Vx.
    destruct (@inf_norm n f) as (i & Hi & Ei & _). { intros i Hi. split; auto. specialize (Nx i Hi). rewrite nth_vk in Nx by auto. auto. }
    exists (SFabs (f i)), l. split; auto. split; auto. specialize (Hl i Hi). rewrite nth_vk in Hl by auto. auto.
  Qed.
  (** The components of a normalised vector of numbers are in [-1, 1]. *)
  Lemma one_num : number (SFone prec emax) /\ value (SFone prec emax) = 1.
  Proof. destruct (one_den Hp He) as (V & F & E). split; auto. split; auto. Qed.
  Lemma div_unit : forall a l, number a -> valid l -> leq (SFabs a) l -> l <> S754_zero false -> l <> S754_zero true -> leq (SFabs (div a l)) (SFone prec emax).
  Proof.
    intros a l Na Vl L Z1 Z2. destruct one_num as (N1 & E1). destruct (leq_nan _ _ L) as (_ & Nl). destruct (abs_num Na) as (Na' & Ea).
    assert (Zl : leq zero l). { eapply leq_trans; [| | |apply (@abs_nonneg a); apply num_nan; auto|exact L]; auto. apply Na'. }
    destruct (nonneg_or _ Vl Zl) as [(Fl & Pl)|E].
    - assert (NZ : value l <> 0). { destruct l as [[]|[]| |s m e]; try congruence; try (destruct Fl; discriminate). cbn [value]. pose proof (powerRZ_lt 2 e ltac:(lra)). assert (0 < IZR (Z.pos m)) by (apply IZR_lt; lia). destruct s; nra. }
      assert (Q1 : is_nan (SFabs a) = false) by (apply num_nan; auto). assert (Q2 : valid (SFabs a)) by (apply Na'). apply leq_ev in L; auto. rewrite (proj1 (ev_lt Na')), (proj1 (ev_lt Fl)), Ea in L.
      assert (R1 : rnd 1 = 1). { rewrite <- E1. apply fmt_num. auto. }
      assert (B : Rabs (rnd (value a / value l)) <= 1).
      { assert (Q : Rabs (value a / value l) <= 1). { unfold Rdiv. rewrite Rabs_mult, Rabs_inv, (Rabs_pos_eq (value l)) by auto. apply Rmult_le_reg_r with (value l); [lra|]. rewrite Rmult_assoc, Rinv_l, Rmult_1_r, Rmult_1_l; auto. }
        apply Rabs_le_inv in Q. apply Rabs_le. split.
        - rewrite <- R1, <- round_NE_opp. apply (@rnd_le prec emax Hp). lra.
        - rewrite <- R1. apply (@rnd_le prec emax Hp). lra. }
      destruct (@div_in prec emax Hp He a l Na Fl NZ) as (Nd & Ed). { pose proof big_pos. lra. } destruct (abs_num Nd) as (Nd' & Ed').
      apply leq_ev; try (apply Nd'); try (apply N1); try (apply num_nan; auto). rewrite (proj1 (ev_lt Nd')), (proj1 (ev_lt N1)), Ed', E1, Ed. auto.
    - subst l. assert (Q : exists s, div a (S754_infinity false) = S754_zero s) by (destruct Na as (_ & F); destruct a; try discriminate; eexists; reflexivity). destruct Q as (s & ->).
      apply leq_ev; auto; try (apply N1); [apply num_nan; auto|]. rewrite (proj1 (ev_lt N1)), E1. cbn. lra.
  Qed.
  Theorem C117_normalize : forall N x k, floats N x -> (forall i, (i < N)%nat -> finite (at_ x i) = true) -> (k < N)%nat -> visible (at_ x k) ->
    exists r, v_normalize fo root x = Ok r /\ length r = N /\ forall i, (i < N)%nat -> leq (SFabs (at_ r i)) (SFone prec emax).
  Proof.
    intros N x k Fx Fin Hk V. assert (Nx : no_nan x). { intros i Hi. rewrite (proj1 Fx) in Hi. specialize (Fin i Hi). destruct (at_ x i); auto; discriminate. }
    destruct (@C117_component_below_length N x k Fx Nx Hk V) as (l & El & Vl & Hl). unfold v_normalize. rewrite El. cbn [bind]. unfold v_sdiv. rewrite (@v_map_pure _ _ (fun x => div x l)). eexists. split; [reflexivity|]. split; [rewrite map_length; apply Fx|].
    intros i Hi. destruct Fx as (Lx & Vx). rewrite Forall_forall in Vx. rewrite nth_indep with (d' := div zero l) by (rewrite map_length; lia). rewrite map_nth with (f := fun x => div x l) (d := zero).
    assert (Num : forall i, (i < N)%nat -> number (at_ x i)) by (intros j Hj; split; auto; apply Vx, nth_In; lia).
    assert (Z : forall s, l <> S754_zero s). { intros s ->. pose proof (Hl k Hk) as L. destruct (abs_num (Num k Hk)) as (Na & Ea). assert (Q1 : is_nan (SFabs (at_ x k)) = false) by (apply num_nan; auto). assert (Q2 : valid (SFabs (at_ x k))) by (apply Na). apply leq_ev in L; auto. rewrite (proj1 (ev_lt Na)), Ea in L. cbn [ev value] in L. specialize (V (Fin k Hk)). pose proof mn_pos. pose proof (Rabs_pos (value (at_ x k))). assert (A0 : Rabs (value (at_ x k)) = 0) by lra. assert (value (at_ x k) = 0) by (destruct (Req_dec (value (at_ x k)) 0) as [|D]; auto; apply Rabs_no_R0 in D; lra). rewrite H1 in V. lra. }
    apply div_unit; auto.
  Qed.
  (** * Along the axes nothing is rounded *)
  Lemma fs_zero : forall n f, (forall i, (i <= n)%nat -> f i = zero) -> fs n f = zero.
  Proof. induction n as [|n IH]; intros f H; cbn [PropRound.fs]; [apply H; lia|]. rewrite IH, (H (S n)) by auto. reflexivity. Qed.
  Lemma fs_axis : forall n f k m e, (k <= n)%nat -> (forall i, (i <= n)%nat -> i <> k -> f i = zero) -> f k = S754_finite false m e -> fs n f = f k.
  Proof.
    induction n as [|n IH]; intros f k m e Hk Hz Ek; cbn [PropRound.fs]. { replace k with 0%nat by lia. auto. }
    destruct (Nat.eq_dec k (S n)) as [->|D].
    - rewrite fs_zero by (intros; apply Hz; lia). rewrite Ek. reflexivity.
    - rewrite (IH f k m e) by (auto; lia). rewrite (Hz (S n)) by lia. rewrite Ek. reflexivity.
  Qed.
  (** Every component but number [k] is zero. *)
  Definition along (N k : nat) (x : list spec_float) : Prop := (k < N)%nat /\ forall i, (i < N)%nat -> i <> k -> exists s, at_ x i = S754_zero s.
  Theorem C117_axis_length : forall N k x, floats N x -> along N k x -> finite (at_ x k) = true -> visible (at_ x k) -> finite (mul (at_ x k) (at_ x k)) = true ->
    v_length fo root x = Ok (SFabs (at_ x k)).
  Proof.
    intros [|n] k x (Lx & Vx) (Hk & Hz) Fk Vk Fm; [lia|]. asfun (sf_ops prec emax rem). rewrite Forall_vk in Vx. rewrite nth_vk in * by auto. unfold v_length. rewrite v_sq_fs. cbn [bind].
    assert (Nk : number (f k)) by (split; auto). pose proof (root_square Nk Vk Fm) as R. pose proof (@square_nonneg (f k) (proj1 Nk) (num_nan Nk)) as P.
    assert (Q : exists m e, mul (f k) (f k) = S754_finite false m e).
    { assert (Nz : value (mul (f k) (f k)) <> 0).
      { intros Z. rewrite (@mul_round prec emax Hp He) in Z by (auto; apply Nk). specialize (Vk Fk). assert (Mn : rnd (min_normal emax) = min_normal emax) by (rewrite (@mn_bpow prec emax); apply (@rnd_id prec emax); apply generic_format_bpow; unfold SpecFloat.fexp, SpecFloat.emin; lia).
        pose proof mn_pos. pose proof (@rnd_le prec emax Hp _ _ Vk). lra. }
      revert Fm P Nz. destruct (mul (f k) (f k)) as [[]|[]| |[] m e]; intros Fm P Nz; try discriminate; try (exfalso; apply Nz; reflexivity). eauto. }
    destruct Q as (m & e & Q). rewrite (@fs_axis n (fun i => mul (f i) (f i)) k m e); [cbn beta; rewrite R; reflexivity|lia| |exact Q].
    intros i Hi D. destruct (Hz i ltac:(lia) D) as (s & Es). rewrite nth_vk in Es by lia. rewrite Es. destruct s; reflexivity.
  Qed.
  Lemma div_self : forall a, number a -> value a <> 0 -> div a (SFabs a) = if Rlt_bool (value a) 0 then SFopp (SFone prec emax) else SFone prec emax.
  Proof.
    intros a Na Z. destruct (abs_num Na) as (Nb & Eb). destruct one_num as (N1 & E1). assert (R1 : rnd 1 = 1). { rewrite <- E1. apply fmt_num. auto. }
    assert (Rm1 : rnd (-1) = -1). { change (-1) with (- (1)). rewrite round_NE_opp, R1. auto. } assert (Nz : value (SFabs a) <> 0) by (rewrite Eb; apply Rabs_no_R0; auto). pose proof big_pos as BP.
    assert (No : number (SFopp (SFone prec emax)) /\ value (SFopp (SFone prec emax)) = -1). { destruct (opp_value (SFone prec emax)) as (O1 & O2). rewrite O1, E1. split; [|ring]. split; [apply opp_valid; apply N1|rewrite O2; apply N1]. }
    destruct (Rlt_bool_spec (value a) 0) as [L|L].
    - assert (Q : value a / value (SFabs a) = -1) by (rewrite Eb, Rabs_left by auto; field; auto).
      destruct (@div_in prec emax Hp He a (SFabs a) Na Nb Nz) as (Nd & Ed). { rewrite Q, Rm1, Rabs_left; lra. } rewrite Q, Rm1 in Ed. apply same_float; auto; try apply No; [rewrite Ed; lra|rewrite Ed; symmetry; apply No].
    - assert (Q : value a / value (SFabs a) = 1) by (rewrite Eb, Rabs_pos_eq by auto; field; auto).
      destruct (@div_in prec emax Hp He a (SFabs a) Na Nb Nz) as (Nd & Ed). { rewrite Q, R1, Rabs_pos_eq; lra. } rewrite Q, R1 in Ed. apply same_float; auto; rewrite Ed; lra.
  Qed.
  Theorem C117_axis_normalize : forall N k x, floats N x -> along N k x -> finite (at_ x k) = true -> visible (at_ x k) -> finite (mul (at_ x k) (at_ x k)) = true ->
    exists r, v_normalize fo root x = Ok r /\ along N k r /\ at_ r k = if Rlt_bool (value (at_ x k)) 0 then SFopp (SFone prec emax) else SFone prec emax.
  Proof.
    intros N k x Fx A Fk Vk Fm. pose proof (C117_axis_length Fx A Fk Vk Fm) as E. unfold v_normalize. rewrite E. cbn [bind]. unfold v_sdiv. set (l := SFabs (at_ x k)). rewrite (@v_map_pure _ _ (fun x => div x l)).
    destruct Fx as (Lx & Vx), A as (Hk & Hz). rewrite Forall_forall in Vx. assert (Nk : number (at_ x k)) by (split; auto; apply Vx, nth_In; lia).
    assert (Z : value (at_ x k) <> 0). { intros Z. specialize (Vk Fk). rewrite Z in Vk. pose proof mn_pos. lra. }
    assert (At : forall i, (i < N)%nat -> at_ (map (fun x => div x l) x) i = div (at_ x i) l). { intros i Hi. rewrite nth_indep with (d' := div zero l) by (rewrite map_length; lia). apply map_nth with (f := fun x => div x l) (d := zero). }
    eexists. split; [reflexivity|]. split; [split; [exact Hk|]|].
    - intros i Hi D. rewrite At by auto. destruct (Hz i Hi D) as (s & ->). unfold l. destruct (at_ x k) as [t|t| |t m e]; try discriminate; [exfalso; apply Z; reflexivity|]. eexists. reflexivity.
    - rewrite At by auto. apply div_self; auto.
  Qed.

  (** * Matrices: the same for the list of all elements *)
  Lemma m_norms : forall M N a, rect M N a -> (0 < M)%nat -> (0 < N)%nat ->
    m_norm_l1 fo float_norm_l1 a = v_norm_l1 fo float_norm_l1 (concat a) /\ m_norm_l2 fo root a = v_length fo root (concat a) /\
    m_norm_l_inf fo float_norm_l_inf a = v_norm_l_inf fo float_norm_l_inf (concat a).
  Proof.
    intros M N a Ra HM HN. assert (Q : forall (g : spec_float -> spec_float), rect M N (map (map g) a)).
    { intros g. destruct Ra as (L & W). split; [rewrite map_length; auto|]. rewrite Forall_map. eapply Forall_impl; [|exact W]. intros r Hr. cbn in *. rewrite map_length. auto. }
    assert (C : forall g : spec_float -> spec_float, concat (map (map g) a) = map g (concat a)) by (intros; symmetry; apply concat_map).
    unfold m_norm_l1, m_norm_l2, m_norm_l2_sqr, m_norm_l_inf, v_norm_l1, v_length, v_square_length, v_norm_l_inf. change float_norm_l1 with (ok1 SFabs). change float_norm_l_inf with (ok1 SFabs).
    change (fun x => o_mul fo x x) with (ok1 (fun x => mul x x)). rewrite !m_map_pure, !v_map_pure. cbn [bind].
    destruct (proj1 (@m_reduce_spec _ fo M N _ (Q SFabs)) HM HN) as (E1 & E2 & _). destruct (proj1 (@m_reduce_spec _ fo M N _ (Q (fun x => mul x x))) HM HN) as (E3 & _ & _). rewrite E1, E2, E3, !C. auto.
  Qed.
  Lemma concat_floats : forall M N a, mfloats M N a -> floats (M * N) (concat a).
  Proof. intros M N a (R & V). split; [apply (rect_concat_length R)|]. apply Forall_concat. auto. Qed.
  Lemma concat_at : forall M N a k, rect M N a -> (k < M * N)%nat -> at_ (concat a) k = mget fo a (k / N) (k mod N).
  Proof.
    intros M N a k R Hk. assert (HN : (0 < N)%nat) by lia. assert (Hj : (k mod N < N)%nat) by (apply Nat.mod_upper_bound; lia). pose proof (@nth_error_concat _ M N a (k / N) (k mod N) R Hj) as E.
    assert (K : (k / N * N + k mod N = k)%nat) by (pose proof (Nat.div_mod k N ltac:(lia)); lia). rewrite K in E.
    assert (Lk : (k < length (concat a))%nat) by (rewrite (rect_concat_length R); auto). rewrite (nth_error_nth' _ zero Lk) in E. symmetry in E. symmetry. apply (mget_elt fo _ _ _ E).
  Qed.
  Theorem C117_matrix_norms : forall M N a b, mfloats M N a -> mfloats M N b -> (0 < M)%nat -> (0 < N)%nat ->
    (forall i j, (i < M)%nat -> (j < N)%nat -> leq (SFabs (mget fo a i j)) (SFabs (mget fo b i j))) ->
    (exists s t, m_norm_l1 fo float_norm_l1 a = Ok s /\ m_norm_l1 fo float_norm_l1 b = Ok t /\ leq s t) /\
    (exists s t, m_norm_l2 fo root a = Ok s /\ m_norm_l2 fo root b = Ok t /\ leq s t) /\
    (exists s t, m_norm_l_inf fo float_norm_l_inf a = Ok s /\ m_norm_l_inf fo float_norm_l_inf b = Ok t /\ leq s t).
  Proof.
    intros M N a b Fa Fb HM HN H. destruct (@m_norms M N a) as (-> & -> & ->); auto; try apply Fa. destruct (@m_norms M N b) as (-> & -> & ->); auto; try apply Fb.
    pose proof (concat_floats Fa) as Ca. pose proof (concat_floats Fb) as Cb. assert (P : (0 < M * N)%nat) by nia.
    assert (Q : forall k, (k < M * N)%nat -> leq (SFabs (at_ (concat a) k)) (SFabs (at_ (concat b) k))).
    { intros k Hk. rewrite (@concat_at M N a), (@concat_at M N b) by (auto; first [apply Fa|apply Fb]). apply H; [apply Nat.div_lt_upper_bound; lia|apply Nat.mod_upper_bound; lia]. }
    split; [apply (@C117_norm_l1 (M * N)); auto|]. split; [|apply (@C117_norm_l_inf (M * N)); auto].
    destruct (@C117_length (M * N) (concat a) (concat b)) as (s & t & _ & _ & _ & _ & _ & E1 & E2 & L); eauto.
  Qed.
  (** No element is above the norms. *)
  Theorem C117_element_below_norms : forall M N a, mfloats M N a -> (0 < M)%nat -> (0 < N)%nat -> (forall i j, (i < M)%nat -> (j < N)%nat -> is_nan (mget fo a i j) = false) ->
    exists s t l, m_norm_l_inf fo float_norm_l_inf a = Ok s /\ m_norm_l1 fo float_norm_l1 a = Ok t /\ m_norm_l2 fo root a = Ok l /\ leq s t /\
      (forall i j, (i < M)%nat -> (j < N)%nat -> leq (SFabs (mget fo a i j)) s) /\
      forall i j, (i < M)%nat -> (j < N)%nat -> visible (mget fo a i j) -> leq s l.
  Proof.
    intros M N a Fa HM HN H. destruct (@m_norms M N a) as (-> & -> & ->); auto; try apply Fa. pose proof (concat_floats Fa) as Ca. assert (P : (0 < M * N)%nat) by nia.
    assert (Nn : no_nan (concat a)). { intros k Hk. rewrite (proj1 Ca) in Hk. rewrite (@concat_at M N a) by (auto; apply Fa). apply H; [apply Nat.div_lt_upper_bound; lia|apply Nat.mod_upper_bound; lia]. }
    destruct (@C117_inf_below_l1 (M * N) (concat a) Ca P Nn) as (s & t & E1 & E2 & L & G). destruct (@C117_square_length (M * N) (concat a) Ca P Nn) as (q & Eq & _ & _).
    exists s, t, (root q). split; auto. split; auto. split; [unfold v_length; rewrite Eq; reflexivity|]. split; auto.
    assert (I : forall i j, (i < M)%nat -> (j < N)%nat -> (i * N + j < M * N)%nat /\ at_ (concat a) (i * N + j) = mget fo a i j).
    { intros i j Hi Hj. assert (B : (i * N + j < M * N)%nat) by nia. split; auto. rewrite (@concat_at M N a) by (auto; apply Fa). f_equal; [rewrite Nat.div_add_l, Nat.div_small by lia; lia|rewrite Nat.add_comm, Nat.mod_add by lia; apply Nat.mod_small; auto]. }
    split; intros i j Hi Hj; destruct (I i j Hi Hj) as (B & E); rewrite <- E; [apply G; auto|]. intros V.
    destruct (@C117_inf_below_length (M * N) (concat a) (i * N + j) Ca Nn B V) as (s' & l & E3 & E4 & L2). rewrite E1 in E3. apply Ok_inj in E3. subst s'. unfold v_length in E4. rewrite Eq in E4. apply Ok_inj in E4. subst l. auto.
  Qed.

  (** * Complex numbers and quaternions *)
  Context (F : FloatOps spec_float) (HF : f_sqrt F = root).
  Theorem C117_complex : forall z, valid (re z) -> valid (im z) -> is_nan (re z) = false -> is_nan (im z) = false -> visible (re z) \/ visible (im z) ->
    exists n, c_norm fo F z = Ok n /\ leq (SFabs (re z)) n /\ leq (SFabs (im z)) n /\
      (finite (re z) = true -> finite (im z) = true -> exists w, c_normalize fo F z = Ok w /\ leq (SFabs (re w)) (SFone prec emax) /\ leq (SFabs (im w)) (SFone prec emax)).
  Proof.
    intros [a b] Va Vb Na Nb V. cbn [re im] in *. assert (Fx : floats 2 [a; b]) by (split; auto).
    assert (K : exists k, (k < 2)%nat /\ visible (at_ [a; b] k)) by (destruct V; [exists 0%nat|exists 1%nat]; cbn; auto). destruct K as (k & Hk & Vk).
    destruct (@C117_component_below_length 2 [a; b] k Fx) as (l & El & Vl & Hl); auto. { intros [|[|i]] Hi; cbn; auto; cbn in Hi; lia. }
    exists l. unfold c_norm. rewrite HF. split; [exact El|]. split; [apply (Hl 0%nat); lia|]. split; [apply (Hl 1%nat); lia|]. intros Fa Fb.
    destruct (@C117_normalize 2 [a; b] k Fx) as (r & Er & Lr & Hr); auto. { intros [|[|i]] Hi; cbn; auto; lia. }
    destruct r as [|c [|d [|]]]; try discriminate Lr. exists (Cx c d). split.
    - unfold c_normalize, c_norm, c_div_s. rewrite HF. unfold v_normalize in Er. change (c_into_vector (Cx a b)) with [a; b]. rewrite El in *. cbn [bind] in *. rewrite Er. reflexivity.
    - split; [apply (Hr 0%nat); lia|apply (Hr 1%nat); lia].
  Qed.
  Theorem C117_quaternion : forall q, (forall i, (i < 4)%nat -> valid (at_ [qw q; qx q; qy q; qz q] i) /\ is_nan (at_ [qw q; qx q; qy q; qz q] i) = false) ->
    visible (qw q) \/ visible (qx q) \/ visible (qy q) \/ visible (qz q) ->
    exists n, q_norm fo F q = Ok n /\ leq (SFabs (qw q)) n /\ leq (SFabs (qx q)) n /\ leq (SFabs (qy q)) n /\ leq (SFabs (qz q)) n /\
      (finite (qw q) = true -> finite (qx q) = true -> finite (qy q) = true -> finite (qz q) = true ->
        exists w, q_normalize fo F q = Ok w /\ leq (SFabs (qw w)) (SFone prec emax) /\ leq (SFabs (qx w)) (SFone prec emax) /\ leq (SFabs (qy w)) (SFone prec emax) /\ leq (SFabs (qz w)) (SFone prec emax)).
  Proof.
    intros [a b c d] H V. cbn [qw qx qy qz] in *. assert (Fx : floats 4 [a; b; c; d]). { split; auto. pose proof (H 0%nat ltac:(lia)). pose proof (H 1%nat ltac:(lia)). pose proof (H 2%nat ltac:(lia)). pose proof (H 3%nat ltac:(lia)). cbn in *. repeat constructor; tauto. }
    assert (K : exists k, (k < 4)%nat /\ visible (at_ [a; b; c; d] k)) by (destruct V as [V|[V|[V|V]]]; [exists 0%nat|exists 1%nat|exists 2%nat|exists 3%nat]; (split; [lia|exact V])). destruct K as (k & Hk & Vk).
    destruct (@C117_component_below_length 4 [a; b; c; d] k Fx) as (l & El & Vl & Hl); auto. { intros i Hi. apply H. auto. }
    exists l. unfold q_norm. rewrite HF. split; [exact El|]. split; [apply (Hl 0%nat); lia|]. split; [apply (Hl 1%nat); lia|]. split; [apply (Hl 2%nat); lia|]. split; [apply (Hl 3%nat); lia|]. intros Fa Fb Fc Fd.
    destruct (@C117_normalize 4 [a; b; c; d] k Fx) as (r & Er & Lr & Hr); auto. { intros [|[|[|[|i]]]] Hi; auto; lia. }
    destruct r as [|a' [|b' [|c' [|d' [|? ?]]]]]; try discriminate Lr. exists (Qt a' b' c' d'). split.
    - unfold q_normalize, q_norm, q_div_s. rewrite HF. unfold v_normalize in Er. change (q_into_vector (Qt a b c d)) with [a; b; c; d]. rewrite El in *. cbn [bind] in *. rewrite Er. reflexivity.
    - split; [apply (Hr 0%nat); lia|]. split; [apply (Hr 1%nat); lia|]. split; [apply (Hr 2%nat); lia|apply (Hr 3%nat); lia].
  Qed.
End Mono.

(** * Examples (f64) *)
Definition d3 : spec_float := S754_finite false 6755399441055744 (-51).
Definition d4 : spec_float := S754_finite true 4503599627370496 (-50).
Lemma p51 : powerRZ 2 (-51) = / 2251799813685248.
Proof. change (-51)%Z with (- (51))%Z. rewrite powerRZ_neg' . f_equal. change (powerRZ 2 51) with (2 ^ 51). rewrite pow_IZR. f_equal. Qed.
Example C117_ex_visible : value d3 = 3 /\ visible 1024 d3.
Proof.
  assert (E : value d3 = 3). { unfold value, d3. rewrite p51. lra. } split; auto. intros _. rewrite E. unfold min_normal. apply Rle_trans with 1; [|lra]. change 2 with (IZR (radix_val radix2)). rewrite <- bpow_powerRZ. change 1 with (bpow radix2 0). apply bpow_le. lia.
Qed.
Example C117_ex : exists r, v_normalize (sf_ops 53 1024 (fun x _ => x)) (SFsqrt 53 1024) [d3; d4] = Ok r /\ forall i, (i < 2)%nat -> o_le (sf_ops 53 1024 (fun x _ => x)) (SFabs (nth i r (S754_zero false))) (SFone 53 1024) = true.
Proof.
  destruct (@C117_normalize 53 1024 (fun x _ => x) ltac:(lia) ltac:(lia) 2 [d3; d4] 0%nat) as (r & E & _ & H); eauto.
  - split; auto.
  - intros [|[|i]] Hi; auto. lia.
  - apply C117_ex_visible.
Qed.
(** Without the condition on underflow: the length of (2^-600, 0) is zero, below its component, and normalising gives an infinity. *)
Theorem C117_underflow_refuted : let fo := sf_ops 53 1024 (fun x _ => x) in let tiny := S754_finite false 4503599627370496 (-652) in
  valid_binary 53 1024 tiny = true /\ v_length fo (SFsqrt 53 1024) [tiny; S754_zero false] = Ok (S754_zero false) /\ o_lt fo (S754_zero false) tiny = true /\
  v_normalize fo (SFsqrt 53 1024) [tiny; S754_zero false] = Ok [S754_infinity false; S754_nan].
Proof. repeat split; vm_compute; reflexivity. Qed.

Print Assumptions C117_sum.
Print Assumptions C117_dot.
Print Assumptions C117_matrix_product.
Print Assumptions C117_matrix_vector.
Print Assumptions C117_square_length.
Print Assumptions C117_length.
Print Assumptions C117_norm_l1.
Print Assumptions C117_norm_l_inf.
Print Assumptions C117_inf_below_l1.
Print Assumptions C117_component_below_length.
Print Assumptions C117_inf_below_length.
Print Assumptions C117_normalize.
Print Assumptions C117_axis_length.
Print Assumptions C117_axis_normalize.
Print Assumptions C117_matrix_norms.
Print Assumptions C117_element_below_norms.
Print Assumptions C117_complex.
Print Assumptions C117_quaternion.
Print Assumptions C117_underflow_refuted.
