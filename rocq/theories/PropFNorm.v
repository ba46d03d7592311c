(** C80: comparison, maximum, minimum, [norm_l_inf], [norm_l1] and [is_epsilon] of floats in terms of the real
    numbers they denote; more rounding bounds (C74). *)
From Coq Require Import ZArith Reals Lra Lia Psatz SpecFloat List Permutation.
From Flocq Require Import Core BinarySingleNaN.
From Verif Require Import SpecRound TraitsModel FloatInst VFacts MFacts MatProofs AlgFacts FlocqFacts PropFloat PropOrder PropTraits PropRound.
Import ListNotations.
Set Implicit Arguments.
Local Open Scope R_scope.

Section FN.
  Context (prec emax : Z) (rem : spec_float -> spec_float -> spec_float).
  Context (Hp : (0 < prec)%Z) (He : (prec < emax)%Z).
  Local Notation fo := (sf_ops prec emax rem).
  Local Notation valid x := (valid_binary prec emax x = true).
  Local Notation u := (roundoff prec).
  Local Notation eta := (half_tiny prec emax).
  (* a float that is a number *)
  Local Notation number x := (valid x /\ finite x = true).

  Lemma cmp_val : forall x y, number x -> number y -> SFcompare x y = Some (Rcompare (value x) (value y)).
  Proof.
    intros x y (Vx & Fx) (Vy & Fy). destruct (lift _ _ _ Vx) as (a & <-). destruct (lift _ _ _ Vy) as (b & <-). rewrite !value_B.
    rewrite finite_B in Fx, Fy. apply (@Bcompare_correct prec emax); auto.
  Qed.
  (** Comparison of finite floats is comparison of the numbers they denote. *)
  Theorem C80_compare : forall x y, number x -> number y ->
    (o_lt fo x y = true <-> value x < value y) /\ (o_le fo x y = true <-> value x <= value y) /\ (o_eq fo x y = true <-> value x = value y).
  Proof.
    intros x y Nx Ny. cbn [o_lt o_le o_eq sf_ops]. unfold SFltb, SFleb, SFeqb. rewrite (cmp_val _ _ Nx Ny).
    destruct (Rcompare_spec (value x) (value y)); repeat split; intros; try discriminate; try reflexivity; lra.
  Qed.
  Lemma abs_number : forall x, number x -> number (SFabs x).
  Proof. intros [s|s| |s m e] (V & F); try discriminate; split; auto. Qed.
  (** The norms of a float are its absolute value, exactly. *)
  Theorem C80_scalar : forall x, 
    (number x -> exists y, float_norm_l1 x = Ok y /\ float_norm_l2 x = Ok y /\ float_norm_l_inf x = Ok y /\ number y /\ value y = Rabs (value x)) /\
    float_conj x = x /\ p_dot fo x x = float_norm_l2_sqr fo x /\
    (is_nan x = true -> float_norm_l1 x = Ok S754_nan).
  Proof.
    intros x. split; [|split; [|split]]; try reflexivity.
    - intros N. exists (SFabs x). do 3 (split; [reflexivity|]). split; [apply abs_number; auto|]. destruct x as [s|s| |s m e]; cbn; rewrite ?Rabs_R0; auto.
      rewrite !Rabs_mult, (Rabs_pos_eq (IZR _)) by (apply IZR_le; lia). rewrite (Rabs_pos_eq (powerRZ _ _)) by (left; apply powerRZ_lt; lra).
      replace (Rabs (if s then -1 else 1)) with 1; auto. destruct s; [rewrite Rabs_left|rewrite Rabs_pos_eq]; lra.
    - destruct x; discriminate || reflexivity.
  Qed.
  Lemma abs_value : forall x, value (SFabs x) = Rabs (value x).
  Proof.
    intros [s|s| |s m e]; cbn; rewrite ?Rabs_R0; auto.
    rewrite !Rabs_mult, (Rabs_pos_eq (IZR _)) by (apply IZR_le; lia). rewrite (Rabs_pos_eq (powerRZ _ _)) by (left; apply powerRZ_lt; lra).
    replace (Rabs (if s then -1 else 1)) with 1; auto. destruct s; [rewrite Rabs_left|rewrite Rabs_pos_eq]; lra.
  Qed.
  Lemma eps_number : (1 < prec)%Z -> number (float_epsilon prec) /\ value (float_epsilon prec) = powerRZ 2 (1 - prec).
  Proof.
    intros P1. assert (V : Z.pos (2 ^ Z.to_pos (prec - 1)) = (2 ^ (prec - 1))%Z). { rewrite Pos2Z.inj_pow, Z2Pos.id by lia. reflexivity. }
    split; [split; auto|].
    - unfold float_epsilon, valid_binary, bounded, canonical_mantissa. 
      assert (D : Z.pos (digits2_pos (2 ^ Z.to_pos (prec - 1))) = prec).
      { rewrite Digits.Zpos_digits2_pos, V. change (2 ^ (prec - 1))%Z with (radix_val radix2 ^ (prec - 1))%Z. rewrite Digits.Zdigits_Zpower by lia. lia. }
      rewrite D. unfold SpecFloat.fexp, SpecFloat.emin. apply Bool.andb_true_iff. split; [apply Zeq_is_eq_bool|apply Zle_imp_le_bool]; lia.
    - unfold float_epsilon, value. rewrite V, Rmult_1_l, (IZR_Zpower radix2) by lia. change 2 with (IZR radix2). rewrite <- !bpow_powerRZ, <- bpow_plus. f_equal. lia.
  Qed.
  (** [is_epsilon]: at most EPSILON = 2^(1 - prec) in absolute value; false for infinities and NaN. *)
  Theorem C80_is_epsilon : (1 < prec)%Z -> forall x, valid x ->
    (float_is_epsilon prec x = true <-> finite x = true /\ Rabs (value x) <= powerRZ 2 (1 - prec)).
  Proof.
    intros P1 x V. destruct (eps_number P1) as (Ne & Ve). unfold float_is_epsilon. destruct (finite x) eqn:F.
    - assert (N : number (SFabs x)) by (apply abs_number; auto). destruct (@C80_compare _ _ N Ne) as (_ & L & _). cbn [o_le sf_ops] in L. rewrite L, Ve, abs_value. tauto.
    - destruct x as [s|s| |s m e]; try discriminate; cbn; split; intros H; try discriminate; destruct H; discriminate.
  Qed.

  Lemma number_in : forall v x, Forall (fun x => number x) v -> In x v -> number x.
  Proof. intros v x H Hi. rewrite Forall_forall in H. auto. Qed.
  Lemma number_nan : forall x, number x -> is_nan x = false.
  Proof. intros [| | |] (_ & F); try discriminate; reflexivity. Qed.
  (** [max] / [min] of finite floats return an element denoting the largest / smallest number: nothing is rounded. *)
  Theorem C80_max : forall v, v <> [] -> Forall (fun x => number x) v ->
    exists m, v_max fo v = Ok m /\ In m v /\ forall y, In y v -> value y <= value m.
  Proof.
    intros [|x t] NE H; [congruence|]. pose proof (fun y => @number_in _ y H) as HI. destruct (proj2 (@C07_max _ fo is_nan sf_order x t)) as (_ & m & E & Im & _ & G); [apply number_nan, HI; left; auto|].
    exists m. split; auto. split; auto. intros y Hy. specialize (G y Hy). destruct (@C80_compare _ _ (HI m Im) (HI y Hy)) as (L & _ & _). rewrite G in L.
    destruct (Rle_or_lt (value y) (value m)) as [K|K]; auto. apply L in K. discriminate.
  Qed.
  Theorem C80_min : forall v, v <> [] -> Forall (fun x => number x) v ->
    exists m, v_min fo v = Ok m /\ In m v /\ forall y, In y v -> value m <= value y.
  Proof.
    intros v NE H. pose proof (fun y => @number_in _ y H) as HI. destruct (@C07_min_numbers _ fo is_nan sf_order v NE) as (m & E & Im & G); [intros; apply number_nan, HI; auto|].
    exists m. split; auto. split; auto. intros y Hy. specialize (G y Hy). destruct (@C80_compare _ _ (HI y Hy) (HI m Im)) as (L & _ & _). rewrite G in L.
    destruct (Rle_or_lt (value m) (value y)) as [K|K]; auto. apply L in K. discriminate.
  Qed.
  (** [norm_l_inf] is exact: the largest absolute value. *)
  Theorem C80_norm_l_inf : forall v, v <> [] -> Forall (fun x => number x) v ->
    exists r, v_norm_l_inf fo float_norm_l_inf v = Ok r /\ number r /\
      (exists x, In x v /\ value r = Rabs (value x)) /\ forall x, In x v -> Rabs (value x) <= value r.
  Proof.
    intros v NE H. unfold v_norm_l_inf. change float_norm_l_inf with (ok1 SFabs). rewrite v_map_pure. cbn [bind].
    destruct (@C80_max (map SFabs v)) as (m & E & Im & G).
    - destruct v; [congruence|discriminate].
    - rewrite Forall_map. eapply Forall_impl; [|exact H]. intros. apply abs_number. auto.
    - exists m. split; auto. apply in_map_iff in Im as (x & <- & Hx). split; [apply abs_number, (@number_in _ _ H Hx)|]. split.
      + exists x. split; auto. apply abs_value.
      + intros y Hy. rewrite <- (abs_value y). apply G, in_map, Hy.
  Qed.
  (** [norm_l1]: the sum of the absolute values up to N - 1 roundings. *)
  Theorem C80_norm_l1 : forall N v s, length v = N -> Forall (fun x => valid x) v -> v_norm_l1 fo float_norm_l1 v = Ok s -> finite s = true ->
    Rabs (value s - rsum N (fun i => Rabs (vval v i))) <= ((1 + u) ^ (N - 1) - 1) * rsum N (fun i => Rabs (vval v i)).
  Proof.
    intros N v s L V E F. unfold v_norm_l1 in E. change float_norm_l1 with (ok1 SFabs) in E. rewrite v_map_pure in E. cbn [bind] in E.
    assert (A : forall i, vval (map SFabs v) i = Rabs (vval v i)).
    { intros i. unfold vval. rewrite <- abs_value. f_equal. change (S754_zero false) with (SFabs (S754_zero false)) at 1. apply map_nth. }
    pose proof (@C74_sum prec emax rem Hp He N (map SFabs v) s) as H.
    rewrite (@rsum_ext N (vval (map SFabs v)) (fun i => Rabs (vval v i))) in H by auto.
    rewrite (@rsum_ext N (fun i => Rabs (vval (map SFabs v) i)) (fun i => Rabs (vval v i))) in H by (intros; rewrite A, Rabs_Rabsolu; auto).
    apply H; auto.
    - rewrite map_length. auto.
    - rewrite Forall_map. eapply Forall_impl; [|exact V]. intros [s0|s0| |s0 m e]; auto.
  Qed.

  (** Rounding errors of quaternion and cross products. *)
  Local Notation mul := (SFmul prec emax).
  Local Notation add := (SFadd prec emax).
  Local Notation sub := (SFsub prec emax).
  Lemma round_aux_sign : forall s m e l, SpecFloat.binary_round_aux prec emax (negb s) m e l = SFopp (SpecFloat.binary_round_aux prec emax s m e l).
  Proof.
    intros. unfold SpecFloat.binary_round_aux. destruct (shr_fexp prec emax m e l) as (mrs', e').
    destruct (shr_fexp prec emax _ e' loc_Exact) as (mrs'', e''). destruct (shr_m mrs''); try reflexivity. destruct (e'' <=? emax - prec)%Z; reflexivity.
  Qed.
  Lemma mul_opp_l : forall x y, mul (SFopp x) y = SFopp (mul x y).
  Proof.
    intros [s|s| |s m e] [s'|s'| |s' m' e']; cbn; try reflexivity; try (destruct s, s'; reflexivity).
    rewrite <- Bool.negb_xorb_l. apply round_aux_sign.
  Qed.
  Lemma sub_mul : forall z x y, sub z (mul x y) = add z (mul (SFopp x) y).
  Proof. intros. rewrite mul_opp_l, SFsub_opp. reflexivity. Qed.
  (* four signed products summed from left to right *)
  Definition four {A} (a b c d : A) (i : nat) : A := match i with 0%nat => a | 1%nat => b | 2%nat => c | _ => d end.
  Lemma four_products : forall a1 b1 a2 b2 a3 b3 a4 b4, valid a1 -> valid b1 -> valid a2 -> valid b2 -> valid a3 -> valid b3 -> valid a4 -> valid b4 ->
    let s := add (add (add (mul a1 b1) (mul a2 b2)) (mul a3 b3)) (mul a4 b4) in finite s = true ->
    Rabs (value s - (value a1 * value b1 + value a2 * value b2 + value a3 * value b3 + value a4 * value b4)) <=
      ((1 + u) ^ 4 - 1) * (Rabs (value a1 * value b1) + Rabs (value a2 * value b2) + Rabs (value a3 * value b3) + Rabs (value a4 * value b4)) + 4 * (1 + u) ^ 3 * eta.
  Proof.
    intros a1 b1 a2 b2 a3 b3 a4 b4 V1 W1 V2 W2 V3 W3 V4 W4 s F.
    pose proof (@fs_dot_err prec emax Hp He 3%nat (four a1 a2 a3 a4) (four b1 b2 b3 b4) eta) as H. 
    change (fs prec emax 3 (fun i => mul (four a1 a2 a3 a4 i) (four b1 b2 b3 b4 i))) with s in H.
    assert (E : forall f : nat -> R, rsum 4 f = f 0%nat + f 1%nat + f 2%nat + f 3%nat) by (intros; cbn; ring). rewrite !E in H. cbn [four] in H.
    replace (INR 4) with 4 in H by (cbn; ring). apply H; auto.
    - pose proof (eta_pos prec emax). lra.
    - intros [|[|[|i]]] _; auto.
    - intros [|[|[|i]]] _; auto.
    - intros i Hi. apply mul_close; auto.
      + destruct i as [|[|[|i]]]; auto.
      + destruct i as [|[|[|i]]]; auto.
      + change s with (fs prec emax 3 (fun i => mul (four a1 a2 a3 a4 i) (four b1 b2 b3 b4 i))) in F. apply (@fs_fin prec emax 3%nat (fun i => mul (four a1 a2 a3 a4 i) (four b1 b2 b3 b4 i)) F i Hi).
  Qed.
  Lemma v_opp : forall x, value (SFopp x) = - value x.
  Proof. intros. apply opp_value. Qed.
  Lemma rabs_opp_l : forall a b, Rabs (- a * b) = Rabs (a * b).
  Proof. intros. rewrite <- Rabs_Ropp. f_equal. ring. Qed.
  Theorem C74_quaternion_mul : forall a b,
    valid (qw a) -> valid (qx a) -> valid (qy a) -> valid (qz a) -> valid (qw b) -> valid (qx b) -> valid (qy b) -> valid (qz b) ->
    let w := value (qw a) in let x := value (qx a) in let y := value (qy a) in let z := value (qz a) in
    let w' := value (qw b) in let x' := value (qx b) in let y' := value (qy b) in let z' := value (qz b) in
    let close c e m := finite c = true -> Rabs (value c - e) <= ((1 + u) ^ 4 - 1) * m + 4 * (1 + u) ^ 3 * eta in
    exists c, q_mul fo a b = Ok c /\
    close (qw c) (w * w' - x * x' - y * y' - z * z') (Rabs (w * w') + Rabs (x * x') + Rabs (y * y') + Rabs (z * z')) /\
    close (qx c) (w * x' + x * w' + y * z' - z * y') (Rabs (w * x') + Rabs (x * w') + Rabs (y * z') + Rabs (z * y')) /\
    close (qy c) (w * y' - x * z' + y * w' + z * x') (Rabs (w * y') + Rabs (x * z') + Rabs (y * w') + Rabs (z * x')) /\
    close (qz c) (w * z' + x * y' - y * x' + z * w') (Rabs (w * z') + Rabs (x * y') + Rabs (y * x') + Rabs (z * w')).
  Proof.
    intros [a1 a2 a3 a4] [b1 b2 b3 b4]. cbn [qw qx qy qz]. intros V1 V2 V3 V4 W1 W2 W3 W4. cbv zeta.
    assert (O : forall x, valid x -> valid (SFopp x)) by (apply opp_valid).
    eexists. split; [reflexivity|]. cbn [qw qx qy qz]. rewrite !sub_mul.
    split; [|split; [|split]]; intros F.
    - pose proof (@four_products a1 b1 (SFopp a2) b2 (SFopp a3) b3 (SFopp a4) b4 V1 W1 (O _ V2) W2 (O _ V3) W3 (O _ V4) W4 F) as H. cbv zeta in H. rewrite !v_opp, !rabs_opp_l in H.
      replace (value a1 * value b1 - _ - _ - _) with (value a1 * value b1 + - value a2 * value b2 + - value a3 * value b3 + - value a4 * value b4) by ring. exact H.
    - pose proof (@four_products a1 b2 a2 b1 a3 b4 (SFopp a4) b3 V1 W2 V2 W1 V3 W4 (O _ V4) W3 F) as H. cbv zeta in H. rewrite !v_opp, !rabs_opp_l in H.
      replace (value a1 * value b2 + value a2 * value b1 + value a3 * value b4 - value a4 * value b3) with (value a1 * value b2 + value a2 * value b1 + value a3 * value b4 + - value a4 * value b3) by ring. exact H.
    - pose proof (@four_products a1 b3 (SFopp a2) b4 a3 b1 a4 b2 V1 W3 (O _ V2) W4 V3 W1 V4 W2 F) as H. cbv zeta in H. rewrite !v_opp, !rabs_opp_l in H.
      replace (value a1 * value b3 - value a2 * value b4 + value a3 * value b1 + value a4 * value b2) with (value a1 * value b3 + - value a2 * value b4 + value a3 * value b1 + value a4 * value b2) by ring. exact H.
    - pose proof (@four_products a1 b4 a2 b3 (SFopp a3) b2 a4 b1 V1 W4 V2 W3 (O _ V3) W2 V4 W1 F) as H. cbv zeta in H. rewrite !v_opp, !rabs_opp_l in H.
      replace (value a1 * value b4 + value a2 * value b3 - value a3 * value b2 + value a4 * value b1) with (value a1 * value b4 + value a2 * value b3 + - value a3 * value b2 + value a4 * value b1) by ring. exact H.
  Qed.
  Lemma cross_err : forall x y z w, valid x -> valid y -> valid z -> valid w -> finite (sub (mul x y) (mul z w)) = true ->
    Rabs (value (sub (mul x y) (mul z w)) - (value x * value y - value z * value w)) <=
      ((1 + u) ^ 2 - 1) * (Rabs (value x * value y) + Rabs (value z * value w)) + 2 * (1 + u) * eta.
  Proof.
    intros x y z w Vx Vy Vz Vw F. pose proof (@two_products prec emax Hp He x y z w sub (-1) (or_intror (conj eq_refl eq_refl)) Vx Vy Vz Vw F) as H.
    replace (value x * value y - value z * value w) with (value x * value y + -1 * (value z * value w)) by ring. exact H.
  Qed.
  Theorem C74_cross3 : forall a1 a2 a3 b1 b2 b3, valid a1 -> valid a2 -> valid a3 -> valid b1 -> valid b2 -> valid b3 ->
    let close c x y z w := finite c = true -> Rabs (value c - (value x * value y - value z * value w)) <=
      ((1 + u) ^ 2 - 1) * (Rabs (value x * value y) + Rabs (value z * value w)) + 2 * (1 + u) * eta in
    (exists c1 c2 c3, v_cross3 fo [a1; a2; a3] [b1; b2; b3] = Ok [c1; c2; c3] /\
       close c1 a2 b3 a3 b2 /\ close c2 a3 b1 a1 b3 /\ close c3 a1 b2 a2 b1) /\
    (exists c, v_cross2 fo [a1; a2] [b1; b2] = Ok c /\ close c a1 b2 a2 b1).
  Proof.
    intros a1 a2 a3 b1 b2 b3 V1 V2 V3 W1 W2 W3 close. split.
    - do 3 eexists. split; [reflexivity|]. repeat split; intros F; apply cross_err; auto.
    - eexists. split; [reflexivity|]. intros F; apply cross_err; auto.
  Qed.
End FN.

(** Non-trivial cases (f64): 1, -2, 0.5 and a NaN. *)
Definition f64n (m : positive) (s : bool) (e : Z) : spec_float := SpecFloat.binary_round 53 1024 s m e.
Example C80_examples :
  let v := [f64n 1 false 0; f64n 1 true 1; f64n 1 false (-1)] in
  forallb (fun x => valid_binary 53 1024 x && finite x) v = true /\
  v_norm_l_inf f64 float_norm_l_inf v = Ok (f64n 1 false 1) /\ v_norm_l1 f64 float_norm_l1 v = Ok (f64n 7 false (-1)) /\
  v_max f64 v = Ok (f64n 1 false 0) /\ v_min f64 v = Ok (f64n 1 true 1) /\
  float_is_epsilon 53 (f64n 1 true (-52)) = true /\ float_is_epsilon 53 (f64n 1 false (-51)) = false /\ float_is_epsilon 53 S754_nan = false.
Proof. vm_compute. repeat split; reflexivity. Qed.

Print Assumptions C80_compare.
Print Assumptions C80_scalar.
Print Assumptions C80_is_epsilon.
Print Assumptions C80_max.
Print Assumptions C80_min.
Print Assumptions C80_norm_l_inf.
Print Assumptions C80_norm_l1.
Print Assumptions C74_quaternion_mul.
Print Assumptions C74_cross3.
