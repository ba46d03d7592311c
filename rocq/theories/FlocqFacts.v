(** Rounding facts about [SpecFloat]'s operations, from Flocq's correctness theorems. *)
From Coq Require Import ZArith Reals Lra Lia Psatz SpecFloat.
From Flocq Require Import Core BinarySingleNaN Relative Plus_error.
From Verif Require Import SpecRound.
Set Implicit Arguments.
Local Open Scope R_scope.

Section Fl.
  Context (prec emax : Z) (Hp : (0 < prec)%Z) (He : (prec < emax)%Z).
  Let HP : Prec_gt_0 prec := Hp.
  Let HE : Prec_lt_emax prec emax := He.
  Local Existing Instance HP.
  Local Existing Instance HE.
  Notation bf := (binary_float prec emax).
  Notation fexp := (SpecFloat.fexp prec emax).
  Notation rnd := (round radix2 fexp ZnearestE).
  Notation u := (roundoff prec).
  Notation eta := (half_tiny prec emax).

  Lemma round_ne_equiv s m l : round_nearest_even m l = choice_mode mode_NE s m l.
  Proof.
    case l; [reflexivity|intro c]. case c; [|reflexivity..]. now simpl; unfold Round.cond_incr; case Z.even.
  Qed.
  Lemma round_aux_equiv sx mx ex lx :
    SpecFloat.binary_round_aux prec emax sx mx ex lx = binary_round_aux prec emax mode_NE sx mx ex lx.
  Proof.
    unfold SpecFloat.binary_round_aux, binary_round_aux. set (mrse' := shr_fexp _ _ _ _ _). case mrse'; intros mrs' e'; simpl.
    now rewrite (round_ne_equiv sx).
  Qed.
  Lemma round_equiv s m e : SpecFloat.binary_round prec emax s m e = binary_round prec emax mode_NE s m e.
  Proof.
    unfold SpecFloat.binary_round, binary_round, shl_align_fexp. set (mez := shl_align _ _ _); case mez as [mz ez]. apply round_aux_equiv.
  Qed.
  Lemma normalize_equiv m e szero :
    SpecFloat.binary_normalize prec emax m e szero = B2SF (binary_normalize prec emax HP HE mode_NE m e szero).
  Proof.
    case m as [|p|p]; [now simpl|simpl; rewrite B2SF_SF2B; apply round_equiv..].
  Qed.
  Lemma mul_B (x y : bf) : SFmul prec emax (B2SF x) (B2SF y) = B2SF (Bmult mode_NE x y).
  Proof.
    case x as [sx|sx| |sx mx ex Bx]; case y as [sy|sy| |sy my ey By]; [now trivial..|]. simpl. rewrite B2SF_SF2B. apply round_aux_equiv.
  Qed.
  Lemma add_B (x y : bf) : SFadd prec emax (B2SF x) (B2SF y) = B2SF (Bplus mode_NE x y).
  Proof.
    case x as [sx|sx| |sx mx ex Bx]; case y as [sy|sy| |sy my ey By]; [now (trivial || simpl; case Bool.eqb)..|]. apply normalize_equiv.
  Qed.
  Lemma sub_B (x y : bf) : SFsub prec emax (B2SF x) (B2SF y) = B2SF (Bminus mode_NE x y).
  Proof.
    case x as [sx|sx| |sx mx ex Bx]; case y as [sy|sy| |sy my ey By]; [now (trivial || simpl; case Bool.eqb)..|].
    simpl. unfold Zminus. rewrite <- Zaux.cond_Zopp_negb. apply normalize_equiv.
  Qed.
  Lemma div_B (x y : bf) : SFdiv prec emax (B2SF x) (B2SF y) = B2SF (Bdiv mode_NE x y).
  Proof.
    case x as [sx|sx| |sx mx ex Bx]; case y as [sy|sy| |sy my ey By]; [now (trivial || simpl; case Bool.eqb)..|].
    simpl. rewrite B2SF_SF2B. set (melz := SFdiv_core_binary _ _ _ _ _ _). case melz as [[mz ez] lz]. apply round_aux_equiv.
  Qed.
  Lemma sqrt_B (x : bf) : SFsqrt prec emax (B2SF x) = B2SF (Bsqrt mode_NE x).
  Proof.
    case x as [sx|sx| |sx mx ex Bx]; [now (trivial || case sx)..|]. case sx; [reflexivity|]. simpl. rewrite B2SF_SF2B.
    set (melz := SFsqrt_core_binary _ _ _ _). case melz as [[mz ez] lz]. apply round_aux_equiv.
  Qed.
  Lemma opp_B (x : bf) : SFopp (B2SF x) = B2SF (Bopp x).
  Proof. now case x. Qed.

  Lemma lift (x : spec_float) : valid_binary prec emax x = true -> exists b : bf, B2SF b = x.
  Proof. intros H. exists (SF2B x H). apply B2SF_SF2B. Qed.
  Lemma finite_B (x : bf) : finite (B2SF x) = is_finite x. Proof. now case x. Qed.
  Lemma value_B (x : bf) : value (B2SF x) = B2R x.
  Proof.
    case x as [s|s| |s m e B]; simpl; auto. unfold F2R. simpl. rewrite bpow_powerRZ. f_equal. destruct s; simpl.
    - rewrite <- (Rmult_1_l (IZR (Z.neg m))). change (Z.neg m) with (- Z.pos m)%Z. rewrite opp_IZR. ring.
    - ring.
  Qed.

  Lemma u_bpow : u = / 2 * bpow radix2 (- prec + 1).
  Proof. unfold roundoff. rewrite bpow_plus, bpow_powerRZ. simpl. change (bpow radix2 1) with 2. lra. Qed.
  Lemma eta_bpow : eta = / 2 * bpow radix2 (SpecFloat.emin prec emax).
  Proof.
    unfold half_tiny, SpecFloat.emin. replace (3 - emax - prec)%Z with ((2 - emax - prec) + 1)%Z by lia. rewrite bpow_plus, bpow_powerRZ.
    change (bpow radix2 1) with 2. simpl. lra.
  Qed.
  Lemma mn_bpow : min_normal emax = bpow radix2 (SpecFloat.emin prec emax + prec - 1).
  Proof. unfold min_normal, SpecFloat.emin. rewrite bpow_powerRZ. f_equal. lia. Qed.
  Lemma u_pos : 0 < u. Proof. unfold roundoff. apply powerRZ_lt. lra. Qed.
  Lemma u_lt_1 : u < 1.
  Proof.
    unfold roundoff. change 2 with (IZR (radix_val radix2)). rewrite <- bpow_powerRZ. change 1 with (bpow radix2 0). apply bpow_lt. lia.
  Qed.
  Lemma eta_pos : 0 < eta. Proof. unfold half_tiny. apply powerRZ_lt. lra. Qed.

  (* one rounding to nearest *)
  Lemma rnd_rel : forall x, exists d h, Rabs d <= u /\ Rabs h <= eta /\ rnd x = x * (1 + d) + h /\ (x = 0 \/ min_normal emax <= Rabs x -> h = 0).
  Proof.
    intros x. destruct (Rle_or_lt (min_normal emax) (Rabs x)) as [H|H].
    - rewrite mn_bpow in H. destruct (@relative_error_N_FLT_ex radix2 (SpecFloat.emin prec emax) prec Hp (fun n => negb (Z.even n)) x H) as (d & Hd & E).
      exists d, 0. rewrite u_bpow. split; auto. rewrite Rabs_R0. pose proof eta_pos. split; [lra|]. split; auto. rewrite Rplus_0_r. exact E.
    - destruct (Req_dec x 0) as [->|Z].
      + exists 0, 0. rewrite Rabs_R0. pose proof eta_pos. pose proof u_pos. rewrite round_0 by (apply valid_rnd_N). repeat split; lra.
      + exists 0, (rnd x - x). rewrite Rabs_R0. pose proof u_pos. split; [lra|]. split; [|split; [ring|intros [?|?]; [tauto|lra]]].
        rewrite eta_bpow. eapply Rle_trans. apply error_le_half_ulp. apply (fexp_correct prec emax HP).
        apply Rmult_le_compat_l; [lra|]. rewrite mn_bpow in H.
        change (ulp radix2 (FLT_exp (SpecFloat.emin prec emax) prec) x <= bpow radix2 (SpecFloat.emin prec emax)).
        rewrite ulp_FLT_small; auto; [lra|].
        eapply Rlt_trans; [exact H|]. apply bpow_lt. lia.
  Qed.

  Notation valid := (valid_binary prec emax).
  Lemma valid_B (x : bf) : valid (B2SF x) = true. Proof. apply valid_binary_B2SF. Qed.

  Definition rel2 (f : R -> R -> R) (x y z : spec_float) : Prop := value z = rnd (f (value x) (value y)).

  Lemma mul_valid x y : valid x = true -> valid y = true -> valid (SFmul prec emax x y) = true.
  Proof. intros Hx Hy. destruct (lift _ Hx) as (a & <-), (lift _ Hy) as (b & <-). rewrite mul_B. apply valid_B. Qed.
  Lemma add_valid x y : valid x = true -> valid y = true -> valid (SFadd prec emax x y) = true.
  Proof. intros Hx Hy. destruct (lift _ Hx) as (a & <-), (lift _ Hy) as (b & <-). rewrite add_B. apply valid_B. Qed.
  Lemma sub_valid x y : valid x = true -> valid y = true -> valid (SFsub prec emax x y) = true.
  Proof. intros Hx Hy. destruct (lift _ Hx) as (a & <-), (lift _ Hy) as (b & <-). rewrite sub_B. apply valid_B. Qed.
  Lemma div_valid x y : valid x = true -> valid y = true -> valid (SFdiv prec emax x y) = true.
  Proof. intros Hx Hy. destruct (lift _ Hx) as (a & <-), (lift _ Hy) as (b & <-). rewrite div_B. apply valid_B. Qed.
  Lemma sqrt_valid x : valid x = true -> valid (SFsqrt prec emax x) = true.
  Proof. intros Hx. destruct (lift _ Hx) as (a & <-). rewrite sqrt_B. apply valid_B. Qed.
  Lemma opp_valid x : valid x = true -> valid (SFopp x) = true.
  Proof. intros Hx. destruct (lift _ Hx) as (a & <-). rewrite opp_B. apply valid_B. Qed.
  Lemma opp_value x : value (SFopp x) = - value x /\ finite (SFopp x) = finite x.
  Proof. destruct x as [s|s| |s m e]; cbn; split; try reflexivity; try lra. destruct s; cbn; ring. Qed.

  (* infinities and NaN never become finite again *)
  Lemma mul_fin x y : finite (SFmul prec emax x y) = true -> finite x = true /\ finite y = true.
  Proof. destruct x as [[]|[]| |[] m e], y as [[]|[]| |[] m' e']; cbn; auto; discriminate. Qed.
  Lemma add_fin x y : finite (SFadd prec emax x y) = true -> finite x = true /\ finite y = true.
  Proof. destruct x as [[]|[]| |[] m e], y as [[]|[]| |[] m' e']; cbn; auto; discriminate. Qed.
  Lemma sub_fin x y : finite (SFsub prec emax x y) = true -> finite x = true /\ finite y = true.
  Proof. destruct x as [[]|[]| |[] m e], y as [[]|[]| |[] m' e']; cbn; auto; discriminate. Qed.

  Lemma over_inf m s : finite (binary_overflow prec emax m s) = true -> overflow_to_inf m s = false.
  Proof. unfold binary_overflow. destruct (overflow_to_inf m s); auto. Qed.

  Lemma mul_round x y : valid x = true -> valid y = true -> finite (SFmul prec emax x y) = true ->
    value (SFmul prec emax x y) = rnd (value x * value y).
  Proof.
    intros Hx Hy. destruct (lift _ Hx) as (a & <-), (lift _ Hy) as (b & <-). rewrite mul_B, finite_B, !value_B. intros F.
    pose proof (Bmult_correct prec emax _ _ mode_NE a b) as H. destruct (Rlt_bool _ _); [apply H|].
    exfalso. rewrite <- finite_B, H in F. apply over_inf in F. discriminate.
  Qed.
  Lemma add_round x y : valid x = true -> valid y = true -> finite (SFadd prec emax x y) = true ->
    value (SFadd prec emax x y) = rnd (value x + value y).
  Proof.
    intros Hx Hy F. destruct (add_fin _ _ F) as (Fx & Fy). revert F. destruct (lift _ Hx) as (a & <-), (lift _ Hy) as (b & <-).
    rewrite finite_B in Fx, Fy. rewrite add_B, finite_B, !value_B. intros F.
    pose proof (Bplus_correct prec emax _ _ mode_NE a b Fx Fy) as H. destruct (Rlt_bool _ _); [apply H|].
    exfalso. rewrite <- finite_B, (proj1 H) in F. apply over_inf in F. discriminate.
  Qed.
  Lemma sub_round x y : valid x = true -> valid y = true -> finite (SFsub prec emax x y) = true ->
    value (SFsub prec emax x y) = rnd (value x - value y).
  Proof.
    intros Hx Hy F. destruct (sub_fin _ _ F) as (Fx & Fy). revert F. destruct (lift _ Hx) as (a & <-), (lift _ Hy) as (b & <-).
    rewrite finite_B in Fx, Fy. rewrite sub_B, finite_B, !value_B. intros F.
    pose proof (Bminus_correct prec emax _ _ mode_NE a b Fx Fy) as H. destruct (Rlt_bool _ _); [apply H|].
    exfalso. rewrite <- finite_B, (proj1 H) in F. apply over_inf in F. discriminate.
  Qed.
  Lemma div_round x y : valid x = true -> valid y = true -> finite x = true -> finite y = true -> value y <> 0 -> finite (SFdiv prec emax x y) = true ->
    value (SFdiv prec emax x y) = rnd (value x / value y).
  Proof.
    intros Hx Hy. destruct (lift _ Hx) as (a & <-), (lift _ Hy) as (b & <-). rewrite div_B, !finite_B, !value_B. intros Fx Fy Z F.
    pose proof (Bdiv_correct prec emax _ _ mode_NE a b Z) as H. destruct (Rlt_bool _ _); [apply H|].
    exfalso. rewrite <- finite_B, H in F. apply over_inf in F. discriminate.
  Qed.
  Lemma sqrt_round x : valid x = true -> finite x = true -> 0 <= value x ->
    finite (SFsqrt prec emax x) = true /\ value (SFsqrt prec emax x) = rnd (sqrt (value x)).
  Proof.
    intros Hx. destruct (lift _ Hx) as (a & <-). rewrite sqrt_B, !finite_B, !value_B. intros Fx P.
    pose proof (Bsqrt_correct prec emax _ _ mode_NE a) as (H1 & H2 & _). split; [|exact H1]. rewrite H2.
    destruct a as [| | |[] m e B]; auto. exfalso. cbn in P. unfold F2R in P. cbn in P.
    pose proof (bpow_gt_0 radix2 e) as Q. assert (IZR (Z.neg m) < 0) by (apply IZR_lt; lia). nra.
  Qed.
  Lemma fmt x : valid x = true -> generic_format radix2 fexp (value x).
  Proof. intros Hx. destruct (lift _ Hx) as (a & <-). rewrite value_B. apply generic_format_B2R. Qed.

  (* the standard model *)
  Lemma mul_err x y : valid x = true -> valid y = true -> finite (SFmul prec emax x y) = true ->
    exists d h, Rabs d <= u /\ Rabs h <= eta /\ value (SFmul prec emax x y) = value x * value y * (1 + d) + h /\
      (value x * value y = 0 \/ min_normal emax <= Rabs (value x * value y) -> h = 0).
  Proof. intros Hx Hy F. rewrite mul_round by auto. apply rnd_rel. Qed.
  Lemma rnd_add_err a b : generic_format radix2 fexp a -> generic_format radix2 fexp b ->
    exists d, Rabs d <= u /\ rnd (a + b) = (a + b) * (1 + d).
  Proof.
    intros Ga Gb. destruct (@FLT_plus_error_N_ex radix2 (SpecFloat.emin prec emax) prec Hp (fun n => negb (Z.even n)) a b Ga Gb) as (d & Hd & E).
    exists d. split; [|exact E]. eapply Rle_trans; [exact Hd|]. rewrite u_bpow. apply u_rod1pu_ro_le_u_ro.
  Qed.
  Lemma add_err x y : valid x = true -> valid y = true -> finite (SFadd prec emax x y) = true ->
    exists d, Rabs d <= u /\ value (SFadd prec emax x y) = (value x + value y) * (1 + d).
  Proof. intros Hx Hy F. rewrite add_round by auto. apply rnd_add_err; apply fmt; auto. Qed.
  Lemma sub_err x y : valid x = true -> valid y = true -> finite (SFsub prec emax x y) = true ->
    exists d, Rabs d <= u /\ value (SFsub prec emax x y) = (value x - value y) * (1 + d).
  Proof.
    intros Hx Hy F. rewrite sub_round by auto. apply (@rnd_add_err (value x) (- value y)); [apply fmt; auto|]. apply generic_format_opp, fmt; auto.
  Qed.
  Lemma div_err x y : valid x = true -> valid y = true -> finite x = true -> finite y = true -> value y <> 0 -> finite (SFdiv prec emax x y) = true ->
    exists d h, Rabs d <= u /\ Rabs h <= eta /\ value (SFdiv prec emax x y) = value x / value y * (1 + d) + h /\
      (value x / value y = 0 \/ min_normal emax <= Rabs (value x / value y) -> h = 0).
  Proof. intros. rewrite div_round by auto. apply rnd_rel. Qed.

  (* square roots do not underflow *)
  Lemma pos_ge x : valid x = true -> finite x = true -> 0 < value x -> bpow radix2 (SpecFloat.emin prec emax) <= value x.
  Proof.
    destruct x as [s|s| |s m e]; cbn; intros V F P; try lra. apply andb_prop in V as (V & _).
    unfold canonical_mantissa in V. apply Zeq_bool_eq in V. unfold SpecFloat.fexp in V.
    assert (Q : 0 < powerRZ 2 e) by (apply powerRZ_lt; lra). assert (M : 1 <= IZR (Z.pos m)) by (apply IZR_le; lia).
    destruct s; [exfalso; nra|]. apply Rle_trans with (powerRZ 2 e); [|nra].
    change 2 with (IZR (radix_val radix2)). rewrite <- bpow_powerRZ. apply bpow_le. lia.
  Qed.
  Lemma sqrt_err x : valid x = true -> finite x = true -> 0 <= value x ->
    finite (SFsqrt prec emax x) = true /\ exists d, Rabs d <= u /\ value (SFsqrt prec emax x) = sqrt (value x) * (1 + d).
  Proof.
    intros V F P. destruct (sqrt_round _ V F P) as (F1 & E). split; auto. rewrite E.
    destruct (rnd_rel (sqrt (value x))) as (d & h & Hd & _ & E1 & Hh). exists d. split; auto. rewrite E1, Hh; [ring|].
    destruct (Req_dec (value x) 0) as [->|N]; [left; apply sqrt_0|right].
    pose proof (pos_ge _ V F ltac:(lra)) as G. rewrite Rabs_pos_eq by apply sqrt_pos.
    rewrite mn_bpow. rewrite <- (sqrt_Rsqr (bpow radix2 _)) by apply bpow_ge_0. apply sqrt_le_1_alt.
    eapply Rle_trans; [|exact G]. unfold Rsqr. rewrite <- bpow_plus. apply bpow_le. unfold SpecFloat.emin. lia.
  Qed.

  (* small integers *)
  Lemma int_fmt n : (Z.abs n <= 2 ^ prec)%Z -> generic_format radix2 fexp (IZR n).
  Proof.
    intros H. assert (E : (SpecFloat.emin prec emax <= 0)%Z) by (unfold SpecFloat.emin; lia).
    destruct (Z.eq_dec (Z.abs n) (2 ^ prec)) as [Q|Q].
    - assert (G : generic_format radix2 fexp (bpow radix2 prec)).
      { apply generic_format_bpow. unfold SpecFloat.fexp, SpecFloat.emin in *. lia. }
      assert (B : bpow radix2 prec = IZR (2 ^ prec)). { symmetry. apply (IZR_Zpower radix2 prec). lia. }
      destruct (Zabs_spec n) as [[? A]|[? A]]; rewrite A in Q.
      + rewrite Q, <- B. exact G.
      + replace n with (- (2 ^ prec))%Z by lia. rewrite opp_IZR, <- B. apply generic_format_opp. exact G.
    - apply (@generic_format_FLT radix2 (SpecFloat.emin prec emax) prec). exists (Float radix2 n 0); cbn.
      + unfold F2R. cbn. ring.
      + lia.
      + exact E.
  Qed.
  Lemma int_lt n : (Z.abs n <= 2 ^ prec)%Z -> Rabs (IZR n) < bpow radix2 emax.
  Proof.
    intros H. rewrite <- abs_IZR. apply Rle_lt_trans with (bpow radix2 prec).
    - rewrite <- (IZR_Zpower radix2 prec) by lia. apply IZR_le. exact H.
    - apply bpow_lt. lia.
  Qed.
  Lemma mul_int x y n : valid x = true -> valid y = true -> finite x = true -> finite y = true ->
    value x * value y = IZR n -> (Z.abs n <= 2 ^ prec)%Z ->
    finite (SFmul prec emax x y) = true /\ value (SFmul prec emax x y) = IZR n.
  Proof.
    intros Hx Hy. destruct (lift _ Hx) as (a & <-), (lift _ Hy) as (b & <-). rewrite mul_B, !finite_B, !value_B. intros Fx Fy E Hn.
    pose proof (Bmult_correct prec emax _ _ mode_NE a b) as H. rewrite E in H. cbn [round_mode] in H. rewrite round_generic in H; [|apply valid_rnd_N|apply int_fmt; auto].
    rewrite Rlt_bool_true in H by (apply int_lt; auto). destruct H as (H1 & H2 & _). rewrite H2, Fx, Fy. auto.
  Qed.
  Lemma add_int x y n : valid x = true -> valid y = true -> finite x = true -> finite y = true ->
    value x + value y = IZR n -> (Z.abs n <= 2 ^ prec)%Z ->
    finite (SFadd prec emax x y) = true /\ value (SFadd prec emax x y) = IZR n.
  Proof.
    intros Hx Hy. destruct (lift _ Hx) as (a & <-), (lift _ Hy) as (b & <-). rewrite add_B, !finite_B, !value_B. intros Fx Fy E Hn.
    pose proof (Bplus_correct prec emax _ _ mode_NE a b Fx Fy) as H. rewrite E in H. cbn [round_mode] in H. rewrite round_generic in H; [|apply valid_rnd_N|apply int_fmt; auto].
    rewrite Rlt_bool_true in H by (apply int_lt; auto). destruct H as (H1 & H2 & _). auto.
  Qed.
  Lemma sub_int x y n : valid x = true -> valid y = true -> finite x = true -> finite y = true ->
    value x - value y = IZR n -> (Z.abs n <= 2 ^ prec)%Z ->
    finite (SFsub prec emax x y) = true /\ value (SFsub prec emax x y) = IZR n.
  Proof.
    intros Hx Hy. destruct (lift _ Hx) as (a & <-), (lift _ Hy) as (b & <-). rewrite sub_B, !finite_B, !value_B. intros Fx Fy E Hn.
    pose proof (Bminus_correct prec emax _ _ mode_NE a b Fx Fy) as H. rewrite E in H. cbn [round_mode] in H. rewrite round_generic in H; [|apply valid_rnd_N|apply int_fmt; auto].
    rewrite Rlt_bool_true in H by (apply int_lt; auto). destruct H as (H1 & H2 & _). auto.
  Qed.
End Fl.
