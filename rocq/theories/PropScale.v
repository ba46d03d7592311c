(** C114: changes of units.  (The list of theorems, one per operation of the API, was produced by tools/gen_scale.py; every
    statement is spelled out here.) *)
From Coq Require Import ZArith Reals Lra Lia Psatz SpecFloat.
From Flocq Require Import Core BinarySingleNaN Plus_error.
From Verif Require Import SpecFacts VFacts MFacts MatProofs AlgFacts SquareModel SpecDet DetFacts SqProofs MoebiusModel TransformModel MathModel SpecMachine RealInst FloatInst SpecRound FlocqFacts PropFloat RelFacts PropRel PropOrder PropRound PropExact PropFNorm SpecFRange PropFRange SpecScale.
Set Implicit Arguments.
Local Open Scope list_scope.

(* ------------------------------------------------------------------------- *)
(** * Fields                                                                    *)
Section Fi.
  Context {T G : Type} {o : Ops T} (F : Field o) (u : units G) (k : G -> T) (K : change F u k).
  Add Field F114 : (Field_theory F).
  Local Notation "0" := (o_zero o).
  Local Notation sc := (scaled F k).
  Lemma k_neq : forall g, k g <> 0.
  Proof.
    intros g E. pose proof (ch_inv K g) as H. rewrite E in H. apply (f_one_neq_zero F). rewrite <- H. ring.
  Qed.
  Lemma k_inv : forall g, k (u_inv u g) = f_inv F (k g).
  Proof.
    intros g. pose proof (@k_neq g) as N. pose proof (f_inv_l F N) as I. pose proof (ch_inv K g) as H.
    transitivity (r_mul F (k (u_inv u g)) (r_mul F (f_inv F (k g)) (k g))); [rewrite I; ring|].
    transitivity (r_mul F (f_inv F (k g)) (r_mul F (k (u_inv u g)) (k g))); [ring|]. rewrite H. ring.
  Qed.
  Lemma common_sc : forall a b g x y x' y', common u a b = Ok g -> sc (x, a) x' -> sc (y, b) y' ->
    sc (r_add F x y, g) (r_add F x' y') /\ sc (r_sub F x y, g) (r_sub F x' y').
  Proof.
    intros [a|] [b|] g x y x' y' E; cbn in E.
    - destruct (u_same u a b) eqn:S; [|discriminate]. apply Ok_inj in E. subst g. apply (ch_same K) in S. unfold scaled. cbn. intros -> ->. rewrite S. split; ring.
    - apply Ok_inj in E. subst g. unfold scaled. cbn. intros -> (-> & ->). split; ring.
    - apply Ok_inj in E. subst g. unfold scaled. cbn. intros (-> & ->) ->. split; ring.
    - apply Ok_inj in E. subst g. unfold scaled. cbn. intros (-> & ->) (-> & ->). repeat split; ring.
  Qed.
  Lemma times_sc : forall a b x y x' y', sc (x, a) x' -> sc (y, b) y' -> sc (r_mul F x y, times u a b) (r_mul F x' y').
  Proof.
    intros [a|] [b|] x y x' y'; unfold scaled; cbn.
    - intros -> ->. rewrite (ch_mul K). ring.
    - intros -> (-> & ->). split; ring.
    - intros (-> & ->) ->. split; ring.
    - intros (-> & ->) (-> & ->). split; ring.
  Qed.
  Lemma unit_rel : OpsRel false sc (unit_ops o u) o.
  Proof.
    constructor.
    - unfold scaled. cbn. auto.
    - unfold scaled. cbn. rewrite (ch_one K). ring.
    - intros [x a] x' [y b] y' H1 H2. cbn [o_add unit_ops fst snd]. destruct (common u a b) as [g| | |] eqn:E; cbn [bind]; rewrite ?(r_add_ok F); cbn; auto.
      apply (@common_sc a b g x y _ _ E H1 H2).
    - intros [x a] x' [y b] y' H1 H2. cbn [o_sub unit_ops fst snd]. destruct (common u a b) as [g| | |] eqn:E; cbn [bind]; rewrite ?(r_sub_ok F); cbn; auto.
      apply (@common_sc a b g x y _ _ E H1 H2).
    - intros [x a] x' [y b] y' H1 H2. cbn [o_mul unit_ops fst snd]. rewrite !(r_mul_ok F). apply times_sc; auto.
    - intros [x a] x' H. cbn [o_neg unit_ops fst snd]. rewrite !(r_neg_ok F). destruct a; unfold scaled in *; cbn in *.
      + subst x'. ring.
      + destruct H as (-> & ->). split; ring.
  Qed.
  Lemma unit_divrel : (forall x, o_is_zero o x = false -> x <> 0) -> DivRel false sc (unit_ops o u) o.
  Proof.
    intros Z [x a] x' [y b] y' H1 H2. cbn [o_div unit_ops fst snd]. destruct b as [h|]; [|cbn; destruct (o_div o x' y'); auto].
    destruct (o_is_zero o y) eqn:E; [cbn; destruct (o_div o x' y'); auto|]. apply Z in E. unfold scaled in H2. cbn in H2. subst y'.
    assert (N : r_mul F (k h) y <> 0).
    { intros Q. apply E. transitivity (r_mul F (f_inv F (k h)) (r_mul F (k h) y)); [|rewrite Q; ring].
      transitivity (r_mul F (r_mul F (f_inv F (k h)) (k h)) y); [rewrite (f_inv_l F (@k_neq h)); ring|ring]. }
    rewrite !(f_div_ok F) by auto. cbn [bind]. change (scaled F k (r_mul F x (f_inv F y), times u a (Some (u_inv u h))) (r_mul F x' (f_inv F (r_mul F (k h) y)))).
    apply times_sc; auto. unfold scaled. cbn. rewrite k_inv. field. split; auto. apply k_neq.
  Qed.
End Fi.

(** Dropping the units gives the ordinary operations. *)
Lemma bare_unit_rel : forall T G (o : Ops T) (u : units G), OpsRel false bare (unit_ops o u) o.
Proof.
  intros. constructor; unfold bare; cbn; auto.
  - intros [x a] ? [y b] ? <- <-. cbn. destruct (common u a b); cbn; [|destruct (o_add o x y); auto..]. destruct (o_add o x y); cbn; auto.
  - intros [x a] ? [y b] ? <- <-. cbn. destruct (common u a b); cbn; [|destruct (o_sub o x y); auto..]. destruct (o_sub o x y); cbn; auto.
  - intros [x a] ? [y b] ? <- <-. cbn. destruct (o_mul o x y); cbn; auto.
  - intros [x a] ? <-. cbn. destruct (o_neg o x); cbn; auto.
Qed.
Lemma bare_unit_divrel : forall T G (o : Ops T) (u : units G), DivRel false bare (unit_ops o u) o.
Proof.
  unfold DivRel, bare. intros T G o u [x a] ? [y b] ? <- <-. cbn. destruct b; [|cbn; destruct (o_div o x y); auto]. destruct (o_is_zero o y); [cbn; destruct (o_div o x y); auto|].
  destruct (o_div o x y); cbn; auto.
Qed.
Lemma bare_scale_rel : forall prec emax rem, OpsRel false bare (scale_ops prec emax) (sf_ops prec emax rem).
Proof.
  intros. constructor; unfold bare; cbn; auto.
  - intros [x a] ? [y b] ? <- <-. cbn. destruct (common z_units a b); cbn; auto. unfold keep. destruct (_ && _)%bool; cbn; auto.
  - intros [x a] ? [y b] ? <- <-. cbn. destruct (common z_units a b); cbn; auto. unfold keep. destruct (_ && _)%bool; cbn; auto.
  - intros [x a] ? [y b] ? <- <-. cbn. unfold keep. destruct (_ || _)%bool; cbn; auto.
  - intros [x a] ? <-. cbn. auto.
Qed.
Lemma bare_scale_divrel : forall prec emax rem, DivRel false bare (scale_ops prec emax) (sf_ops prec emax rem).
Proof.
  unfold DivRel, bare. intros prec emax rem [x a] ? [y b] ? <- <-. cbn. destruct b; [|cbn; auto]. destruct (zero_float y); [cbn; auto|]. unfold keep. destruct (_ || _)%bool; cbn; auto.
Qed.

(* ------------------------------------------------------------------------- *)
(** * Floats                                                                    *)
Local Open Scope R_scope.
Section FlS.
  Context (prec emax : Z) (rem : spec_float -> spec_float -> spec_float) (Hp : (0 < prec)%Z) (He : (prec < emax)%Z).
  Local Notation fo := (sf_ops prec emax rem).
  Local Notation fexp := (SpecFloat.fexp prec emax).
  Local Notation rnd := (round radix2 fexp ZnearestE).
  Local Notation number := (number_of prec emax).
  Local Notation emin := (SpecFloat.emin prec emax).
  Local Notation xrnd := (round radix2 (FLX_exp prec) ZnearestE).
  Local Notation bp := (bpow radix2).
  Local Notation small := (bp (emin + prec - 1)).
  Local Instance vexpS : Valid_exp fexp. Proof. apply (@fexp_correct prec emax Hp). Qed.
  Local Instance precS : Prec_gt_0 prec := Hp.

  Lemma xrnd_scale : forall x e, xrnd (bp e * x) = bp e * xrnd x.
  Proof.
    intros x e. destruct (Req_dec x 0) as [->|N]. { rewrite Rmult_0_r, round_0 by apply valid_rnd_N. ring. }
    unfold round, scaled_mantissa, cexp, FLX_exp. rewrite (Rmult_comm (bp e) x), mag_mult_bpow by auto.
    replace (x * bp e * bp (- (mag radix2 x + e - prec)))%R with (x * bp (- (mag radix2 x - prec)))%R.
    2:{ rewrite Rmult_assoc, <- bpow_plus. do 2 f_equal. lia. }
    unfold F2R. cbn [Fnum Fexp]. replace (mag radix2 x + e - prec)%Z with (mag radix2 x - prec + e)%Z by lia. rewrite bpow_plus. ring.
  Qed.
  Lemma rnd_x : forall x, small <= Rabs x -> rnd x = xrnd x.
  Proof. intros. apply (@round_FLT_FLX radix2 emin prec). auto. Qed.
  Lemma small_fmt : generic_format radix2 fexp small.
  Proof. apply generic_format_bpow. unfold SpecFloat.fexp. lia. Qed.
  Lemma small_xfmt : generic_format radix2 (FLX_exp prec) small.
  Proof. apply generic_format_bpow. unfold FLX_exp. lia. Qed.
  Lemma rnd_small : forall x, small < Rabs (rnd x) -> small <= Rabs x.
  Proof.
    intros x H. destruct (Rle_lt_dec small (Rabs x)) as [|L]; auto. exfalso.
    assert (Rabs (rnd x) <= small); [|lra]. apply abs_round_le_generic; auto using small_fmt with typeclass_instances. lra.
  Qed.
  Lemma xrnd_small : forall x, small < Rabs (xrnd x) -> small <= Rabs x.
  Proof.
    intros x H. destruct (Rle_lt_dec small (Rabs x)) as [|L]; auto. exfalso.
    assert (Rabs (xrnd x) <= small); [|lra]. apply abs_round_le_generic; auto using small_xfmt with typeclass_instances. lra.
  Qed.
  (** Far enough from the subnormal numbers, rounding commutes with powers of two. *)
  Lemma rnd_scale_far : forall x e, small < Rabs (rnd x) -> small < Rabs (bp e * rnd x) -> rnd (bp e * x) = bp e * rnd x.
  Proof.
    intros x e H1 H2. pose proof (rnd_small _ H1) as S. rewrite (@rnd_x _ S) in *. rewrite <- xrnd_scale in H2.
    pose proof (xrnd_small _ H2) as S2. rewrite (@rnd_x _ S2). apply xrnd_scale.
  Qed.
  (** So do sums, everywhere: small sums are exact. *)
  Lemma plus_small : forall x y, generic_format radix2 fexp x -> generic_format radix2 fexp y -> Rabs (x + y) < small -> generic_format radix2 fexp (x + y).
  Proof.
    intros x y Fx Fy H. apply (@FLT_format_plus_small radix2 emin prec); auto. apply Rlt_le. eapply Rlt_le_trans; [exact H|]. apply bpow_le. lia.
  Qed.
  Lemma fmt_up : forall x e, (0 <= e)%Z -> generic_format radix2 fexp x -> generic_format radix2 fexp (bp e * x).
  Proof.
    intros x e H Fx. destruct (Req_dec x 0) as [->|N]. { rewrite Rmult_0_r. apply generic_format_0. }
    rewrite Rmult_comm. apply (FLT_format_generic radix2 emin prec) in Fx. destruct Fx as [[m x'] E L1 L2]. cbn in *. apply (generic_format_FLT radix2 emin prec).
    exists (Float radix2 m (x' + e)); cbn; auto.
    - rewrite E. unfold F2R. cbn. rewrite bpow_plus. ring.
    - lia.
  Qed.
  Lemma rnd_scale_plus : forall x y e, generic_format radix2 fexp x -> generic_format radix2 fexp y ->
    generic_format radix2 fexp (bp e * x) -> generic_format radix2 fexp (bp e * y) -> rnd (bp e * (x + y)) = bp e * rnd (x + y).
  Proof.
    intros x y e Fx Fy Gx Gy. destruct (Rlt_le_dec (Rabs (x + y)) small) as [S|S].
    - pose proof (plus_small Fx Fy S) as Fs. rewrite (rnd_id Fs). apply rnd_id.
      destruct (Z_le_gt_dec 0 e) as [P|P]. { apply fmt_up; auto. }
      rewrite Rmult_plus_distr_l. apply plus_small; auto. rewrite <- Rmult_plus_distr_l, Rabs_mult, (Rabs_pos_eq (bp e)) by apply bpow_ge_0.
      assert (bp e <= 1). { change 1 with (bp 0). apply bpow_le. lia. } pose proof (bpow_gt_0 radix2 e). pose proof (Rabs_pos (x + y)). nra.
    - destruct (Rlt_le_dec (Rabs (bp e * (x + y))) small) as [S'|S'].
      + assert (Fs : generic_format radix2 fexp (bp e * (x + y))). { rewrite Rmult_plus_distr_l in *. apply plus_small; auto. }
        rewrite (rnd_id Fs). f_equal. symmetry. apply rnd_id.
        assert (P : (e < 0)%Z).
        { destruct (Z_lt_le_dec e 0); auto. exfalso. rewrite Rabs_mult, (Rabs_pos_eq (bp e)) in S' by apply bpow_ge_0.
          assert (1 <= bp e). { change 1 with (bp 0). apply bpow_le. lia. } pose proof (Rabs_pos (x + y)). nra. }
        replace (x + y) with (bp (- e) * (bp e * (x + y))). { apply fmt_up; auto. lia. }
        rewrite <- Rmult_assoc, <- bpow_plus. replace (- e + e)%Z with 0%Z by lia. cbn. ring.
      + rewrite !rnd_x by auto. apply xrnd_scale.
  Qed.

  Local Notation pw := (@PropFRange.pw).
  Lemma zero_value : forall x, number x -> (zero_float x = true <-> value x = 0).
  Proof.
    intros [s|s| |s m e] (V & F); try discriminate; cbn; split; auto; try discriminate. intros Z. exfalso.
    pose proof (powerRZ_lt 2 e ltac:(lra)). assert (1 <= IZR (Z.pos m)) by (apply IZR_le; lia). destruct s; nra.
  Qed.
  Lemma bound_value : forall x e, number x -> no_overflow emax e x = true -> Rabs (bp e * value x) < bp emax.
  Proof.
    intros [s|s| |s m x] e N H; try discriminate. { cbn. rewrite Rmult_0_r, Rabs_R0. apply bpow_gt_0. }
    cbn [no_overflow] in H. apply Z.leb_le in H. pose proof N as (V & _). destruct (lift _ _ _ V) as (a & Ea). rewrite <- Ea, value_B.
    destruct a as [| | |s' m' e' B]; try discriminate Ea. cbn in Ea. injection Ea as -> -> ->. cbn [B2R].
    rewrite Rabs_mult, (Rabs_pos_eq (bp e)) by apply bpow_ge_0. rewrite <- F2R_Zabs, abs_cond_Zopp. cbn [Z.abs].
    apply Rlt_le_trans with (bp e * bp (Z.pos (digits2_pos m) + x)).
    - apply Rmult_lt_compat_l; [apply bpow_gt_0|]. rewrite Digits.Zpos_digits2_pos. rewrite bpow_plus. unfold F2R. cbn [Fnum Fexp].
      apply Rmult_lt_compat_r; [apply bpow_gt_0|]. pose proof (Digits.Zdigits_correct radix2 (Z.pos m)) as (_ & Q). rewrite <- IZR_Zpower by apply Digits.Zdigits_ge_0. apply IZR_lt. exact Q.
    - rewrite <- bpow_plus. apply bpow_le. lia.
  Qed.
  Lemma far_value : forall z e, number z -> no_underflow prec emax e z = true -> small < Rabs (value z) /\ small < Rabs (bp e * value z).
  Proof.
    intros [s|s| |s m x] e N H; try discriminate. cbn [no_underflow] in H. apply andb_prop in H as (H1 & H2). apply Z.ltb_lt in H1, H2.
    pose proof N as (V & _). cbn [valid_binary] in V. unfold bounded in V. apply andb_prop in V as (C & _). unfold canonical_mantissa in C.
    apply Zeq_bool_eq in C. unfold SpecFloat.fexp, SpecFloat.emin in C.
    assert (D : Z.pos (digits2_pos m) = prec) by lia. clear C.
    assert (L : bp (prec - 1 + x) <= Rabs (value (S754_finite s m x))).
    { pose proof N as (V & _). destruct (lift _ _ _ V) as (a & Ea). rewrite <- Ea, value_B.
      destruct a as [| | |s' m' e' B]; try discriminate Ea. cbn in Ea. injection Ea as -> -> ->. cbn [B2R].
      rewrite <- F2R_Zabs, abs_cond_Zopp. cbn [Z.abs]. rewrite Digits.Zpos_digits2_pos in D. pose proof (Digits.Zdigits_correct radix2 (Z.pos m)) as (Q & _).
      rewrite D in Q. unfold F2R. cbn [Fnum Fexp]. rewrite bpow_plus. apply Rmult_le_compat_r; [apply bpow_ge_0|]. rewrite <- IZR_Zpower by lia. apply IZR_le. exact Q. }
    split.
    - eapply Rlt_le_trans; [|exact L]. apply bpow_lt. unfold SpecFloat.emin. lia.
    - rewrite Rabs_mult, (Rabs_pos_eq (bp e)) by apply bpow_ge_0. apply Rlt_le_trans with (bp e * bp (prec - 1 + x)).
      + rewrite <- bpow_plus. apply bpow_lt. unfold SpecFloat.emin. lia.
      + apply Rmult_le_compat_l; auto. apply bpow_ge_0.
  Qed.
  Local Notation sh := (shifted prec emax).
  Local Notation rs := (rescaled prec emax).
  Lemma rs_sh : forall x a y, rs (x, a) y -> sh (expo a) x y.
  Proof.
    intros x [e|] y; unfold rescaled; cbn [snd fst expo]; auto. intros (N1 & N2 & V1 & V2). split; auto. split; auto. rewrite V1, V2. ring.
  Qed.
  Lemma rs_value : forall x a y, rs (x, a) y -> value y = bp (expo a) * value x.
  Proof. intros x a y H. apply rs_sh in H as (_ & _ & E). rewrite pw in E. exact E. Qed.
  Arguments rs_value {x a y} _.
  Lemma rs_none : forall x y, rs (x, None) y -> value x = 0 /\ value y = 0.
  Proof. intros x y (_ & _ & E1 & E2). auto. Qed.
  Arguments rs_none {x y} _.
  Lemma common_cases : forall a b g x y x' y', common z_units a b = Ok g -> rs (x, a) x' -> rs (y, b) y' ->
    value x' = bp (expo g) * value x /\ value y' = bp (expo g) * value y /\ (g = None -> value x = 0 /\ value y = 0).
  Proof.
    intros [a|] [b|] g x y x' y' E H1 H2; cbn in E.
    - destruct (a =? b)%Z eqn:S; [|discriminate]. apply Z.eqb_eq in S. subst b. apply Ok_inj in E. subst g. split; [|split]; [apply (rs_value H1)|apply (rs_value H2)|discriminate].
    - apply Ok_inj in E. subst g. split; [apply (rs_value H1)|]. split; [|discriminate]. destruct (rs_none H2) as (-> & ->). ring.
    - apply Ok_inj in E. subst g. split; [|split; [apply (rs_value H2)|discriminate]]. destruct (rs_none H1) as (-> & ->). ring.
    - apply Ok_inj in E. subst g. split; [apply (rs_value H1)|]. split; [apply (rs_value H2)|]. intros _. destruct (rs_none H1) as (-> & _), (rs_none H2) as (-> & _). auto.
  Qed.
  Arguments common_cases a b {g x y x' y'} _ _ _.
  Lemma rs_numbers : forall x a y, rs (x, a) y -> number x /\ number y.
  Proof. intros x a y H. apply rs_sh in H as (? & ? & _). auto. Qed.
  Arguments rs_numbers {x a y} _.
  Lemma rs_intro : forall z g z', number z -> number z' -> value z' = bp (expo g) * value z -> (g = None -> value z = 0) -> rs (z, g) z'.
  Proof.
    intros z [e|] z' N N' V H; unfold rescaled; cbn [fst snd] in *.
    - split; auto. split; auto. rewrite pw. exact V.
    - specialize (H eq_refl). rewrite H in V. rewrite Rmult_0_r in V. auto.
  Qed.
  Lemma rnd_bound : forall z e, number z -> no_overflow emax e z = true -> Rabs (bp e * value z) < bp emax.
  Proof. exact bound_value. Qed.
  Lemma scale_add : forall add sub_ (g : R -> R -> R),
    (forall x y, number x -> number y -> finite (add x y) = true -> number (add x y) /\ value (add x y) = rnd (g (value x) (value y))) ->
    (forall x y, number x -> number y -> Rabs (rnd (g (value x) (value y))) < bp emax -> number (add x y) /\ value (add x y) = rnd (g (value x) (value y))) ->
    (forall t x y, g (t * x) (t * y) = t * g x y) -> (forall x y, g x y = x + sub_ y) -> (forall y, generic_format radix2 fexp y -> generic_format radix2 fexp (sub_ y)) ->
    (forall t y, sub_ (t * y) = t * sub_ y) ->
    forall x a x' y b y' , rs (x, a) x' -> rs (y, b) y' ->
    rrel false rs (let! c := common z_units a b in let z := add x y in keep (finite z && no_overflow emax (expo c) z)%bool z c) (Ok (add x' y')).
  Proof.
    intros add sub_ g A1 A2 G1 G2 G3 G4 x a x' y b y' H1 H2. destruct (common z_units a b) as [c| | |] eqn:E; cbn [bind]; [|cbn; auto..].
    cbv zeta. unfold keep. destruct (_ && _)%bool eqn:B; [|cbn; auto]. apply andb_prop in B as (B1 & B2).
    destruct (common_cases a b E H1 H2) as (V1 & V2 & Z). destruct (rs_numbers H1) as (Nx & Nx'), (rs_numbers H2) as (Ny & Ny').
    destruct (A1 x y Nx Ny B1) as (Nz & W).
    assert (S : rnd (g (value x') (value y')) = bp (expo c) * rnd (g (value x) (value y))).
    { rewrite V1, V2, G1, G2. apply rnd_scale_plus; try rewrite <- G4; try apply G3; try rewrite <- V1; try rewrite <- V2; apply fmt; auto; try apply Nx; try apply Ny; try apply Nx'; try apply Ny'. }
    pose proof (@bound_value _ _ Nz B2) as Bd. rewrite W, <- S in Bd. destruct (A2 x' y' Nx' Ny' Bd) as (Nz' & W').
    cbn. apply rs_intro; auto. { rewrite W', W. exact S. } intros Gn. destruct (Z Gn) as (Zx & Zy). rewrite W, Zx, Zy.
    replace (g 0 0) with 0; [apply round_0; apply valid_rnd_N|]. pose proof (G1 0 0 0) as Q. rewrite Rmult_0_l in Q. rewrite Q. ring.
  Qed.
  Lemma round0 : rnd 0 = 0.
  Proof. apply round_0. apply valid_rnd_N. Qed.
  Lemma scale_mul : forall mul (g : R -> R -> R) a b c x x' y y',
    (finite (mul x y) = true -> number (mul x y) /\ value (mul x y) = rnd (g (value x) (value y))) ->
    (forall x y, number x -> number y -> value x = 0 \/ value y = 0 -> rnd (g (value x) (value y)) = 0) ->
    (Rabs (rnd (g (value x) (value y))) < bp emax -> number (mul x y) /\ value (mul x y) = rnd (g (value x) (value y))) ->
    (Rabs (rnd (g (value x') (value y'))) < bp emax -> number (mul x' y') /\ value (mul x' y') = rnd (g (value x') (value y'))) ->
    g (value x') (value y') = bp (expo c) * g (value x) (value y) -> (c = None -> value x = 0 \/ value y = 0) ->
    rs (x, a) x' -> rs (y, b) y' ->
    rrel false rs (keep (zero_float x || zero_float y || (no_overflow emax (expo c) (mul x y) && no_underflow prec emax (expo c) (mul x y)))%bool (mul x y) c) (Ok (mul x' y')).
  Proof.
    intros mul g a b c x x' y y' A1 A0 A2 A3 G Cn H1 H2. unfold keep. destruct (rs_numbers H1) as (Nx & Nx'), (rs_numbers H2) as (Ny & Ny').
    pose proof (rs_value H1) as V1. pose proof (rs_value H2) as V2.
    assert (Z : value x = 0 \/ value y = 0 -> rrel false rs (Ok (mul x y, c)) (Ok (mul x' y'))).
    { intros Z. pose proof (A0 x y Nx Ny Z) as R0. assert (Z' : value x' = 0 \/ value y' = 0). { destruct Z as [Z|Z]; [left; rewrite V1|right; rewrite V2]; rewrite Z; ring. }
      pose proof (A0 x' y' Nx' Ny' Z') as R0'. rewrite R0 in A2. rewrite R0' in A3. rewrite Rabs_R0 in *. destruct (A2 (bpow_gt_0 _ _)) as (N & W), (A3 (bpow_gt_0 _ _)) as (N' & W').
      cbn. apply rs_intro; auto. rewrite W, W'. ring. }
    destruct (zero_float x) eqn:Zx; cbn [orb]. { apply Z. left. apply zero_value; auto. }
    destruct (zero_float y) eqn:Zy; cbn [orb]. { apply Z. right. apply zero_value; auto. }
    destruct (_ && _)%bool eqn:B; [|cbn; auto]. apply andb_prop in B as (B1 & B2).
    assert (Fz : finite (mul x y) = true) by (destruct (mul x y); auto; discriminate B2). destruct (A1 Fz) as (Nz & W).
    destruct (@far_value _ _ Nz B2) as (S1 & S2). rewrite W in S1, S2. pose proof (rnd_scale_far _ _ S1 S2) as S. rewrite <- G in S.
    pose proof (@bound_value _ _ Nz B1) as Bd. rewrite W, <- S in Bd. destruct (A3 Bd) as (Nz' & W'). cbn. apply rs_intro; auto.
    - rewrite W', W. exact S.
    - intros Q. destruct (Cn Q) as [Q'|Q']; apply zero_value in Q'; auto; congruence.
  Qed.
  Lemma scale_rel : OpsRel false rs (scale_ops prec emax) fo.
  Proof.
    constructor.
    - unfold rescaled, number_of. cbn. auto.
    - destruct (one_den Hp He) as (V & N & W). apply (@rs_intro (SFone prec emax) (Some 0%Z)); try (split; auto). { cbn. ring. } discriminate.
    - intros [x a] x' [y b] y' H1 H2. apply (@scale_add (SFadd prec emax) (fun y => y) Rplus); auto; try (intros; ring).
      + intros u v (Vu & Fu) (Vv & Fv) F. split; [split; auto; apply add_valid; auto|apply (@add_round prec emax Hp He); auto].
      + intros. apply add_in; auto.
    - intros [x a] x' [y b] y' H1 H2. apply (@scale_add (SFsub prec emax) Ropp Rminus); auto; try (intros; ring).
      + intros u v (Vu & Fu) (Vv & Fv) F. split; [split; auto; apply sub_valid; auto|apply (@sub_round prec emax Hp He); auto].
      + intros. apply sub_in; auto.
      + intros. apply generic_format_opp. auto.
    - intros [x a] x' [y b] y' H1 H2. destruct (rs_numbers H1) as (Nx & Nx'), (rs_numbers H2) as (Ny & Ny').
      cbn [o_mul scale_ops sf_ops ok2 fst snd]. apply (@scale_mul (SFmul prec emax) Rmult a b (times z_units a b)); auto.
      + intros F. split; [split; auto; apply mul_valid; try apply Nx; try apply Ny; auto|apply (@mul_round prec emax Hp He); try apply Nx; try apply Ny; auto].
      + intros u v _ _ [->| ->]; rewrite ?Rmult_0_l, ?Rmult_0_r; apply round0.
      + intros. apply mul_in; auto.
      + intros. apply mul_in; auto.
      + rewrite (rs_value H1), (rs_value H2). destruct a as [a|], b as [b|]; cbn [times expo u_mul z_units fst snd].
        * rewrite bpow_plus. ring.
        * destruct (rs_none H2) as (-> & _). ring.
        * destruct (rs_none H1) as (-> & _). ring.
        * destruct (rs_none H1) as (-> & _). ring.
      + destruct a as [a|], b as [b|]; try discriminate; intros _.
        * destruct (rs_none H2) as (-> & _). auto.
        * destruct (rs_none H1) as (-> & _). auto.
        * destruct (rs_none H1) as (-> & _). auto.
    - intros [x a] x' H. cbn. destruct (rs_numbers H) as ((V & F) & (V' & F')). destruct (opp_value x) as (A1 & A2), (opp_value x') as (A1' & A2'). pose proof (rs_value H) as W.
      apply rs_intro.
      + split; [apply opp_valid; auto|congruence].
      + split; [apply opp_valid; auto|congruence].
      + rewrite A1, A1', W. ring.
      + intros ->. destruct (rs_none H) as (Z & _). rewrite A1, Z. ring.
  Qed.
  Lemma scale_divrel : DivRel false rs (scale_ops prec emax) fo.
  Proof.
    intros [x a] x' [y b] y' H1 H2. cbn [o_div scale_ops sf_ops ok2 fst snd]. destruct b as [h|]; [|cbn; auto]. destruct (zero_float y) eqn:Z; [cbn; auto|].
    destruct (rs_numbers H1) as (Nx & Nx'), (rs_numbers H2) as (Ny & Ny').
    assert (Vy : value y <> 0). { intros Q. apply zero_value in Q; auto. congruence. }
    pose proof (rs_value H2) as W2. cbn [expo] in W2. pose proof (bpow_gt_0 radix2 h) as Ph.
    assert (Vy' : value y' <> 0). { rewrite W2. intros Q. apply Rmult_integral in Q. destruct Q; [lra|contradiction]. }
    replace (zero_float x || false)%bool with (zero_float x || zero_float y)%bool by (rewrite Z; auto). apply (@scale_mul (SFdiv prec emax) (fun u v => if Req_EM_T v 0 then 0 else u / v) a (Some h) (times z_units a (Some (- h)%Z))); auto.
    - intros F. destruct (Req_EM_T (value y) 0); [contradiction|]. destruct Nx, Ny. split; [split; auto; apply div_valid; auto|apply (@div_round prec emax Hp He); auto].
    - intros u v Nu Nv Q. destruct (Req_EM_T (value v) 0); [apply round0|]. destruct Q as [->|Q]; [|contradiction]. unfold Rdiv. rewrite Rmult_0_l. apply round0.
    - destruct (Req_EM_T (value y) 0); [contradiction|]. apply div_in; auto.
    - destruct (Req_EM_T (value y') 0); [contradiction|]. apply div_in; auto.
    - destruct (Req_EM_T (value y) 0); [contradiction|]. destruct (Req_EM_T (value y') 0); [contradiction|].
      rewrite (rs_value H1), W2. destruct a as [a|]; cbn [times expo u_mul z_units].
      + rewrite bpow_plus, bpow_opp. field. split; auto. lra.
      + destruct (rs_none H1) as (-> & _). unfold Rdiv. ring.
    - destruct a as [a|]; [discriminate|]. destruct (rs_none H1) as (-> & _). auto.
  Qed.
End FlS.

Local Open Scope nat_scope.
(* ------------------------------------------------------------------------- *)
(** * C114: if the units of measurement agree, a change of units changes the result as its unit says *)
Section C114_units.
  Context {T G : Type} {o : Ops T} (F : Field o) (un : units G) (k : G -> T) (K : change F un k) (Z : forall x, o_is_zero o x = false -> x <> o_zero o).

  Theorem C114_units_v_add : forall N u v x y X Y r, length u = N -> length v = N -> v_bare u x -> v_bare v y -> v_scaled F k u X -> v_scaled F k v Y -> v_add (unit_ops o un) N u v = Ok r ->
    (exists s, v_add o N x y = Ok s /\ v_bare r s) /\ exists s, v_add o N X Y = Ok s /\ v_scaled F k r s.
  Proof. intros. split; [eapply v_rel_out; [|eassumption]; eapply (rr_v_add (bare_unit_rel o un)); ex_args|eapply v_rel_out; [|eassumption]; eapply (rr_v_add (unit_rel K)); ex_args]. Qed.
  Theorem C114_units_v_sub : forall N u v x y X Y r, length u = N -> length v = N -> v_bare u x -> v_bare v y -> v_scaled F k u X -> v_scaled F k v Y -> v_sub (unit_ops o un) N u v = Ok r ->
    (exists s, v_sub o N x y = Ok s /\ v_bare r s) /\ exists s, v_sub o N X Y = Ok s /\ v_scaled F k r s.
  Proof. intros. split; [eapply v_rel_out; [|eassumption]; eapply (rr_v_sub (bare_unit_rel o un)); ex_args|eapply v_rel_out; [|eassumption]; eapply (rr_v_sub (unit_rel K)); ex_args]. Qed.
  Theorem C114_units_v_mul : forall N u v x y X Y r, length u = N -> length v = N -> v_bare u x -> v_bare v y -> v_scaled F k u X -> v_scaled F k v Y -> v_mul (unit_ops o un) N u v = Ok r ->
    (exists s, v_mul o N x y = Ok s /\ v_bare r s) /\ exists s, v_mul o N X Y = Ok s /\ v_scaled F k r s.
  Proof. intros. split; [eapply v_rel_out; [|eassumption]; eapply (rr_v_mul (bare_unit_rel o un)); ex_args|eapply v_rel_out; [|eassumption]; eapply (rr_v_mul (unit_rel K)); ex_args]. Qed.
  Theorem C114_units_v_neg : forall N u x X r, length u = N -> v_bare u x -> v_scaled F k u X -> v_neg (unit_ops o un) u = Ok r ->
    (exists s, v_neg o x = Ok s /\ v_bare r s) /\ exists s, v_neg o X = Ok s /\ v_scaled F k r s.
  Proof. intros. split; [eapply v_rel_out; [|eassumption]; eapply (rr_v_neg (bare_unit_rel o un)); ex_args|eapply v_rel_out; [|eassumption]; eapply (rr_v_neg (unit_rel K)); ex_args]. Qed.
  Theorem C114_units_v_smul : forall N u v x y X Y r, length u = N -> v_bare u x -> bare v y -> v_scaled F k u X -> scaled F k v Y -> v_smul (unit_ops o un) u v = Ok r ->
    (exists s, v_smul o x y = Ok s /\ v_bare r s) /\ exists s, v_smul o X Y = Ok s /\ v_scaled F k r s.
  Proof. intros. split; [eapply v_rel_out; [|eassumption]; eapply (rr_v_smul (bare_unit_rel o un)); ex_args|eapply v_rel_out; [|eassumption]; eapply (rr_v_smul (unit_rel K)); ex_args]. Qed.
  Theorem C114_units_v_sum : forall N u x X r, length u = N -> v_bare u x -> v_scaled F k u X -> v_sum (unit_ops o un) u = Ok r ->
    (exists s, v_sum o x = Ok s /\ bare r s) /\ exists s, v_sum o X = Ok s /\ scaled F k r s.
  Proof. intros. split; [eapply s_rel_out; [|eassumption]; eapply (rr_v_sum (bare_unit_rel o un)); ex_args|eapply s_rel_out; [|eassumption]; eapply (rr_v_sum (unit_rel K)); ex_args]. Qed.
  Theorem C114_units_v_dot : forall N u v x y X Y r, length u = N -> length v = N -> v_bare u x -> v_bare v y -> v_scaled F k u X -> v_scaled F k v Y -> v_dot (unit_ops o un) N u v = Ok r ->
    (exists s, v_dot o N x y = Ok s /\ bare r s) /\ exists s, v_dot o N X Y = Ok s /\ scaled F k r s.
  Proof. intros. split; [eapply s_rel_out; [|eassumption]; eapply (rr_v_dot (bare_unit_rel o un)); ex_args|eapply s_rel_out; [|eassumption]; eapply (rr_v_dot (unit_rel K)); ex_args]. Qed.
  Theorem C114_units_v_square_length : forall N u x X r, length u = N -> v_bare u x -> v_scaled F k u X -> v_square_length (unit_ops o un) u = Ok r ->
    (exists s, v_square_length o x = Ok s /\ bare r s) /\ exists s, v_square_length o X = Ok s /\ scaled F k r s.
  Proof. intros. split; [eapply s_rel_out; [|eassumption]; eapply (rr_v_square_length (bare_unit_rel o un)); ex_args|eapply s_rel_out; [|eassumption]; eapply (rr_v_square_length (unit_rel K)); ex_args]. Qed.
  Theorem C114_units_v_cross2 : forall u v x y X Y r, length u = 2 -> length v = 2 -> v_bare u x -> v_bare v y -> v_scaled F k u X -> v_scaled F k v Y -> v_cross2 (unit_ops o un) u v = Ok r ->
    (exists s, v_cross2 o x y = Ok s /\ bare r s) /\ exists s, v_cross2 o X Y = Ok s /\ scaled F k r s.
  Proof. intros. split; [eapply s_rel_out; [|eassumption]; eapply (rr_v_cross2 (bare_unit_rel o un)); ex_args|eapply s_rel_out; [|eassumption]; eapply (rr_v_cross2 (unit_rel K)); ex_args]. Qed.
  Theorem C114_units_v_cross3 : forall u v x y X Y r, length u = 3 -> length v = 3 -> v_bare u x -> v_bare v y -> v_scaled F k u X -> v_scaled F k v Y -> v_cross3 (unit_ops o un) u v = Ok r ->
    (exists s, v_cross3 o x y = Ok s /\ v_bare r s) /\ exists s, v_cross3 o X Y = Ok s /\ v_scaled F k r s.
  Proof. intros. split; [eapply v_rel_out; [|eassumption]; eapply (rr_v_cross3 (bare_unit_rel o un)); ex_args|eapply v_rel_out; [|eassumption]; eapply (rr_v_cross3 (unit_rel K)); ex_args]. Qed.
  Theorem C114_units_v_cross4 : forall u v x y X Y r, length u = 4 -> length v = 4 -> v_bare u x -> v_bare v y -> v_scaled F k u X -> v_scaled F k v Y -> v_cross4 (unit_ops o un) u v = Ok r ->
    (exists s, v_cross4 o x y = Ok s /\ v_bare r s) /\ exists s, v_cross4 o X Y = Ok s /\ v_scaled F k r s.
  Proof. intros. split; [eapply v_rel_out; [|eassumption]; eapply (rr_v_cross4 (bare_unit_rel o un)); ex_args|eapply v_rel_out; [|eassumption]; eapply (rr_v_cross4 (unit_rel K)); ex_args]. Qed.
  Theorem C114_units_v_div : forall N u v x y X Y r, length u = N -> length v = N -> v_bare u x -> v_bare v y -> v_scaled F k u X -> v_scaled F k v Y -> v_div (unit_ops o un) N u v = Ok r ->
    (exists s, v_div o N x y = Ok s /\ v_bare r s) /\ exists s, v_div o N X Y = Ok s /\ v_scaled F k r s.
  Proof. intros. split; [eapply v_rel_out; [|eassumption]; eapply (rr_v_div (bare_unit_divrel o un)); ex_args|eapply v_rel_out; [|eassumption]; eapply (rr_v_div (unit_divrel K Z)); ex_args]. Qed.
  Theorem C114_units_v_sdiv : forall N u v x y X Y r, length u = N -> v_bare u x -> bare v y -> v_scaled F k u X -> scaled F k v Y -> v_sdiv (unit_ops o un) u v = Ok r ->
    (exists s, v_sdiv o x y = Ok s /\ v_bare r s) /\ exists s, v_sdiv o X Y = Ok s /\ v_scaled F k r s.
  Proof. intros. split; [eapply v_rel_out; [|eassumption]; eapply (rr_v_sdiv (bare_unit_divrel o un)); ex_args|eapply v_rel_out; [|eassumption]; eapply (rr_v_sdiv (unit_divrel K Z)); ex_args]. Qed.
  Theorem C114_units_m_add : forall M N u v x y X Y r, rect M N u -> rect M N v -> m_bare u x -> m_bare v y -> m_scaled F k u X -> m_scaled F k v Y -> m_add (unit_ops o un) M N u v = Ok r ->
    (exists s, m_add o M N x y = Ok s /\ m_bare r s) /\ exists s, m_add o M N X Y = Ok s /\ m_scaled F k r s.
  Proof. intros. split; [eapply m_rel_out; [|eassumption]; eapply (rr_m_add (bare_unit_rel o un)); ex_args|eapply m_rel_out; [|eassumption]; eapply (rr_m_add (unit_rel K)); ex_args]. Qed.
  Theorem C114_units_m_sub : forall M N u v x y X Y r, rect M N u -> rect M N v -> m_bare u x -> m_bare v y -> m_scaled F k u X -> m_scaled F k v Y -> m_sub (unit_ops o un) M N u v = Ok r ->
    (exists s, m_sub o M N x y = Ok s /\ m_bare r s) /\ exists s, m_sub o M N X Y = Ok s /\ m_scaled F k r s.
  Proof. intros. split; [eapply m_rel_out; [|eassumption]; eapply (rr_m_sub (bare_unit_rel o un)); ex_args|eapply m_rel_out; [|eassumption]; eapply (rr_m_sub (unit_rel K)); ex_args]. Qed.
  Theorem C114_units_m_mul : forall M N u v x y X Y r, rect M N u -> rect M N v -> m_bare u x -> m_bare v y -> m_scaled F k u X -> m_scaled F k v Y -> m_mul (unit_ops o un) M N u v = Ok r ->
    (exists s, m_mul o M N x y = Ok s /\ m_bare r s) /\ exists s, m_mul o M N X Y = Ok s /\ m_scaled F k r s.
  Proof. intros. split; [eapply m_rel_out; [|eassumption]; eapply (rr_m_mul (bare_unit_rel o un)); ex_args|eapply m_rel_out; [|eassumption]; eapply (rr_m_mul (unit_rel K)); ex_args]. Qed.
  Theorem C114_units_m_neg : forall M N u x X r, rect M N u -> m_bare u x -> m_scaled F k u X -> m_neg (unit_ops o un) u = Ok r ->
    (exists s, m_neg o x = Ok s /\ m_bare r s) /\ exists s, m_neg o X = Ok s /\ m_scaled F k r s.
  Proof. intros. split; [eapply m_rel_out; [|eassumption]; eapply (rr_m_neg (bare_unit_rel o un)); ex_args|eapply m_rel_out; [|eassumption]; eapply (rr_m_neg (unit_rel K)); ex_args]. Qed.
  Theorem C114_units_m_smul : forall M N u v x y X Y r, rect M N u -> m_bare u x -> bare v y -> m_scaled F k u X -> scaled F k v Y -> m_smul (unit_ops o un) u v = Ok r ->
    (exists s, m_smul o x y = Ok s /\ m_bare r s) /\ exists s, m_smul o X Y = Ok s /\ m_scaled F k r s.
  Proof. intros. split; [eapply m_rel_out; [|eassumption]; eapply (rr_m_smul (bare_unit_rel o un)); ex_args|eapply m_rel_out; [|eassumption]; eapply (rr_m_smul (unit_rel K)); ex_args]. Qed.
  Theorem C114_units_m_sum : forall M N u x X r, rect M N u -> m_bare u x -> m_scaled F k u X -> m_sum (unit_ops o un) u = Ok r ->
    (exists s, m_sum o x = Ok s /\ bare r s) /\ exists s, m_sum o X = Ok s /\ scaled F k r s.
  Proof. intros. split; [eapply s_rel_out; [|eassumption]; eapply (rr_m_sum (bare_unit_rel o un)); ex_args|eapply s_rel_out; [|eassumption]; eapply (rr_m_sum (unit_rel K)); ex_args]. Qed.
  Theorem C114_units_m_div : forall M N u v x y X Y r, rect M N u -> rect M N v -> m_bare u x -> m_bare v y -> m_scaled F k u X -> m_scaled F k v Y -> m_div (unit_ops o un) M N u v = Ok r ->
    (exists s, m_div o M N x y = Ok s /\ m_bare r s) /\ exists s, m_div o M N X Y = Ok s /\ m_scaled F k r s.
  Proof. intros. split; [eapply m_rel_out; [|eassumption]; eapply (rr_m_div (bare_unit_divrel o un)); ex_args|eapply m_rel_out; [|eassumption]; eapply (rr_m_div (unit_divrel K Z)); ex_args]. Qed.
  Theorem C114_units_m_sdiv : forall M N u v x y X Y r, rect M N u -> m_bare u x -> bare v y -> m_scaled F k u X -> scaled F k v Y -> m_sdiv (unit_ops o un) u v = Ok r ->
    (exists s, m_sdiv o x y = Ok s /\ m_bare r s) /\ exists s, m_sdiv o X Y = Ok s /\ m_scaled F k r s.
  Proof. intros. split; [eapply m_rel_out; [|eassumption]; eapply (rr_m_sdiv (bare_unit_divrel o un)); ex_args|eapply m_rel_out; [|eassumption]; eapply (rr_m_sdiv (unit_divrel K Z)); ex_args]. Qed.
  Theorem C114_units_m_dot : forall L M N u v x y X Y r, rect L M u -> rect M N v -> m_bare u x -> m_bare v y -> m_scaled F k u X -> m_scaled F k v Y -> m_dot (unit_ops o un) L M N u v = Ok r ->
    (exists s, m_dot o L M N x y = Ok s /\ m_bare r s) /\ exists s, m_dot o L M N X Y = Ok s /\ m_scaled F k r s.
  Proof. intros. split; [eapply m_rel_out; [|eassumption]; eapply (rr_m_dot (bare_unit_rel o un)); ex_args|eapply m_rel_out; [|eassumption]; eapply (rr_m_dot (unit_rel K)); ex_args]. Qed.
  Theorem C114_units_m_dot_v : forall M N u v x y X Y r, rect M N u -> length v = N -> m_bare u x -> v_bare v y -> m_scaled F k u X -> v_scaled F k v Y -> m_dot_v (unit_ops o un) M N u v = Ok r ->
    (exists s, m_dot_v o M N x y = Ok s /\ v_bare r s) /\ exists s, m_dot_v o M N X Y = Ok s /\ v_scaled F k r s.
  Proof. intros. split; [eapply v_rel_out; [|eassumption]; eapply (rr_m_dot_v (bare_unit_rel o un)); ex_args|eapply v_rel_out; [|eassumption]; eapply (rr_m_dot_v (unit_rel K)); ex_args]. Qed.
  Theorem C114_units_v_dot_m : forall M N u v x y X Y r, length u = M -> rect M N v -> v_bare u x -> m_bare v y -> v_scaled F k u X -> m_scaled F k v Y -> v_dot_m (unit_ops o un) M N u v = Ok r ->
    (exists s, v_dot_m o M N x y = Ok s /\ v_bare r s) /\ exists s, v_dot_m o M N X Y = Ok s /\ v_scaled F k r s.
  Proof. intros. split; [eapply v_rel_out; [|eassumption]; eapply (rr_v_dot_m (bare_unit_rel o un)); ex_args|eapply v_rel_out; [|eassumption]; eapply (rr_v_dot_m (unit_rel K)); ex_args]. Qed.
  Theorem C114_units_m_outer : forall M N u v x y X Y r, length u = M -> length v = N -> v_bare u x -> v_bare v y -> v_scaled F k u X -> v_scaled F k v Y -> m_outer (unit_ops o un) M N u v = Ok r ->
    (exists s, m_outer o M N x y = Ok s /\ m_bare r s) /\ exists s, m_outer o M N X Y = Ok s /\ m_scaled F k r s.
  Proof. intros. split; [eapply m_rel_out; [|eassumption]; eapply (rr_m_outer (bare_unit_rel o un)); ex_args|eapply m_rel_out; [|eassumption]; eapply (rr_m_outer (unit_rel K)); ex_args]. Qed.
  Theorem C114_units_m_det : forall N u x X r, rect N N u -> m_bare u x -> m_scaled F k u X -> m_det (unit_ops o un) N u = Ok r ->
    (exists s, m_det o N x = Ok s /\ bare r s) /\ exists s, m_det o N X = Ok s /\ scaled F k r s.
  Proof. intros. split; [eapply s_rel_out; [|eassumption]; eapply (rr_m_det (bare_unit_rel o un)); ex_args|eapply s_rel_out; [|eassumption]; eapply (rr_m_det (unit_rel K)); ex_args]. Qed.
  Theorem C114_units_m_cofactor : forall N i j u x X r, rect N N u -> m_bare u x -> m_scaled F k u X -> m_cofactor (unit_ops o un) N u i j = Ok r ->
    (exists s, m_cofactor o N x i j = Ok s /\ bare r s) /\ exists s, m_cofactor o N X i j = Ok s /\ scaled F k r s.
  Proof. intros. split; [eapply s_rel_out; [|eassumption]; eapply (rr_m_cofactor (bare_unit_rel o un)); ex_args|eapply s_rel_out; [|eassumption]; eapply (rr_m_cofactor (unit_rel K)); ex_args]. Qed.
  Theorem C114_units_m_adj : forall N u x X r, rect N N u -> m_bare u x -> m_scaled F k u X -> m_adj (unit_ops o un) N u = Ok r ->
    (exists s, m_adj o N x = Ok s /\ m_bare r s) /\ exists s, m_adj o N X = Ok s /\ m_scaled F k r s.
  Proof. intros. split; [eapply m_rel_out; [|eassumption]; eapply (rr_m_adj (bare_unit_rel o un)); ex_args|eapply m_rel_out; [|eassumption]; eapply (rr_m_adj (unit_rel K)); ex_args]. Qed.
  Theorem C114_units_m_inv : forall N u x X r, rect N N u -> m_bare u x -> m_scaled F k u X -> m_inv (unit_ops o un) N u = Ok r ->
    (exists s, m_inv o N x = Ok s /\ m_bare r s) /\ exists s, m_inv o N X = Ok s /\ m_scaled F k r s.
  Proof. intros. split; [eapply m_rel_out; [|eassumption]; eapply (rr_m_inv (bare_unit_rel o un) (bare_unit_divrel o un)); ex_args|eapply m_rel_out; [|eassumption]; eapply (rr_m_inv (unit_rel K) (unit_divrel K Z)); ex_args]. Qed.
  Theorem C114_units_c_add : forall u v x y X Y r, c_bare u x -> c_bare v y -> c_scaled F k u X -> c_scaled F k v Y -> c_add (unit_ops o un) u v = Ok r ->
    (exists s, c_add o x y = Ok s /\ c_bare r s) /\ exists s, c_add o X Y = Ok s /\ c_scaled F k r s.
  Proof. intros. split; [eapply c_rel_out; [|eassumption]; eapply (rr_c_add (bare_unit_rel o un)); ex_args|eapply c_rel_out; [|eassumption]; eapply (rr_c_add (unit_rel K)); ex_args]. Qed.
  Theorem C114_units_c_sub : forall u v x y X Y r, c_bare u x -> c_bare v y -> c_scaled F k u X -> c_scaled F k v Y -> c_sub (unit_ops o un) u v = Ok r ->
    (exists s, c_sub o x y = Ok s /\ c_bare r s) /\ exists s, c_sub o X Y = Ok s /\ c_scaled F k r s.
  Proof. intros. split; [eapply c_rel_out; [|eassumption]; eapply (rr_c_sub (bare_unit_rel o un)); ex_args|eapply c_rel_out; [|eassumption]; eapply (rr_c_sub (unit_rel K)); ex_args]. Qed.
  Theorem C114_units_c_mul : forall u v x y X Y r, c_bare u x -> c_bare v y -> c_scaled F k u X -> c_scaled F k v Y -> c_mul (unit_ops o un) u v = Ok r ->
    (exists s, c_mul o x y = Ok s /\ c_bare r s) /\ exists s, c_mul o X Y = Ok s /\ c_scaled F k r s.
  Proof. intros. split; [eapply c_rel_out; [|eassumption]; eapply (rr_c_mul (bare_unit_rel o un)); ex_args|eapply c_rel_out; [|eassumption]; eapply (rr_c_mul (unit_rel K)); ex_args]. Qed.
  Theorem C114_units_c_neg : forall u x X r, c_bare u x -> c_scaled F k u X -> c_neg (unit_ops o un) u = Ok r ->
    (exists s, c_neg o x = Ok s /\ c_bare r s) /\ exists s, c_neg o X = Ok s /\ c_scaled F k r s.
  Proof. intros. split; [eapply c_rel_out; [|eassumption]; eapply (rr_c_neg (bare_unit_rel o un)); ex_args|eapply c_rel_out; [|eassumption]; eapply (rr_c_neg (unit_rel K)); ex_args]. Qed.
  Theorem C114_units_c_conj : forall u x X r, c_bare u x -> c_scaled F k u X -> c_conj (unit_ops o un) u = Ok r ->
    (exists s, c_conj o x = Ok s /\ c_bare r s) /\ exists s, c_conj o X = Ok s /\ c_scaled F k r s.
  Proof. intros. split; [eapply c_rel_out; [|eassumption]; eapply (rr_c_conj (bare_unit_rel o un)); ex_args|eapply c_rel_out; [|eassumption]; eapply (rr_c_conj (unit_rel K)); ex_args]. Qed.
  Theorem C114_units_c_mul_s : forall u v x y X Y r, c_bare u x -> bare v y -> c_scaled F k u X -> scaled F k v Y -> c_mul_s (unit_ops o un) u v = Ok r ->
    (exists s, c_mul_s o x y = Ok s /\ c_bare r s) /\ exists s, c_mul_s o X Y = Ok s /\ c_scaled F k r s.
  Proof. intros. split; [eapply c_rel_out; [|eassumption]; eapply (rr_c_mul_s (bare_unit_rel o un)); ex_args|eapply c_rel_out; [|eassumption]; eapply (rr_c_mul_s (unit_rel K)); ex_args]. Qed.
  Theorem C114_units_c_norm_sqr : forall u x X r, c_bare u x -> c_scaled F k u X -> c_norm_sqr (unit_ops o un) u = Ok r ->
    (exists s, c_norm_sqr o x = Ok s /\ bare r s) /\ exists s, c_norm_sqr o X = Ok s /\ scaled F k r s.
  Proof. intros. split; [eapply s_rel_out; [|eassumption]; eapply (rr_c_norm_sqr (bare_unit_rel o un)); ex_args|eapply s_rel_out; [|eassumption]; eapply (rr_c_norm_sqr (unit_rel K)); ex_args]. Qed.
  Theorem C114_units_c_dot : forall u v x y X Y r, c_bare u x -> c_bare v y -> c_scaled F k u X -> c_scaled F k v Y -> c_dot (unit_ops o un) u v = Ok r ->
    (exists s, c_dot o x y = Ok s /\ bare r s) /\ exists s, c_dot o X Y = Ok s /\ scaled F k r s.
  Proof. intros. split; [eapply s_rel_out; [|eassumption]; eapply (rr_c_dot (bare_unit_rel o un)); ex_args|eapply s_rel_out; [|eassumption]; eapply (rr_c_dot (unit_rel K)); ex_args]. Qed.
  Theorem C114_units_c_inv : forall u x X r, c_bare u x -> c_scaled F k u X -> c_inv (unit_ops o un) u = Ok r ->
    (exists s, c_inv o x = Ok s /\ c_bare r s) /\ exists s, c_inv o X = Ok s /\ c_scaled F k r s.
  Proof. intros. split; [eapply c_rel_out; [|eassumption]; eapply (rr_c_inv (bare_unit_rel o un) (bare_unit_divrel o un)); ex_args|eapply c_rel_out; [|eassumption]; eapply (rr_c_inv (unit_rel K) (unit_divrel K Z)); ex_args]. Qed.
  Theorem C114_units_c_div : forall u v x y X Y r, c_bare u x -> c_bare v y -> c_scaled F k u X -> c_scaled F k v Y -> c_div (unit_ops o un) u v = Ok r ->
    (exists s, c_div o x y = Ok s /\ c_bare r s) /\ exists s, c_div o X Y = Ok s /\ c_scaled F k r s.
  Proof. intros. split; [eapply c_rel_out; [|eassumption]; eapply (rr_c_div (bare_unit_rel o un) (bare_unit_divrel o un)); ex_args|eapply c_rel_out; [|eassumption]; eapply (rr_c_div (unit_rel K) (unit_divrel K Z)); ex_args]. Qed.
  Theorem C114_units_q_add : forall u v x y X Y r, q_bare u x -> q_bare v y -> q_scaled F k u X -> q_scaled F k v Y -> q_add (unit_ops o un) u v = Ok r ->
    (exists s, q_add o x y = Ok s /\ q_bare r s) /\ exists s, q_add o X Y = Ok s /\ q_scaled F k r s.
  Proof. intros. split; [eapply q_rel_out; [|eassumption]; eapply (rr_q_add (bare_unit_rel o un)); ex_args|eapply q_rel_out; [|eassumption]; eapply (rr_q_add (unit_rel K)); ex_args]. Qed.
  Theorem C114_units_q_sub : forall u v x y X Y r, q_bare u x -> q_bare v y -> q_scaled F k u X -> q_scaled F k v Y -> q_sub (unit_ops o un) u v = Ok r ->
    (exists s, q_sub o x y = Ok s /\ q_bare r s) /\ exists s, q_sub o X Y = Ok s /\ q_scaled F k r s.
  Proof. intros. split; [eapply q_rel_out; [|eassumption]; eapply (rr_q_sub (bare_unit_rel o un)); ex_args|eapply q_rel_out; [|eassumption]; eapply (rr_q_sub (unit_rel K)); ex_args]. Qed.
  Theorem C114_units_q_mul : forall u v x y X Y r, q_bare u x -> q_bare v y -> q_scaled F k u X -> q_scaled F k v Y -> q_mul (unit_ops o un) u v = Ok r ->
    (exists s, q_mul o x y = Ok s /\ q_bare r s) /\ exists s, q_mul o X Y = Ok s /\ q_scaled F k r s.
  Proof. intros. split; [eapply q_rel_out; [|eassumption]; eapply (rr_q_mul (bare_unit_rel o un)); ex_args|eapply q_rel_out; [|eassumption]; eapply (rr_q_mul (unit_rel K)); ex_args]. Qed.
  Theorem C114_units_q_neg : forall u x X r, q_bare u x -> q_scaled F k u X -> q_neg (unit_ops o un) u = Ok r ->
    (exists s, q_neg o x = Ok s /\ q_bare r s) /\ exists s, q_neg o X = Ok s /\ q_scaled F k r s.
  Proof. intros. split; [eapply q_rel_out; [|eassumption]; eapply (rr_q_neg (bare_unit_rel o un)); ex_args|eapply q_rel_out; [|eassumption]; eapply (rr_q_neg (unit_rel K)); ex_args]. Qed.
  Theorem C114_units_q_conj : forall u x X r, q_bare u x -> q_scaled F k u X -> q_conj (unit_ops o un) u = Ok r ->
    (exists s, q_conj o x = Ok s /\ q_bare r s) /\ exists s, q_conj o X = Ok s /\ q_scaled F k r s.
  Proof. intros. split; [eapply q_rel_out; [|eassumption]; eapply (rr_q_conj (bare_unit_rel o un)); ex_args|eapply q_rel_out; [|eassumption]; eapply (rr_q_conj (unit_rel K)); ex_args]. Qed.
  Theorem C114_units_q_mul_s : forall u v x y X Y r, q_bare u x -> bare v y -> q_scaled F k u X -> scaled F k v Y -> q_mul_s (unit_ops o un) u v = Ok r ->
    (exists s, q_mul_s o x y = Ok s /\ q_bare r s) /\ exists s, q_mul_s o X Y = Ok s /\ q_scaled F k r s.
  Proof. intros. split; [eapply q_rel_out; [|eassumption]; eapply (rr_q_mul_s (bare_unit_rel o un)); ex_args|eapply q_rel_out; [|eassumption]; eapply (rr_q_mul_s (unit_rel K)); ex_args]. Qed.
  Theorem C114_units_q_mul_c : forall u v x y X Y r, q_bare u x -> c_bare v y -> q_scaled F k u X -> c_scaled F k v Y -> q_mul_c (unit_ops o un) u v = Ok r ->
    (exists s, q_mul_c o x y = Ok s /\ q_bare r s) /\ exists s, q_mul_c o X Y = Ok s /\ q_scaled F k r s.
  Proof. intros. split; [eapply q_rel_out; [|eassumption]; eapply (rr_q_mul_c (bare_unit_rel o un)); ex_args|eapply q_rel_out; [|eassumption]; eapply (rr_q_mul_c (unit_rel K)); ex_args]. Qed.
  Theorem C114_units_c_mul_q : forall u v x y X Y r, c_bare u x -> q_bare v y -> c_scaled F k u X -> q_scaled F k v Y -> c_mul_q (unit_ops o un) u v = Ok r ->
    (exists s, c_mul_q o x y = Ok s /\ q_bare r s) /\ exists s, c_mul_q o X Y = Ok s /\ q_scaled F k r s.
  Proof. intros. split; [eapply q_rel_out; [|eassumption]; eapply (rr_c_mul_q (bare_unit_rel o un)); ex_args|eapply q_rel_out; [|eassumption]; eapply (rr_c_mul_q (unit_rel K)); ex_args]. Qed.
  Theorem C114_units_q_norm_sqr : forall u x X r, q_bare u x -> q_scaled F k u X -> q_norm_sqr (unit_ops o un) u = Ok r ->
    (exists s, q_norm_sqr o x = Ok s /\ bare r s) /\ exists s, q_norm_sqr o X = Ok s /\ scaled F k r s.
  Proof. intros. split; [eapply s_rel_out; [|eassumption]; eapply (rr_q_norm_sqr (bare_unit_rel o un)); ex_args|eapply s_rel_out; [|eassumption]; eapply (rr_q_norm_sqr (unit_rel K)); ex_args]. Qed.
  Theorem C114_units_q_dot : forall u v x y X Y r, q_bare u x -> q_bare v y -> q_scaled F k u X -> q_scaled F k v Y -> q_dot (unit_ops o un) u v = Ok r ->
    (exists s, q_dot o x y = Ok s /\ bare r s) /\ exists s, q_dot o X Y = Ok s /\ scaled F k r s.
  Proof. intros. split; [eapply s_rel_out; [|eassumption]; eapply (rr_q_dot (bare_unit_rel o un)); ex_args|eapply s_rel_out; [|eassumption]; eapply (rr_q_dot (unit_rel K)); ex_args]. Qed.
  Theorem C114_units_q_inv : forall u x X r, q_bare u x -> q_scaled F k u X -> q_inv (unit_ops o un) u = Ok r ->
    (exists s, q_inv o x = Ok s /\ q_bare r s) /\ exists s, q_inv o X = Ok s /\ q_scaled F k r s.
  Proof. intros. split; [eapply q_rel_out; [|eassumption]; eapply (rr_q_inv (bare_unit_rel o un) (bare_unit_divrel o un)); ex_args|eapply q_rel_out; [|eassumption]; eapply (rr_q_inv (unit_rel K) (unit_divrel K Z)); ex_args]. Qed.
  Theorem C114_units_q_div : forall u v x y X Y r, q_bare u x -> q_bare v y -> q_scaled F k u X -> q_scaled F k v Y -> q_div (unit_ops o un) u v = Ok r ->
    (exists s, q_div o x y = Ok s /\ q_bare r s) /\ exists s, q_div o X Y = Ok s /\ q_scaled F k r s.
  Proof. intros. split; [eapply q_rel_out; [|eassumption]; eapply (rr_q_div (bare_unit_rel o un) (bare_unit_divrel o un)); ex_args|eapply q_rel_out; [|eassumption]; eapply (rr_q_div (unit_rel K) (unit_divrel K Z)); ex_args]. Qed.
  Theorem C114_units_rot2_apply : forall u v x y X Y r, length v = 2 -> c_bare u x -> v_bare v y -> c_scaled F k u X -> v_scaled F k v Y -> rot2_apply (unit_ops o un) u v = Ok r ->
    (exists s, rot2_apply o x y = Ok s /\ v_bare r s) /\ exists s, rot2_apply o X Y = Ok s /\ v_scaled F k r s.
  Proof. intros. split; [eapply v_rel_out; [|eassumption]; eapply (rr_rot2_apply (bare_unit_rel o un)); ex_args|eapply v_rel_out; [|eassumption]; eapply (rr_rot2_apply (unit_rel K)); ex_args]. Qed.
  Theorem C114_units_rot3_apply : forall u v x y X Y r, length v = 3 -> q_bare u x -> v_bare v y -> q_scaled F k u X -> v_scaled F k v Y -> rot3_apply (unit_ops o un) u v = Ok r ->
    (exists s, rot3_apply o x y = Ok s /\ v_bare r s) /\ exists s, rot3_apply o X Y = Ok s /\ v_scaled F k r s.
  Proof. intros. split; [eapply v_rel_out; [|eassumption]; eapply (rr_rot3_apply (bare_unit_rel o un)); ex_args|eapply v_rel_out; [|eassumption]; eapply (rr_rot3_apply (unit_rel K)); ex_args]. Qed.
  Theorem C114_units_mo_apply_self : forall u v x y X Y r, rect 2 2 u -> m_bare u x -> bare v y -> m_scaled F k u X -> scaled F k v Y -> mo_apply_self (unit_ops o un) u v = Ok r ->
    (exists s, mo_apply_self o x y = Ok s /\ bare r s) /\ exists s, mo_apply_self o X Y = Ok s /\ scaled F k r s.
  Proof. intros. split; [eapply s_rel_out; [|eassumption]; eapply (rr_mo_apply_self (bare_unit_rel o un) (bare_unit_divrel o un)); ex_args|eapply s_rel_out; [|eassumption]; eapply (rr_mo_apply_self (unit_rel K) (unit_divrel K Z)); ex_args]. Qed.
End C114_units.

Local Open Scope nat_scope.
(* ------------------------------------------------------------------------- *)
(** * C114: changing units by powers of two changes floating point results exactly, if nothing overflows and no product or quotient underflows *)
Section C114_float.
  Context (prec emax : Z) (rem : spec_float -> spec_float -> spec_float) (Hp : (0 < prec)%Z) (He : (prec < emax)%Z).

  Theorem C114_float_v_add : forall N u v x y X Y r, length u = N -> length v = N -> v_bare u x -> v_bare v y -> v_rescaled prec emax u X -> v_rescaled prec emax v Y -> v_add (scale_ops prec emax) N u v = Ok r ->
    (exists s, v_add (sf_ops prec emax rem) N x y = Ok s /\ v_bare r s) /\ exists s, v_add (sf_ops prec emax rem) N X Y = Ok s /\ v_rescaled prec emax r s.
  Proof. intros. split; [eapply v_rel_out; [|eassumption]; eapply (rr_v_add (bare_scale_rel prec emax rem)); ex_args|eapply v_rel_out; [|eassumption]; eapply (rr_v_add (scale_rel rem Hp He)); ex_args]. Qed.
  Theorem C114_float_v_sub : forall N u v x y X Y r, length u = N -> length v = N -> v_bare u x -> v_bare v y -> v_rescaled prec emax u X -> v_rescaled prec emax v Y -> v_sub (scale_ops prec emax) N u v = Ok r ->
    (exists s, v_sub (sf_ops prec emax rem) N x y = Ok s /\ v_bare r s) /\ exists s, v_sub (sf_ops prec emax rem) N X Y = Ok s /\ v_rescaled prec emax r s.
  Proof. intros. split; [eapply v_rel_out; [|eassumption]; eapply (rr_v_sub (bare_scale_rel prec emax rem)); ex_args|eapply v_rel_out; [|eassumption]; eapply (rr_v_sub (scale_rel rem Hp He)); ex_args]. Qed.
  Theorem C114_float_v_mul : forall N u v x y X Y r, length u = N -> length v = N -> v_bare u x -> v_bare v y -> v_rescaled prec emax u X -> v_rescaled prec emax v Y -> v_mul (scale_ops prec emax) N u v = Ok r ->
    (exists s, v_mul (sf_ops prec emax rem) N x y = Ok s /\ v_bare r s) /\ exists s, v_mul (sf_ops prec emax rem) N X Y = Ok s /\ v_rescaled prec emax r s.
  Proof. intros. split; [eapply v_rel_out; [|eassumption]; eapply (rr_v_mul (bare_scale_rel prec emax rem)); ex_args|eapply v_rel_out; [|eassumption]; eapply (rr_v_mul (scale_rel rem Hp He)); ex_args]. Qed.
  Theorem C114_float_v_neg : forall N u x X r, length u = N -> v_bare u x -> v_rescaled prec emax u X -> v_neg (scale_ops prec emax) u = Ok r ->
    (exists s, v_neg (sf_ops prec emax rem) x = Ok s /\ v_bare r s) /\ exists s, v_neg (sf_ops prec emax rem) X = Ok s /\ v_rescaled prec emax r s.
  Proof. intros. split; [eapply v_rel_out; [|eassumption]; eapply (rr_v_neg (bare_scale_rel prec emax rem)); ex_args|eapply v_rel_out; [|eassumption]; eapply (rr_v_neg (scale_rel rem Hp He)); ex_args]. Qed.
  Theorem C114_float_v_smul : forall N u v x y X Y r, length u = N -> v_bare u x -> bare v y -> v_rescaled prec emax u X -> rescaled prec emax v Y -> v_smul (scale_ops prec emax) u v = Ok r ->
    (exists s, v_smul (sf_ops prec emax rem) x y = Ok s /\ v_bare r s) /\ exists s, v_smul (sf_ops prec emax rem) X Y = Ok s /\ v_rescaled prec emax r s.
  Proof. intros. split; [eapply v_rel_out; [|eassumption]; eapply (rr_v_smul (bare_scale_rel prec emax rem)); ex_args|eapply v_rel_out; [|eassumption]; eapply (rr_v_smul (scale_rel rem Hp He)); ex_args]. Qed.
  Theorem C114_float_v_sum : forall N u x X r, length u = N -> v_bare u x -> v_rescaled prec emax u X -> v_sum (scale_ops prec emax) u = Ok r ->
    (exists s, v_sum (sf_ops prec emax rem) x = Ok s /\ bare r s) /\ exists s, v_sum (sf_ops prec emax rem) X = Ok s /\ rescaled prec emax r s.
  Proof. intros. split; [eapply s_rel_out; [|eassumption]; eapply (rr_v_sum (bare_scale_rel prec emax rem)); ex_args|eapply s_rel_out; [|eassumption]; eapply (rr_v_sum (scale_rel rem Hp He)); ex_args]. Qed.
  Theorem C114_float_v_dot : forall N u v x y X Y r, length u = N -> length v = N -> v_bare u x -> v_bare v y -> v_rescaled prec emax u X -> v_rescaled prec emax v Y -> v_dot (scale_ops prec emax) N u v = Ok r ->
    (exists s, v_dot (sf_ops prec emax rem) N x y = Ok s /\ bare r s) /\ exists s, v_dot (sf_ops prec emax rem) N X Y = Ok s /\ rescaled prec emax r s.
  Proof. intros. split; [eapply s_rel_out; [|eassumption]; eapply (rr_v_dot (bare_scale_rel prec emax rem)); ex_args|eapply s_rel_out; [|eassumption]; eapply (rr_v_dot (scale_rel rem Hp He)); ex_args]. Qed.
  Theorem C114_float_v_square_length : forall N u x X r, length u = N -> v_bare u x -> v_rescaled prec emax u X -> v_square_length (scale_ops prec emax) u = Ok r ->
    (exists s, v_square_length (sf_ops prec emax rem) x = Ok s /\ bare r s) /\ exists s, v_square_length (sf_ops prec emax rem) X = Ok s /\ rescaled prec emax r s.
  Proof. intros. split; [eapply s_rel_out; [|eassumption]; eapply (rr_v_square_length (bare_scale_rel prec emax rem)); ex_args|eapply s_rel_out; [|eassumption]; eapply (rr_v_square_length (scale_rel rem Hp He)); ex_args]. Qed.
  Theorem C114_float_v_cross2 : forall u v x y X Y r, length u = 2 -> length v = 2 -> v_bare u x -> v_bare v y -> v_rescaled prec emax u X -> v_rescaled prec emax v Y -> v_cross2 (scale_ops prec emax) u v = Ok r ->
    (exists s, v_cross2 (sf_ops prec emax rem) x y = Ok s /\ bare r s) /\ exists s, v_cross2 (sf_ops prec emax rem) X Y = Ok s /\ rescaled prec emax r s.
  Proof. intros. split; [eapply s_rel_out; [|eassumption]; eapply (rr_v_cross2 (bare_scale_rel prec emax rem)); ex_args|eapply s_rel_out; [|eassumption]; eapply (rr_v_cross2 (scale_rel rem Hp He)); ex_args]. Qed.
  Theorem C114_float_v_cross3 : forall u v x y X Y r, length u = 3 -> length v = 3 -> v_bare u x -> v_bare v y -> v_rescaled prec emax u X -> v_rescaled prec emax v Y -> v_cross3 (scale_ops prec emax) u v = Ok r ->
    (exists s, v_cross3 (sf_ops prec emax rem) x y = Ok s /\ v_bare r s) /\ exists s, v_cross3 (sf_ops prec emax rem) X Y = Ok s /\ v_rescaled prec emax r s.
  Proof. intros. split; [eapply v_rel_out; [|eassumption]; eapply (rr_v_cross3 (bare_scale_rel prec emax rem)); ex_args|eapply v_rel_out; [|eassumption]; eapply (rr_v_cross3 (scale_rel rem Hp He)); ex_args]. Qed.
  Theorem C114_float_v_cross4 : forall u v x y X Y r, length u = 4 -> length v = 4 -> v_bare u x -> v_bare v y -> v_rescaled prec emax u X -> v_rescaled prec emax v Y -> v_cross4 (scale_ops prec emax) u v = Ok r ->
    (exists s, v_cross4 (sf_ops prec emax rem) x y = Ok s /\ v_bare r s) /\ exists s, v_cross4 (sf_ops prec emax rem) X Y = Ok s /\ v_rescaled prec emax r s.
  Proof. intros. split; [eapply v_rel_out; [|eassumption]; eapply (rr_v_cross4 (bare_scale_rel prec emax rem)); ex_args|eapply v_rel_out; [|eassumption]; eapply (rr_v_cross4 (scale_rel rem Hp He)); ex_args]. Qed.
  Theorem C114_float_v_div : forall N u v x y X Y r, length u = N -> length v = N -> v_bare u x -> v_bare v y -> v_rescaled prec emax u X -> v_rescaled prec emax v Y -> v_div (scale_ops prec emax) N u v = Ok r ->
    (exists s, v_div (sf_ops prec emax rem) N x y = Ok s /\ v_bare r s) /\ exists s, v_div (sf_ops prec emax rem) N X Y = Ok s /\ v_rescaled prec emax r s.
  Proof. intros. split; [eapply v_rel_out; [|eassumption]; eapply (rr_v_div (@bare_scale_divrel prec emax rem)); ex_args|eapply v_rel_out; [|eassumption]; eapply (rr_v_div (scale_divrel rem Hp He)); ex_args]. Qed.
  Theorem C114_float_v_sdiv : forall N u v x y X Y r, length u = N -> v_bare u x -> bare v y -> v_rescaled prec emax u X -> rescaled prec emax v Y -> v_sdiv (scale_ops prec emax) u v = Ok r ->
    (exists s, v_sdiv (sf_ops prec emax rem) x y = Ok s /\ v_bare r s) /\ exists s, v_sdiv (sf_ops prec emax rem) X Y = Ok s /\ v_rescaled prec emax r s.
  Proof. intros. split; [eapply v_rel_out; [|eassumption]; eapply (rr_v_sdiv (@bare_scale_divrel prec emax rem)); ex_args|eapply v_rel_out; [|eassumption]; eapply (rr_v_sdiv (scale_divrel rem Hp He)); ex_args]. Qed.
  Theorem C114_float_m_add : forall M N u v x y X Y r, rect M N u -> rect M N v -> m_bare u x -> m_bare v y -> m_rescaled prec emax u X -> m_rescaled prec emax v Y -> m_add (scale_ops prec emax) M N u v = Ok r ->
    (exists s, m_add (sf_ops prec emax rem) M N x y = Ok s /\ m_bare r s) /\ exists s, m_add (sf_ops prec emax rem) M N X Y = Ok s /\ m_rescaled prec emax r s.
  Proof. intros. split; [eapply m_rel_out; [|eassumption]; eapply (rr_m_add (bare_scale_rel prec emax rem)); ex_args|eapply m_rel_out; [|eassumption]; eapply (rr_m_add (scale_rel rem Hp He)); ex_args]. Qed.
  Theorem C114_float_m_sub : forall M N u v x y X Y r, rect M N u -> rect M N v -> m_bare u x -> m_bare v y -> m_rescaled prec emax u X -> m_rescaled prec emax v Y -> m_sub (scale_ops prec emax) M N u v = Ok r ->
    (exists s, m_sub (sf_ops prec emax rem) M N x y = Ok s /\ m_bare r s) /\ exists s, m_sub (sf_ops prec emax rem) M N X Y = Ok s /\ m_rescaled prec emax r s.
  Proof. intros. split; [eapply m_rel_out; [|eassumption]; eapply (rr_m_sub (bare_scale_rel prec emax rem)); ex_args|eapply m_rel_out; [|eassumption]; eapply (rr_m_sub (scale_rel rem Hp He)); ex_args]. Qed.
  Theorem C114_float_m_mul : forall M N u v x y X Y r, rect M N u -> rect M N v -> m_bare u x -> m_bare v y -> m_rescaled prec emax u X -> m_rescaled prec emax v Y -> m_mul (scale_ops prec emax) M N u v = Ok r ->
    (exists s, m_mul (sf_ops prec emax rem) M N x y = Ok s /\ m_bare r s) /\ exists s, m_mul (sf_ops prec emax rem) M N X Y = Ok s /\ m_rescaled prec emax r s.
  Proof. intros. split; [eapply m_rel_out; [|eassumption]; eapply (rr_m_mul (bare_scale_rel prec emax rem)); ex_args|eapply m_rel_out; [|eassumption]; eapply (rr_m_mul (scale_rel rem Hp He)); ex_args]. Qed.
  Theorem C114_float_m_neg : forall M N u x X r, rect M N u -> m_bare u x -> m_rescaled prec emax u X -> m_neg (scale_ops prec emax) u = Ok r ->
    (exists s, m_neg (sf_ops prec emax rem) x = Ok s /\ m_bare r s) /\ exists s, m_neg (sf_ops prec emax rem) X = Ok s /\ m_rescaled prec emax r s.
  Proof. intros. split; [eapply m_rel_out; [|eassumption]; eapply (rr_m_neg (bare_scale_rel prec emax rem)); ex_args|eapply m_rel_out; [|eassumption]; eapply (rr_m_neg (scale_rel rem Hp He)); ex_args]. Qed.
  Theorem C114_float_m_smul : forall M N u v x y X Y r, rect M N u -> m_bare u x -> bare v y -> m_rescaled prec emax u X -> rescaled prec emax v Y -> m_smul (scale_ops prec emax) u v = Ok r ->
    (exists s, m_smul (sf_ops prec emax rem) x y = Ok s /\ m_bare r s) /\ exists s, m_smul (sf_ops prec emax rem) X Y = Ok s /\ m_rescaled prec emax r s.
  Proof. intros. split; [eapply m_rel_out; [|eassumption]; eapply (rr_m_smul (bare_scale_rel prec emax rem)); ex_args|eapply m_rel_out; [|eassumption]; eapply (rr_m_smul (scale_rel rem Hp He)); ex_args]. Qed.
  Theorem C114_float_m_sum : forall M N u x X r, rect M N u -> m_bare u x -> m_rescaled prec emax u X -> m_sum (scale_ops prec emax) u = Ok r ->
    (exists s, m_sum (sf_ops prec emax rem) x = Ok s /\ bare r s) /\ exists s, m_sum (sf_ops prec emax rem) X = Ok s /\ rescaled prec emax r s.
  Proof. intros. split; [eapply s_rel_out; [|eassumption]; eapply (rr_m_sum (bare_scale_rel prec emax rem)); ex_args|eapply s_rel_out; [|eassumption]; eapply (rr_m_sum (scale_rel rem Hp He)); ex_args]. Qed.
  Theorem C114_float_m_div : forall M N u v x y X Y r, rect M N u -> rect M N v -> m_bare u x -> m_bare v y -> m_rescaled prec emax u X -> m_rescaled prec emax v Y -> m_div (scale_ops prec emax) M N u v = Ok r ->
    (exists s, m_div (sf_ops prec emax rem) M N x y = Ok s /\ m_bare r s) /\ exists s, m_div (sf_ops prec emax rem) M N X Y = Ok s /\ m_rescaled prec emax r s.
  Proof. intros. split; [eapply m_rel_out; [|eassumption]; eapply (rr_m_div (@bare_scale_divrel prec emax rem)); ex_args|eapply m_rel_out; [|eassumption]; eapply (rr_m_div (scale_divrel rem Hp He)); ex_args]. Qed.
  Theorem C114_float_m_sdiv : forall M N u v x y X Y r, rect M N u -> m_bare u x -> bare v y -> m_rescaled prec emax u X -> rescaled prec emax v Y -> m_sdiv (scale_ops prec emax) u v = Ok r ->
    (exists s, m_sdiv (sf_ops prec emax rem) x y = Ok s /\ m_bare r s) /\ exists s, m_sdiv (sf_ops prec emax rem) X Y = Ok s /\ m_rescaled prec emax r s.
  Proof. intros. split; [eapply m_rel_out; [|eassumption]; eapply (rr_m_sdiv (@bare_scale_divrel prec emax rem)); ex_args|eapply m_rel_out; [|eassumption]; eapply (rr_m_sdiv (scale_divrel rem Hp He)); ex_args]. Qed.
  Theorem C114_float_m_dot : forall L M N u v x y X Y r, rect L M u -> rect M N v -> m_bare u x -> m_bare v y -> m_rescaled prec emax u X -> m_rescaled prec emax v Y -> m_dot (scale_ops prec emax) L M N u v = Ok r ->
    (exists s, m_dot (sf_ops prec emax rem) L M N x y = Ok s /\ m_bare r s) /\ exists s, m_dot (sf_ops prec emax rem) L M N X Y = Ok s /\ m_rescaled prec emax r s.
  Proof. intros. split; [eapply m_rel_out; [|eassumption]; eapply (rr_m_dot (bare_scale_rel prec emax rem)); ex_args|eapply m_rel_out; [|eassumption]; eapply (rr_m_dot (scale_rel rem Hp He)); ex_args]. Qed.
  Theorem C114_float_m_dot_v : forall M N u v x y X Y r, rect M N u -> length v = N -> m_bare u x -> v_bare v y -> m_rescaled prec emax u X -> v_rescaled prec emax v Y -> m_dot_v (scale_ops prec emax) M N u v = Ok r ->
    (exists s, m_dot_v (sf_ops prec emax rem) M N x y = Ok s /\ v_bare r s) /\ exists s, m_dot_v (sf_ops prec emax rem) M N X Y = Ok s /\ v_rescaled prec emax r s.
  Proof. intros. split; [eapply v_rel_out; [|eassumption]; eapply (rr_m_dot_v (bare_scale_rel prec emax rem)); ex_args|eapply v_rel_out; [|eassumption]; eapply (rr_m_dot_v (scale_rel rem Hp He)); ex_args]. Qed.
  Theorem C114_float_v_dot_m : forall M N u v x y X Y r, length u = M -> rect M N v -> v_bare u x -> m_bare v y -> v_rescaled prec emax u X -> m_rescaled prec emax v Y -> v_dot_m (scale_ops prec emax) M N u v = Ok r ->
    (exists s, v_dot_m (sf_ops prec emax rem) M N x y = Ok s /\ v_bare r s) /\ exists s, v_dot_m (sf_ops prec emax rem) M N X Y = Ok s /\ v_rescaled prec emax r s.
  Proof. intros. split; [eapply v_rel_out; [|eassumption]; eapply (rr_v_dot_m (bare_scale_rel prec emax rem)); ex_args|eapply v_rel_out; [|eassumption]; eapply (rr_v_dot_m (scale_rel rem Hp He)); ex_args]. Qed.
  Theorem C114_float_m_outer : forall M N u v x y X Y r, length u = M -> length v = N -> v_bare u x -> v_bare v y -> v_rescaled prec emax u X -> v_rescaled prec emax v Y -> m_outer (scale_ops prec emax) M N u v = Ok r ->
    (exists s, m_outer (sf_ops prec emax rem) M N x y = Ok s /\ m_bare r s) /\ exists s, m_outer (sf_ops prec emax rem) M N X Y = Ok s /\ m_rescaled prec emax r s.
  Proof. intros. split; [eapply m_rel_out; [|eassumption]; eapply (rr_m_outer (bare_scale_rel prec emax rem)); ex_args|eapply m_rel_out; [|eassumption]; eapply (rr_m_outer (scale_rel rem Hp He)); ex_args]. Qed.
  Theorem C114_float_m_det : forall N u x X r, rect N N u -> m_bare u x -> m_rescaled prec emax u X -> m_det (scale_ops prec emax) N u = Ok r ->
    (exists s, m_det (sf_ops prec emax rem) N x = Ok s /\ bare r s) /\ exists s, m_det (sf_ops prec emax rem) N X = Ok s /\ rescaled prec emax r s.
  Proof. intros. split; [eapply s_rel_out; [|eassumption]; eapply (rr_m_det (bare_scale_rel prec emax rem)); ex_args|eapply s_rel_out; [|eassumption]; eapply (rr_m_det (scale_rel rem Hp He)); ex_args]. Qed.
  Theorem C114_float_m_cofactor : forall N i j u x X r, rect N N u -> m_bare u x -> m_rescaled prec emax u X -> m_cofactor (scale_ops prec emax) N u i j = Ok r ->
    (exists s, m_cofactor (sf_ops prec emax rem) N x i j = Ok s /\ bare r s) /\ exists s, m_cofactor (sf_ops prec emax rem) N X i j = Ok s /\ rescaled prec emax r s.
  Proof. intros. split; [eapply s_rel_out; [|eassumption]; eapply (rr_m_cofactor (bare_scale_rel prec emax rem)); ex_args|eapply s_rel_out; [|eassumption]; eapply (rr_m_cofactor (scale_rel rem Hp He)); ex_args]. Qed.
  Theorem C114_float_m_adj : forall N u x X r, rect N N u -> m_bare u x -> m_rescaled prec emax u X -> m_adj (scale_ops prec emax) N u = Ok r ->
    (exists s, m_adj (sf_ops prec emax rem) N x = Ok s /\ m_bare r s) /\ exists s, m_adj (sf_ops prec emax rem) N X = Ok s /\ m_rescaled prec emax r s.
  Proof. intros. split; [eapply m_rel_out; [|eassumption]; eapply (rr_m_adj (bare_scale_rel prec emax rem)); ex_args|eapply m_rel_out; [|eassumption]; eapply (rr_m_adj (scale_rel rem Hp He)); ex_args]. Qed.
  Theorem C114_float_m_inv : forall N u x X r, rect N N u -> m_bare u x -> m_rescaled prec emax u X -> m_inv (scale_ops prec emax) N u = Ok r ->
    (exists s, m_inv (sf_ops prec emax rem) N x = Ok s /\ m_bare r s) /\ exists s, m_inv (sf_ops prec emax rem) N X = Ok s /\ m_rescaled prec emax r s.
  Proof. intros. split; [eapply m_rel_out; [|eassumption]; eapply (rr_m_inv (bare_scale_rel prec emax rem) (@bare_scale_divrel prec emax rem)); ex_args|eapply m_rel_out; [|eassumption]; eapply (rr_m_inv (scale_rel rem Hp He) (scale_divrel rem Hp He)); ex_args]. Qed.
  Theorem C114_float_c_add : forall u v x y X Y r, c_bare u x -> c_bare v y -> c_rescaled prec emax u X -> c_rescaled prec emax v Y -> c_add (scale_ops prec emax) u v = Ok r ->
    (exists s, c_add (sf_ops prec emax rem) x y = Ok s /\ c_bare r s) /\ exists s, c_add (sf_ops prec emax rem) X Y = Ok s /\ c_rescaled prec emax r s.
  Proof. intros. split; [eapply c_rel_out; [|eassumption]; eapply (rr_c_add (bare_scale_rel prec emax rem)); ex_args|eapply c_rel_out; [|eassumption]; eapply (rr_c_add (scale_rel rem Hp He)); ex_args]. Qed.
  Theorem C114_float_c_sub : forall u v x y X Y r, c_bare u x -> c_bare v y -> c_rescaled prec emax u X -> c_rescaled prec emax v Y -> c_sub (scale_ops prec emax) u v = Ok r ->
    (exists s, c_sub (sf_ops prec emax rem) x y = Ok s /\ c_bare r s) /\ exists s, c_sub (sf_ops prec emax rem) X Y = Ok s /\ c_rescaled prec emax r s.
  Proof. intros. split; [eapply c_rel_out; [|eassumption]; eapply (rr_c_sub (bare_scale_rel prec emax rem)); ex_args|eapply c_rel_out; [|eassumption]; eapply (rr_c_sub (scale_rel rem Hp He)); ex_args]. Qed.
  Theorem C114_float_c_mul : forall u v x y X Y r, c_bare u x -> c_bare v y -> c_rescaled prec emax u X -> c_rescaled prec emax v Y -> c_mul (scale_ops prec emax) u v = Ok r ->
    (exists s, c_mul (sf_ops prec emax rem) x y = Ok s /\ c_bare r s) /\ exists s, c_mul (sf_ops prec emax rem) X Y = Ok s /\ c_rescaled prec emax r s.
  Proof. intros. split; [eapply c_rel_out; [|eassumption]; eapply (rr_c_mul (bare_scale_rel prec emax rem)); ex_args|eapply c_rel_out; [|eassumption]; eapply (rr_c_mul (scale_rel rem Hp He)); ex_args]. Qed.
  Theorem C114_float_c_neg : forall u x X r, c_bare u x -> c_rescaled prec emax u X -> c_neg (scale_ops prec emax) u = Ok r ->
    (exists s, c_neg (sf_ops prec emax rem) x = Ok s /\ c_bare r s) /\ exists s, c_neg (sf_ops prec emax rem) X = Ok s /\ c_rescaled prec emax r s.
  Proof. intros. split; [eapply c_rel_out; [|eassumption]; eapply (rr_c_neg (bare_scale_rel prec emax rem)); ex_args|eapply c_rel_out; [|eassumption]; eapply (rr_c_neg (scale_rel rem Hp He)); ex_args]. Qed.
  Theorem C114_float_c_conj : forall u x X r, c_bare u x -> c_rescaled prec emax u X -> c_conj (scale_ops prec emax) u = Ok r ->
    (exists s, c_conj (sf_ops prec emax rem) x = Ok s /\ c_bare r s) /\ exists s, c_conj (sf_ops prec emax rem) X = Ok s /\ c_rescaled prec emax r s.
  Proof. intros. split; [eapply c_rel_out; [|eassumption]; eapply (rr_c_conj (bare_scale_rel prec emax rem)); ex_args|eapply c_rel_out; [|eassumption]; eapply (rr_c_conj (scale_rel rem Hp He)); ex_args]. Qed.
  Theorem C114_float_c_mul_s : forall u v x y X Y r, c_bare u x -> bare v y -> c_rescaled prec emax u X -> rescaled prec emax v Y -> c_mul_s (scale_ops prec emax) u v = Ok r ->
    (exists s, c_mul_s (sf_ops prec emax rem) x y = Ok s /\ c_bare r s) /\ exists s, c_mul_s (sf_ops prec emax rem) X Y = Ok s /\ c_rescaled prec emax r s.
  Proof. intros. split; [eapply c_rel_out; [|eassumption]; eapply (rr_c_mul_s (bare_scale_rel prec emax rem)); ex_args|eapply c_rel_out; [|eassumption]; eapply (rr_c_mul_s (scale_rel rem Hp He)); ex_args]. Qed.
  Theorem C114_float_c_norm_sqr : forall u x X r, c_bare u x -> c_rescaled prec emax u X -> c_norm_sqr (scale_ops prec emax) u = Ok r ->
    (exists s, c_norm_sqr (sf_ops prec emax rem) x = Ok s /\ bare r s) /\ exists s, c_norm_sqr (sf_ops prec emax rem) X = Ok s /\ rescaled prec emax r s.
  Proof. intros. split; [eapply s_rel_out; [|eassumption]; eapply (rr_c_norm_sqr (bare_scale_rel prec emax rem)); ex_args|eapply s_rel_out; [|eassumption]; eapply (rr_c_norm_sqr (scale_rel rem Hp He)); ex_args]. Qed.
  Theorem C114_float_c_dot : forall u v x y X Y r, c_bare u x -> c_bare v y -> c_rescaled prec emax u X -> c_rescaled prec emax v Y -> c_dot (scale_ops prec emax) u v = Ok r ->
    (exists s, c_dot (sf_ops prec emax rem) x y = Ok s /\ bare r s) /\ exists s, c_dot (sf_ops prec emax rem) X Y = Ok s /\ rescaled prec emax r s.
  Proof. intros. split; [eapply s_rel_out; [|eassumption]; eapply (rr_c_dot (bare_scale_rel prec emax rem)); ex_args|eapply s_rel_out; [|eassumption]; eapply (rr_c_dot (scale_rel rem Hp He)); ex_args]. Qed.
  Theorem C114_float_c_inv : forall u x X r, c_bare u x -> c_rescaled prec emax u X -> c_inv (scale_ops prec emax) u = Ok r ->
    (exists s, c_inv (sf_ops prec emax rem) x = Ok s /\ c_bare r s) /\ exists s, c_inv (sf_ops prec emax rem) X = Ok s /\ c_rescaled prec emax r s.
  Proof. intros. split; [eapply c_rel_out; [|eassumption]; eapply (rr_c_inv (bare_scale_rel prec emax rem) (@bare_scale_divrel prec emax rem)); ex_args|eapply c_rel_out; [|eassumption]; eapply (rr_c_inv (scale_rel rem Hp He) (scale_divrel rem Hp He)); ex_args]. Qed.
  Theorem C114_float_c_div : forall u v x y X Y r, c_bare u x -> c_bare v y -> c_rescaled prec emax u X -> c_rescaled prec emax v Y -> c_div (scale_ops prec emax) u v = Ok r ->
    (exists s, c_div (sf_ops prec emax rem) x y = Ok s /\ c_bare r s) /\ exists s, c_div (sf_ops prec emax rem) X Y = Ok s /\ c_rescaled prec emax r s.
  Proof. intros. split; [eapply c_rel_out; [|eassumption]; eapply (rr_c_div (bare_scale_rel prec emax rem) (@bare_scale_divrel prec emax rem)); ex_args|eapply c_rel_out; [|eassumption]; eapply (rr_c_div (scale_rel rem Hp He) (scale_divrel rem Hp He)); ex_args]. Qed.
  Theorem C114_float_q_add : forall u v x y X Y r, q_bare u x -> q_bare v y -> q_rescaled prec emax u X -> q_rescaled prec emax v Y -> q_add (scale_ops prec emax) u v = Ok r ->
    (exists s, q_add (sf_ops prec emax rem) x y = Ok s /\ q_bare r s) /\ exists s, q_add (sf_ops prec emax rem) X Y = Ok s /\ q_rescaled prec emax r s.
  Proof. intros. split; [eapply q_rel_out; [|eassumption]; eapply (rr_q_add (bare_scale_rel prec emax rem)); ex_args|eapply q_rel_out; [|eassumption]; eapply (rr_q_add (scale_rel rem Hp He)); ex_args]. Qed.
  Theorem C114_float_q_sub : forall u v x y X Y r, q_bare u x -> q_bare v y -> q_rescaled prec emax u X -> q_rescaled prec emax v Y -> q_sub (scale_ops prec emax) u v = Ok r ->
    (exists s, q_sub (sf_ops prec emax rem) x y = Ok s /\ q_bare r s) /\ exists s, q_sub (sf_ops prec emax rem) X Y = Ok s /\ q_rescaled prec emax r s.
  Proof. intros. split; [eapply q_rel_out; [|eassumption]; eapply (rr_q_sub (bare_scale_rel prec emax rem)); ex_args|eapply q_rel_out; [|eassumption]; eapply (rr_q_sub (scale_rel rem Hp He)); ex_args]. Qed.
  Theorem C114_float_q_mul : forall u v x y X Y r, q_bare u x -> q_bare v y -> q_rescaled prec emax u X -> q_rescaled prec emax v Y -> q_mul (scale_ops prec emax) u v = Ok r ->
    (exists s, q_mul (sf_ops prec emax rem) x y = Ok s /\ q_bare r s) /\ exists s, q_mul (sf_ops prec emax rem) X Y = Ok s /\ q_rescaled prec emax r s.
  Proof. intros. split; [eapply q_rel_out; [|eassumption]; eapply (rr_q_mul (bare_scale_rel prec emax rem)); ex_args|eapply q_rel_out; [|eassumption]; eapply (rr_q_mul (scale_rel rem Hp He)); ex_args]. Qed.
  Theorem C114_float_q_neg : forall u x X r, q_bare u x -> q_rescaled prec emax u X -> q_neg (scale_ops prec emax) u = Ok r ->
    (exists s, q_neg (sf_ops prec emax rem) x = Ok s /\ q_bare r s) /\ exists s, q_neg (sf_ops prec emax rem) X = Ok s /\ q_rescaled prec emax r s.
  Proof. intros. split; [eapply q_rel_out; [|eassumption]; eapply (rr_q_neg (bare_scale_rel prec emax rem)); ex_args|eapply q_rel_out; [|eassumption]; eapply (rr_q_neg (scale_rel rem Hp He)); ex_args]. Qed.
  Theorem C114_float_q_conj : forall u x X r, q_bare u x -> q_rescaled prec emax u X -> q_conj (scale_ops prec emax) u = Ok r ->
    (exists s, q_conj (sf_ops prec emax rem) x = Ok s /\ q_bare r s) /\ exists s, q_conj (sf_ops prec emax rem) X = Ok s /\ q_rescaled prec emax r s.
  Proof. intros. split; [eapply q_rel_out; [|eassumption]; eapply (rr_q_conj (bare_scale_rel prec emax rem)); ex_args|eapply q_rel_out; [|eassumption]; eapply (rr_q_conj (scale_rel rem Hp He)); ex_args]. Qed.
  Theorem C114_float_q_mul_s : forall u v x y X Y r, q_bare u x -> bare v y -> q_rescaled prec emax u X -> rescaled prec emax v Y -> q_mul_s (scale_ops prec emax) u v = Ok r ->
    (exists s, q_mul_s (sf_ops prec emax rem) x y = Ok s /\ q_bare r s) /\ exists s, q_mul_s (sf_ops prec emax rem) X Y = Ok s /\ q_rescaled prec emax r s.
  Proof. intros. split; [eapply q_rel_out; [|eassumption]; eapply (rr_q_mul_s (bare_scale_rel prec emax rem)); ex_args|eapply q_rel_out; [|eassumption]; eapply (rr_q_mul_s (scale_rel rem Hp He)); ex_args]. Qed.
  Theorem C114_float_q_mul_c : forall u v x y X Y r, q_bare u x -> c_bare v y -> q_rescaled prec emax u X -> c_rescaled prec emax v Y -> q_mul_c (scale_ops prec emax) u v = Ok r ->
    (exists s, q_mul_c (sf_ops prec emax rem) x y = Ok s /\ q_bare r s) /\ exists s, q_mul_c (sf_ops prec emax rem) X Y = Ok s /\ q_rescaled prec emax r s.
  Proof. intros. split; [eapply q_rel_out; [|eassumption]; eapply (rr_q_mul_c (bare_scale_rel prec emax rem)); ex_args|eapply q_rel_out; [|eassumption]; eapply (rr_q_mul_c (scale_rel rem Hp He)); ex_args]. Qed.
  Theorem C114_float_c_mul_q : forall u v x y X Y r, c_bare u x -> q_bare v y -> c_rescaled prec emax u X -> q_rescaled prec emax v Y -> c_mul_q (scale_ops prec emax) u v = Ok r ->
    (exists s, c_mul_q (sf_ops prec emax rem) x y = Ok s /\ q_bare r s) /\ exists s, c_mul_q (sf_ops prec emax rem) X Y = Ok s /\ q_rescaled prec emax r s.
  Proof. intros. split; [eapply q_rel_out; [|eassumption]; eapply (rr_c_mul_q (bare_scale_rel prec emax rem)); ex_args|eapply q_rel_out; [|eassumption]; eapply (rr_c_mul_q (scale_rel rem Hp He)); ex_args]. Qed.
  Theorem C114_float_q_norm_sqr : forall u x X r, q_bare u x -> q_rescaled prec emax u X -> q_norm_sqr (scale_ops prec emax) u = Ok r ->
    (exists s, q_norm_sqr (sf_ops prec emax rem) x = Ok s /\ bare r s) /\ exists s, q_norm_sqr (sf_ops prec emax rem) X = Ok s /\ rescaled prec emax r s.
  Proof. intros. split; [eapply s_rel_out; [|eassumption]; eapply (rr_q_norm_sqr (bare_scale_rel prec emax rem)); ex_args|eapply s_rel_out; [|eassumption]; eapply (rr_q_norm_sqr (scale_rel rem Hp He)); ex_args]. Qed.
  Theorem C114_float_q_dot : forall u v x y X Y r, q_bare u x -> q_bare v y -> q_rescaled prec emax u X -> q_rescaled prec emax v Y -> q_dot (scale_ops prec emax) u v = Ok r ->
    (exists s, q_dot (sf_ops prec emax rem) x y = Ok s /\ bare r s) /\ exists s, q_dot (sf_ops prec emax rem) X Y = Ok s /\ rescaled prec emax r s.
  Proof. intros. split; [eapply s_rel_out; [|eassumption]; eapply (rr_q_dot (bare_scale_rel prec emax rem)); ex_args|eapply s_rel_out; [|eassumption]; eapply (rr_q_dot (scale_rel rem Hp He)); ex_args]. Qed.
  Theorem C114_float_q_inv : forall u x X r, q_bare u x -> q_rescaled prec emax u X -> q_inv (scale_ops prec emax) u = Ok r ->
    (exists s, q_inv (sf_ops prec emax rem) x = Ok s /\ q_bare r s) /\ exists s, q_inv (sf_ops prec emax rem) X = Ok s /\ q_rescaled prec emax r s.
  Proof. intros. split; [eapply q_rel_out; [|eassumption]; eapply (rr_q_inv (bare_scale_rel prec emax rem) (@bare_scale_divrel prec emax rem)); ex_args|eapply q_rel_out; [|eassumption]; eapply (rr_q_inv (scale_rel rem Hp He) (scale_divrel rem Hp He)); ex_args]. Qed.
  Theorem C114_float_q_div : forall u v x y X Y r, q_bare u x -> q_bare v y -> q_rescaled prec emax u X -> q_rescaled prec emax v Y -> q_div (scale_ops prec emax) u v = Ok r ->
    (exists s, q_div (sf_ops prec emax rem) x y = Ok s /\ q_bare r s) /\ exists s, q_div (sf_ops prec emax rem) X Y = Ok s /\ q_rescaled prec emax r s.
  Proof. intros. split; [eapply q_rel_out; [|eassumption]; eapply (rr_q_div (bare_scale_rel prec emax rem) (@bare_scale_divrel prec emax rem)); ex_args|eapply q_rel_out; [|eassumption]; eapply (rr_q_div (scale_rel rem Hp He) (scale_divrel rem Hp He)); ex_args]. Qed.
  Theorem C114_float_rot2_apply : forall u v x y X Y r, length v = 2 -> c_bare u x -> v_bare v y -> c_rescaled prec emax u X -> v_rescaled prec emax v Y -> rot2_apply (scale_ops prec emax) u v = Ok r ->
    (exists s, rot2_apply (sf_ops prec emax rem) x y = Ok s /\ v_bare r s) /\ exists s, rot2_apply (sf_ops prec emax rem) X Y = Ok s /\ v_rescaled prec emax r s.
  Proof. intros. split; [eapply v_rel_out; [|eassumption]; eapply (rr_rot2_apply (bare_scale_rel prec emax rem)); ex_args|eapply v_rel_out; [|eassumption]; eapply (rr_rot2_apply (scale_rel rem Hp He)); ex_args]. Qed.
  Theorem C114_float_rot3_apply : forall u v x y X Y r, length v = 3 -> q_bare u x -> v_bare v y -> q_rescaled prec emax u X -> v_rescaled prec emax v Y -> rot3_apply (scale_ops prec emax) u v = Ok r ->
    (exists s, rot3_apply (sf_ops prec emax rem) x y = Ok s /\ v_bare r s) /\ exists s, rot3_apply (sf_ops prec emax rem) X Y = Ok s /\ v_rescaled prec emax r s.
  Proof. intros. split; [eapply v_rel_out; [|eassumption]; eapply (rr_rot3_apply (bare_scale_rel prec emax rem)); ex_args|eapply v_rel_out; [|eassumption]; eapply (rr_rot3_apply (scale_rel rem Hp He)); ex_args]. Qed.
  Theorem C114_float_mo_apply_self : forall u v x y X Y r, rect 2 2 u -> m_bare u x -> bare v y -> m_rescaled prec emax u X -> rescaled prec emax v Y -> mo_apply_self (scale_ops prec emax) u v = Ok r ->
    (exists s, mo_apply_self (sf_ops prec emax rem) x y = Ok s /\ bare r s) /\ exists s, mo_apply_self (sf_ops prec emax rem) X Y = Ok s /\ rescaled prec emax r s.
  Proof. intros. split; [eapply s_rel_out; [|eassumption]; eapply (rr_mo_apply_self (bare_scale_rel prec emax rem) (@bare_scale_divrel prec emax rem)); ex_args|eapply s_rel_out; [|eassumption]; eapply (rr_mo_apply_self (scale_rel rem Hp He) (scale_divrel rem Hp He)); ex_args]. Qed.
End C114_float.

(* ------------------------------------------------------------------------- *)
(** * Explicit conditions                                                       *)
Local Open Scope R_scope.
Lemma Forall2_length : forall A B (P : A -> B -> Prop) l m, Forall2 P l m -> length l = length m.
Proof. intros A B P l m H. induction H; cbn; congruence. Qed.
Lemma Forall2_vk : forall A B (P : A -> B -> Prop) N f g, Forall2 P (vk N f) (vk N g) <-> forall i, (i < N)%nat -> P (f i) (g i).
Proof.
  intros A B P N f g. unfold vk. split.
  - intros H i Hi. assert (Hi' : In i (seq 0 N)) by (apply in_seq; lia). revert H Hi'. clear. generalize (seq 0 N). intros l. induction l as [|h l IH]; cbn; intros H [].
    + subst h. inversion H; auto.
    + inversion H; auto.
  - intros H. assert (G : forall i, In i (seq 0 N) -> P (f i) (g i)) by (intros i Hi; apply in_seq in Hi; apply H; lia).
    revert G. clear. generalize (seq 0 N). intros l. induction l as [|h l IH]; cbn; intros H; constructor; auto.
Qed.
Lemma Forall2_mk : forall A B (P : A -> B -> Prop) M N f g, Forall2 (Forall2 P) (mk M N f) (mk M N g) <-> forall i j, (i < M)%nat -> (j < N)%nat -> P (f i j) (g i j).
Proof.
  intros. unfold mk. rewrite Forall2_vk. split; intros H i.
  - intros j Hi Hj. pose proof (proj1 (Forall2_vk _ _ _ _) (H i Hi)) as G. apply G. auto.
  - intros Hi. apply Forall2_vk. intros j Hj. auto.
Qed.
Lemma map_res_entries : forall A B (f : A -> res B) l r, map_res f l = Ok r -> Forall2 (fun a b => f a = Ok b) l r.
Proof.
  intros A B f. induction l as [|h l IH]; cbn [map_res]; intros r E.
  - apply Ok_inj in E. subst r. constructor.
  - destruct (f h) as [b| | |] eqn:Eb; cbn [bind] in E; try discriminate. destruct (map_res f l) as [r'| | |] eqn:Er; cbn [bind] in E; try discriminate.
    apply Ok_inj in E. subst r. constructor; auto.
Qed.
Lemma m_map_entries : forall A B (ob : Ops B) (f : A -> res B) M N h r, m_map f (mk M N h) = Ok r -> exists g, r = mk M N g /\ forall i j, (i < M)%nat -> (j < N)%nat -> f (h i j) = Ok (g i j).
Proof.
  intros A B ob f M N h r E. rewrite m_map_res in E. apply map_res_entries in E.
  assert (F : Forall2 (Forall2 (fun a b => f a = Ok b)) (mk M N h) r). { revert E. generalize (mk M N h). intros l E. induction E; constructor; auto. apply map_res_entries. auto. }
  assert (R : rect M N r).
  { pose proof (rect_mk M N h) as (L & Fr). split. { rewrite <- (Forall2_length F). auto. }
    clear - F Fr. revert F Fr. generalize (mk M N h). intros l F. induction F as [|a b l r H F IH]; intros Fr; constructor.
    - inversion Fr; subst. symmetry. apply (Forall2_length H).
    - apply IH. inversion Fr; auto. }
  destruct (mk_ex ob R) as (g & ->). exists g. split; auto. intros i j Hi Hj. apply (proj1 (Forall2_mk _ _ _ _ _) F i j Hi Hj).
Qed.
Section Explicit.
  Context (prec emax : Z) (rem : spec_float -> spec_float -> spec_float) (Hp : (0 < prec)%Z) (He : (prec < emax)%Z).
  Local Notation fo := (sf_ops prec emax rem).
  Local Notation so := (scale_ops prec emax).
  Local Notation fexp := (SpecFloat.fexp prec emax).
  Local Notation rnd := (round radix2 fexp ZnearestE).
  Local Notation number := (number_of prec emax).
  Local Notation emin := (SpecFloat.emin prec emax).
  Local Notation bp := (bpow radix2).
  Local Notation small := (bp (emin + prec - 1)).
  Local Notation sh := (shifted prec emax).
  Local Notation add := (SFadd prec emax).
  Local Notation mul := (SFmul prec emax).
  Local Notation div := (SFdiv prec emax).
  Local Instance vexpE : Valid_exp fexp. Proof. apply (@fexp_correct prec emax Hp). Qed.

  Lemma sh_value : forall e x y, sh e x y -> value y = bp e * value x.
  Proof. intros e x y (_ & _ & H). rewrite pw in H. exact H. Qed.
  Lemma sh_intro : forall e x y, number x -> number y -> value y = bp e * value x -> sh e x y.
  Proof. intros e x y N1 N2 H. split; auto. split; auto. rewrite pw. exact H. Qed.
  Lemma add_shift : forall e x y x' y', sh e x x' -> sh e y y' -> finite (add x y) = true -> finite (add x' y') = true -> sh e (add x y) (add x' y').
  Proof.
    intros e x y x' y' H1 H2 F F'. pose proof (sh_value H1) as V1. pose proof (sh_value H2) as V2. destruct H1 as (Nx & Nx' & _), H2 as (Ny & Ny' & _).
    apply sh_intro; try (split; auto; apply add_valid; try apply Nx; try apply Ny; try apply Nx'; try apply Ny'; auto).
    rewrite !(@add_round prec emax Hp He) by (auto; try apply Nx; try apply Ny; try apply Nx'; try apply Ny'). rewrite V1, V2, <- Rmult_plus_distr_l.
    apply (@rnd_scale_plus prec emax Hp); try rewrite <- V1; try rewrite <- V2; apply fmt; auto; try apply Nx; try apply Ny; try apply Nx'; try apply Ny'.
  Qed.
  Lemma fs_shift : forall k f g e, (forall i, (i <= k)%nat -> sh e (f i) (g i)) -> finite (fs prec emax k f) = true -> finite (fs prec emax k g) = true ->
    sh e (fs prec emax k f) (fs prec emax k g).
  Proof.
    induction k as [|k IH]; intros f g e H F F'; cbn [fs] in *; [apply H; lia|].
    destruct (add_fin _ _ _ _ F) as (F1 & F2), (add_fin _ _ _ _ F') as (F1' & F2'). apply add_shift; auto.
  Qed.
  Lemma mul_shift : forall e f x y x' y', sh e x x' -> sh f y y' -> value x = 0 \/ value y = 0 \/ no_underflow prec emax (e + f) (mul x y) = true ->
    finite (mul x y) = true -> finite (mul x' y') = true -> sh (e + f) (mul x y) (mul x' y').
  Proof.
    intros e f x y x' y' H1 H2 H F F'. pose proof (sh_value H1) as V1. pose proof (sh_value H2) as V2. destruct H1 as (Nx & Nx' & _), H2 as (Ny & Ny' & _).
    assert (N : number (mul x y)) by (split; auto; apply mul_valid; try apply Nx; try apply Ny; auto).
    assert (N' : number (mul x' y')) by (split; auto; apply mul_valid; try apply Nx'; try apply Ny'; auto).
    assert (W : value (mul x y) = rnd (value x * value y)) by (apply (@mul_round prec emax Hp He); try apply Nx; try apply Ny; auto).
    assert (W' : value (mul x' y') = rnd (value x' * value y')) by (apply (@mul_round prec emax Hp He); try apply Nx'; try apply Ny'; auto).
    apply sh_intro; auto. rewrite W'. replace (value x' * value y') with (bp (e + f) * (value x * value y)) by (rewrite V1, V2, bpow_plus; ring).
    destruct H as [H|[H|H]].
    - rewrite W, H, Rmult_0_l, Rmult_0_r. rewrite (round0 prec emax). ring.
    - rewrite W, H, !Rmult_0_r. rewrite (round0 prec emax). ring.
    - destruct (@far_value prec emax Hp _ _ N H) as (S1 & S2). rewrite W in *. apply (@rnd_scale_far prec emax Hp); auto.
  Qed.

  (** Sums: only overflow matters. *)
  Theorem C114_sum : forall e x y s s', length x <> 0%nat -> Forall2 (sh e) x y -> v_sum fo x = Ok s -> v_sum fo y = Ok s' ->
    finite s = true -> finite s' = true -> sh e s s'.
  Proof.
    intros e x y s s' L H E E' F F'. pose proof (Forall2_length H) as L'. remember (length x) as N eqn:Q. symmetry in Q, L'. destruct N as [|k]; [congruence|].
    destruct (vk_ex fo x Q) as (f & ->), (vk_ex fo y L') as (g & ->). rewrite v_sum_fs in E, E'. apply Ok_inj in E, E'. subst s s'.
    apply fs_shift; auto. intros i Hi. apply (proj1 (Forall2_vk _ _ _ _) H). lia.
  Qed.
  (** Dot products: no product of non-zero numbers may come near the subnormal numbers. *)
  Theorem C114_dot : forall N e f x y x' y' s s', N <> 0%nat -> length x = N -> length y = N -> Forall2 (sh e) x x' -> Forall2 (sh f) y y' ->
    Forall2 (fun a b => value a = 0 \/ value b = 0 \/ no_underflow prec emax (e + f) (mul a b) = true) x y ->
    v_dot fo N x y = Ok s -> v_dot fo N x' y' = Ok s' -> finite s = true -> finite s' = true -> sh (e + f) s s'.
  Proof.
    intros N e f x y x' y' s s' HN Lx Ly H1 H2 HU E E' F F'. destruct N as [|k]; [congruence|].
    pose proof (Forall2_length H1) as L1. rewrite Lx in L1. pose proof (Forall2_length H2) as L2. rewrite Ly in L2. symmetry in L1, L2.
    destruct (vk_ex fo x Lx) as (a & ->), (vk_ex fo y Ly) as (b & ->), (vk_ex fo x' L1) as (a' & ->), (vk_ex fo y' L2) as (b' & ->).
    rewrite v_dot_fs in E, E'. apply Ok_inj in E, E'. subst s s'. apply fs_shift; auto. intros i Hi.
    apply mul_shift; [apply (proj1 (Forall2_vk _ _ _ _) H1); lia|apply (proj1 (Forall2_vk _ _ _ _) H2); lia|apply (proj1 (Forall2_vk _ _ _ _) HU); lia|..].
    - apply (@fs_fin prec emax k _ F i Hi).
    - apply (@fs_fin prec emax k _ F' i Hi).
  Qed.
  Lemma square_length_dot : forall x, v_square_length fo x = v_dot fo (length x) x x.
  Proof.
    intros x. destruct (vk_ex fo x eq_refl) as (f & E). rewrite E at 1 3 4. generalize (length x). clear. intros [|k]; [reflexivity|]. rewrite v_sq_fs, v_dot_fs. reflexivity.
  Qed.
  Theorem C114_square_length : forall e x y s s', length x <> 0%nat -> Forall2 (sh e) x y ->
    Forall (fun a => value a = 0 \/ no_underflow prec emax (e + e) (mul a a) = true) x ->
    v_square_length fo x = Ok s -> v_square_length fo y = Ok s' -> finite s = true -> finite s' = true -> sh (e + e) s s'.
  Proof.
    intros e x y s s' L H HU E E' F F'. rewrite square_length_dot in E, E'. pose proof (Forall2_length H) as L'. rewrite <- L' in E'.
    eapply (@C114_dot (length x) e e x x y y); eauto. clear - HU. induction HU; constructor; tauto || auto.
  Qed.

  Lemma sqrt_shift : forall e s s', sh (e + e) s s' -> 0 <= value s -> sh e (SFsqrt prec emax s) (SFsqrt prec emax s').
  Proof.
    intros e s s' H P. pose proof (sh_value H) as V. destruct H as ((Vs & Fs) & (Vs' & Fs') & _).
    assert (P' : 0 <= value s'). { rewrite V. apply Rmult_le_pos; auto. apply bpow_ge_0. }
    destruct (@sqrt_round prec emax Hp He s Vs Fs P) as (F1 & W1), (@sqrt_round prec emax Hp He s' Vs' Fs' P') as (F2 & W2).
    apply sh_intro; try (split; auto; apply sqrt_valid; auto). rewrite W1, W2.
    assert (Q : sqrt (value s') = bp e * sqrt (value s)).
    { rewrite V, bpow_plus. rewrite sqrt_mult; auto; [|apply Rmult_le_pos; apply bpow_ge_0]. rewrite sqrt_square by apply bpow_ge_0. reflexivity. }
    destruct (Req_dec (value s) 0) as [Z|Z]. { rewrite Q, Z, sqrt_0, Rmult_0_r, (round0 prec emax). ring. }
    assert (B : forall t, valid_binary prec emax t = true -> finite t = true -> 0 < value t -> small <= Rabs (sqrt (value t))).
    { intros t Vt Ft Pt. rewrite Rabs_pos_eq by apply sqrt_pos. pose proof (@pos_ge prec emax t Vt Ft Pt) as G.
      apply Rle_trans with (sqrt (small * small)). { rewrite sqrt_square by apply bpow_ge_0. apply Rle_refl. }
      apply sqrt_le_1_alt. eapply Rle_trans; [|exact G]. rewrite <- bpow_plus. apply bpow_le. unfold SpecFloat.emin. lia. }
    pose proof (B s Vs Fs ltac:(lra)) as B1.
    assert (B2 : small <= Rabs (sqrt (value s'))). { apply B; auto. rewrite V. apply Rmult_lt_0_compat; [apply bpow_gt_0|lra]. }
    rewrite (@rnd_x prec emax _ B2), (@rnd_x prec emax _ B1), Q. apply (@xrnd_scale prec).
  Qed.
  Theorem C114_length : forall e x y s s', length x <> 0%nat -> Forall2 (sh e) x y ->
    Forall (fun a => value a = 0 \/ no_underflow prec emax (e + e) (mul a a) = true) x ->
    v_square_length fo x = Ok s -> v_square_length fo y = Ok s' -> finite s = true -> finite s' = true ->
    exists l l', v_length fo (SFsqrt prec emax) x = Ok l /\ v_length fo (SFsqrt prec emax) y = Ok l' /\ sh e l l'.
  Proof.
    intros e x y s s' L H HU E E' F F'. pose proof (@C114_square_length e x y s s' L H HU E E' F F') as S.
    exists (SFsqrt prec emax s), (SFsqrt prec emax s'). unfold v_length. rewrite E, E'. split; auto. split; auto. apply sqrt_shift; auto.
    destruct (vk_ex fo x eq_refl) as (f & Ef). destruct (length x) as [|k] eqn:Q; [congruence|]. rewrite Ef, v_sq_fs in E. apply Ok_inj in E. subst s.
    assert (Vf : forall i, (i <= k)%nat -> valid_binary prec emax (f i) = true).
    { intros i Hi. assert (G : Forall number x). { clear - H. induction H as [|? ? ? ? (? & _)]; constructor; auto. }
      rewrite Ef in G. apply (proj1 (Forall_vk _ _ _)) with (i := i) in G; [apply G|lia]. }
    apply fs_nonneg; auto.
    - intros i Hi. pose proof (@fs_fin prec emax k _ F i Hi) as Fi. rewrite (@mul_round prec emax Hp He) by auto. rewrite <- (round0 prec emax). apply (@rnd_le prec emax Hp). nra.
    - intros i Hi. apply mul_valid; auto.
  Qed.
  (** Normalization does not depend on the unit of length. *)
  Theorem C114_normalize : forall e x y s s' l, length x <> 0%nat -> Forall2 (sh e) x y ->
    Forall (fun a => value a = 0 \/ no_underflow prec emax (e + e) (mul a a) = true) x ->
    v_square_length fo x = Ok s -> v_square_length fo y = Ok s' -> finite s = true -> finite s' = true ->
    v_length fo (SFsqrt prec emax) x = Ok l -> value l <> 0 ->
    exists n n', v_normalize fo (SFsqrt prec emax) x = Ok n /\ v_normalize fo (SFsqrt prec emax) y = Ok n' /\
      length n = length x /\ Forall2 (fun a b => (finite a = true <-> finite b = true) /\ (finite a = true -> value a = value b)) n n'.
  Proof.
    intros e x y s s' l L H HU E E' F F' El Zl. destruct (@C114_length e x y s s' L H HU E E' F F') as (l0 & l' & El0 & El' & Sl).
    rewrite El in El0. apply Ok_inj in El0. subst l0. unfold v_normalize. rewrite El, El'. cbn [bind].
    exists (map (fun a => div a l) x), (map (fun a => div a l') y). split; [apply v_map_pure|]. split; [apply v_map_pure|]. split; [apply map_length|].
    pose proof (sh_value Sl) as Vl. destruct Sl as (Nl & Nl' & _). pose proof (bpow_gt_0 radix2 e) as Pe.
    assert (Zl' : value l' <> 0). { rewrite Vl. intros Q. apply Rmult_integral in Q. destruct Q; [lra|contradiction]. }
    clear - H Vl Nl Nl' Zl Zl' Pe Hp He. induction H as [|a b x y Hab H IH]; cbn [map]; constructor; auto. clear IH H.
    pose proof (sh_value Hab) as V. destruct Hab as (Na & Nb & _).
    assert (Q : value b / value l' = value a / value l). { rewrite V, Vl. field. split; [auto|lra]. }
    assert (D : forall a l, number a -> number l -> value l <> 0 -> finite (div a l) = true -> number (div a l) /\ value (div a l) = rnd (value a / value l)).
    { intros u v (Vu & Fu) (Vv & Fv) Zv Fd. split; [split; auto; apply div_valid; auto|]. apply (@div_round prec emax Hp He); auto. }
    split; [split|]; intros Fd.
    - destruct (D a l Na Nl Zl Fd) as (Nd & W). pose proof (@number_lt prec emax _ Nd) as Bd. rewrite W, <- Q in Bd. destruct (@div_in prec emax Hp He b l' Nb Nl' Zl' Bd) as ((_ & ?) & _). auto.
    - destruct (D b l' Nb Nl' Zl' Fd) as (Nd & W). pose proof (@number_lt prec emax _ Nd) as Bd. rewrite W, Q in Bd. destruct (@div_in prec emax Hp He a l Na Nl Zl Bd) as ((_ & ?) & _). auto.
    - destruct (D a l Na Nl Zl Fd) as (Nd & W). pose proof (@number_lt prec emax _ Nd) as Bd. rewrite W, <- Q in Bd. destruct (@div_in prec emax Hp He b l' Nb Nl' Zl' Bd) as (_ & W').
      rewrite W, W', Q. reflexivity.
  Qed.

  (** ** Rows and columns of a matrix may have different units *)
  Definition total (a : nat -> Z) (l : list nat) : Z := fold_right (fun i s => a i + s)%Z 0%Z l.
  Lemma total_remove : forall a l k, (k < length l)%nat -> total a l = (a (nth k l 0%nat) + total a (remove_at k l))%Z.
  Proof.
    intros a. induction l as [|h t IH]; intros [|k] H; cbn [length] in H; try lia; [reflexivity|]. cbn [nth remove_at].
    change (total a (h :: t)) with (a h + total a t)%Z. change (total a (h :: remove_at k t)) with (a h + total a (remove_at k t))%Z. rewrite (IH k) by lia. lia.
  Qed.
  Lemma remove_at_in : forall k (l : list nat) x, In x (remove_at k l) -> In x l.
  Proof. induction k; intros [|h l] x H; cbn in *; auto. destruct H; auto. Qed.
  Lemma so_add : forall x y r, o_add so x y = Ok r -> common z_units (snd x) (snd y) = Ok (snd r).
  Proof.
    intros [x a] [y b] r. cbn [o_add scale_ops fst snd]. destruct (common z_units a b) as [c| | |]; cbn [bind]; try discriminate. unfold keep. destruct (_ && _)%bool; [|discriminate].
    intros E. apply Ok_inj in E. subst r. reflexivity.
  Qed.
  Lemma so_mul : forall x y r, o_mul so x y = Ok r -> snd r = times z_units (snd x) (snd y).
  Proof.
    intros [x a] [y b] r. cbn [o_mul scale_ops fst snd]. unfold keep. destruct (_ || _)%bool; [|discriminate]. intros E. apply Ok_inj in E. subst r. reflexivity.
  Qed.
  Lemma so_div : forall x y r h, snd y = Some h -> o_div so x y = Ok r -> snd r = times z_units (snd x) (Some (- h)%Z).
  Proof.
    intros [x a] [y b] r h Eb. cbn [snd] in Eb. subst b. cbn [o_div scale_ops fst snd]. destruct (zero_float y); [discriminate|]. unfold keep. destruct (_ || _)%bool; [|discriminate].
    intros E. apply Ok_inj in E. subst r. reflexivity.
  Qed.
  Lemma so_neg : forall k c r, rneg so k c = Ok r -> snd r = snd c.
  Proof. intros k c r. unfold rneg. destruct (_ =? _)%nat; intros E; [|cbn in E]; apply Ok_inj in E; subst r; reflexivity. Qed.
  Lemma fold_unit : forall (X : Type) (body : X -> res (quantity spec_float Z)) t (l : list X) acc r,
    (forall k p, In k l -> body k = Ok p -> snd p = Some t) -> (snd acc = None \/ snd acc = Some t) ->
    fold_res (fun a k => let! p := body k in o_add so a p) acc l = Ok r -> (l = [] -> snd acc = Some t) -> snd r = Some t.
  Proof.
    intros X body t. induction l as [|k l IH]; intros acc r H A E N; cbn [fold_res] in E.
    - apply Ok_inj in E. subst r. auto.
    - destruct (body k) as [p| | |] eqn:Eb; cbn [bind] in E; try discriminate. destruct (o_add so acc p) as [a'| | |] eqn:Ea; cbn [bind] in E; try discriminate.
      pose proof (H k p ltac:(left; auto) Eb) as Ep. apply so_add in Ea. rewrite Ep in Ea.
      assert (S : snd a' = Some t). { destruct A as [A|A]; rewrite A in Ea; cbn in Ea. { apply Ok_inj in Ea. auto. } rewrite Z.eqb_refl in Ea. apply Ok_inj in Ea. auto. }
      eapply IH; [|right; exact S|exact E|auto]. intros. eapply H; eauto. right. auto.
  Qed.
  Lemma bind_assoc' : forall (A B C : Type) (x : res A) (f : A -> res B) (g : B -> res C), bind (bind x f) g = bind x (fun a => bind (f a) g).
  Proof. intros A B C [ | | | ] f g; reflexivity. Qed.
  Lemma rdet_unit : forall (q : list (list (quantity spec_float Z))) (a b : nat -> Z) rows cols r,
    (forall i j, In i rows -> In j cols -> exists x, m_index q (i, j) = Ok ((x, Some (a i + b j)%Z) : quantity spec_float Z)) -> length rows = length cols ->
    rdet so q rows cols = Ok r -> snd r = Some (total a rows + total b cols)%Z.
  Proof.
    intros q a b. induction rows as [|i rows IH]; intros cols r H L E.
    - destruct cols; [|discriminate]. cbn in E. apply Ok_inj in E. subst r. reflexivity.
    - cbn [rdet] in E. set (body := fun k => let! x := m_index q (i, nth k cols 0%nat) in let! c := rdet so q rows (remove_at k cols) in let! c1 := rneg so k c in o_mul so x c1).
      assert (E' : fold_res (fun a k => let! p := body k in o_add so a p) (o_zero so) (seq 0 (length cols)) = Ok r).
      { rewrite <- E. apply fold_res_ext. intros acc k _. unfold body. rewrite !bind_assoc'. apply bind_ext. intros ? _. rewrite !bind_assoc'. apply bind_ext. intros ? _. rewrite !bind_assoc'. apply bind_ext. reflexivity. }
      refine (@fold_unit nat body _ (seq 0 (length cols)) (o_zero so) r _ (or_introl eq_refl) E' _).
      + intros k p Hk Eb. apply in_seq in Hk. cbn [length] in L. unfold body in Eb. destruct (H i (nth k cols 0%nat)) as (x & Ex); [left; auto|apply nth_In; lia|]. rewrite Ex in Eb. cbn [bind] in Eb.
        destruct (rdet so q rows (remove_at k cols)) as [c| | |] eqn:Ec; cbn [bind] in Eb; try discriminate. destruct (rneg so k c) as [c1| | |] eqn:En; cbn [bind] in Eb; try discriminate.
        apply so_neg in En. apply so_mul in Eb. rewrite En in Eb. cbn [snd] in Eb. rewrite Eb. erewrite IH; [| | |exact Ec].
        * cbn [times z_units u_mul]. f_equal. rewrite (@total_remove b cols k) by lia. cbn [total fold_right]. fold (total a rows). lia.
        * intros i' j' Hi Hj. apply H; [right; auto|]. eapply remove_at_in; eauto.
        * rewrite remove_at_length by lia. lia.
      + intros Q. destruct cols; [discriminate L|]. discriminate Q.
  Qed.

  Lemma tagged : forall N a b x y, rect N N x -> rect N N y ->
    (forall i j, (i < N)%nat -> (j < N)%nat -> sh (a i + b j) (mget fo x i j) (mget fo y i j)) ->
    let q := mk N N (fun i j => (mget fo x i j, Some (a i + b j)%Z)) in rect N N q /\ m_bare q x /\ m_rescaled prec emax q y.
  Proof.
    intros N a b x y Rx Ry H q. split; [apply rect_mk|]. destruct (mk_ex fo Rx) as (f & ->), (mk_ex fo Ry) as (g & ->). unfold q. split; apply Forall2_mk.
    - intros. unfold bare. cbn [fst]. apply mget_mk; auto.
    - intros i j Hi Hj. specialize (H i j Hi Hj). rewrite (@mget_mk _ fo N N g) in H by auto. exact H.
  Qed.
  (** If row i is multiplied by 2^(a i) and column j by 2^(b j), det is multiplied by all these factors ... *)
  Theorem C114_det : forall N a b x y, rect N N x -> rect N N y ->
    (forall i j, (i < N)%nat -> (j < N)%nat -> sh (a i + b j) (mget fo x i j) (mget fo y i j)) ->
    (exists r, m_det so N (mk N N (fun i j => (mget fo x i j, Some (a i + b j)%Z))) = Ok r) ->
    exists d d', m_det fo N x = Ok d /\ m_det fo N y = Ok d' /\ sh (total a (seq 0 N) + total b (seq 0 N)) d d'.
  Proof.
    intros N a b x y Rx Ry H (r & Er). set (q := mk N N (fun i j => (mget fo x i j, Some (a i + b j)%Z))) in *.
    destruct (@tagged N a b x y Rx Ry H) as (Rq & Bq & Sq). fold q in Rq, Bq, Sq.
    destruct (@C114_float_m_det prec emax rem Hp He N q x y r Rq Bq Sq Er) as ((d & Ed & Bd) & (d' & Ed' & Sd)).
    exists d, d'. split; auto. split; auto. unfold rescaled in Sd. rewrite m_det_spec in Er. erewrite rdet_unit in Sd; [| | |exact Er]; auto.
    { unfold bare in Bd. rewrite Bd in Sd. exact Sd. }
    intros i j Hi Hj. apply in_seq in Hi, Hj. eexists. unfold q. rewrite m_index_mk by lia. reflexivity.
  Qed.
  (** ... and element (i, j) of the inverse is divided by the factors of column i and row j. *)
  Theorem C114_inv : forall N a b x y, rect N N x -> rect N N y ->
    (forall i j, (i < N)%nat -> (j < N)%nat -> sh (a i + b j) (mget fo x i j) (mget fo y i j)) ->
    (exists r, m_inv so N (mk N N (fun i j => (mget fo x i j, Some (a i + b j)%Z))) = Ok r) ->
    exists c c', m_inv fo N x = Ok c /\ m_inv fo N y = Ok c' /\ rect N N c /\ rect N N c' /\
      forall i j, (i < N)%nat -> (j < N)%nat -> sh (- (a j + b i)) (mget fo c i j) (mget fo c' i j).
  Proof.
    intros N a b x y Rx Ry H (r & Er). set (q := mk N N (fun i j => (mget fo x i j, Some (a i + b j)%Z))) in *.
    destruct (@tagged N a b x y Rx Ry H) as (Rq & Bq & Sq). fold q in Rq, Bq, Sq.
    destruct (@C114_float_m_inv prec emax rem Hp He N q x y r Rq Bq Sq Er) as ((c & Ec & Bc) & (c' & Ec' & Sc)).
    exists c, c'. split; auto. split; auto.
    unfold m_inv in Er. destruct (m_adj so N q) as [A| | |] eqn:EA; cbn [bind] in Er; try discriminate. destruct (m_det so N q) as [D| | |] eqn:ED; cbn [bind] in Er; try discriminate.
    rewrite m_det_spec in ED. assert (Iq : forall i j, (i < N)%nat -> (j < N)%nat -> exists z, m_index q (i, j) = Ok (z, Some (a i + b j)%Z)).
    { intros i j Hi Hj. eexists. unfold q. rewrite m_index_mk by lia. reflexivity. }
    apply (@rdet_unit q a b) in ED; auto. 2:{ intros i j Hi Hj. apply in_seq in Hi, Hj. apply Iq; lia. }
    unfold m_adj in EA. rewrite m_indices_mk in EA. cbn [bind] in EA. apply (m_map_entries so) in EA as (g & -> & Hg).
    unfold m_sdiv in Er. apply (m_map_entries so) in Er as (h & -> & Hh).
    assert (Rc : rect N N c /\ rect N N c').
    { assert (X : forall (P : quantity spec_float Z -> spec_float -> Prop) m', Forall2 (Forall2 P) (mk N N h) m' -> rect N N m').
      { intros P m' F. pose proof (rect_mk N N h) as (L & Fr). split. { rewrite <- (Forall2_length F). auto. }
        clear - F Fr. revert F Fr. generalize (mk N N h). intros l F. induction F as [|u v l s Huv F IH]; intros Fr; constructor.
        - inversion Fr; subst. symmetry. apply (Forall2_length Huv).
        - apply IH. inversion Fr; auto. }
      split; [eapply X; exact Bc|eapply X; exact Sc]. }
    destruct Rc as (Rc & Rc'). split; auto. split; auto. intros i j Hi Hj.
    destruct (mk_ex fo Rc) as (f1 & ->), (mk_ex fo Rc') as (f2 & ->). rewrite !mget_mk by auto.
    pose proof (proj1 (Forall2_mk _ _ _ _ _) Bc i j Hi Hj) as B1. pose proof (proj1 (Forall2_mk _ _ _ _ _) Sc i j Hi Hj) as S1. cbv beta in B1, S1.
    pose proof (Hg i j Hi Hj) as G1. cbn beta iota in G1. rewrite m_cofactor_spec in G1 by auto.
    destruct (rdet so q (remove_at j (seq 0 N)) (remove_at i (seq 0 N))) as [C| | |] eqn:EC; cbn [bind] in G1; try discriminate.
    apply so_neg in G1. apply (@rdet_unit q a b) in EC.
    2:{ intros i' j' Hi' Hj'. apply remove_at_in, in_seq in Hi', Hj'. apply Iq; lia. }
    2:{ rewrite !remove_at_length; rewrite ?seq_length; auto. }
    pose proof (Hh i j Hi Hj) as H1. apply (so_div _ _ ED) in H1. rewrite G1, EC in H1. cbn [times z_units u_mul] in H1.
    unfold rescaled in S1. rewrite H1 in S1. unfold bare in B1. rewrite B1 in S1.
    replace (- (a j + b i))%Z with (total a (remove_at j (seq 0 N)) + total b (remove_at i (seq 0 N)) + - (total a (seq 0 N) + total b (seq 0 N)))%Z; [exact S1|].
    rewrite (@total_remove a (seq 0 N) j), (@total_remove b (seq 0 N) i) by (rewrite seq_length; auto). rewrite !seq_nth by auto. cbn [Nat.add]. lia.
  Qed.
End Explicit.

(* ------------------------------------------------------------------------- *)
(** * Examples                                                                  *)
Section Ex114.
  Local Notation o64 := (sf_ops 53 1024 (fun x _ => x)).
  Definition ldexp (e : Z) (x : spec_float) : spec_float := match x with S754_finite s m k => S754_finite s m (k + e) | _ => x end.
  Lemma ldexp_shifted : forall e s m k, valid_binary 53 1024 (S754_finite s m k) = true -> valid_binary 53 1024 (ldexp e (S754_finite s m k)) = true ->
    shifted 53 1024 e (S754_finite s m k) (ldexp e (S754_finite s m k)).
  Proof.
    intros e s m k V V'. split; [split; auto|]. split; [split; auto|]. unfold value, ldexp. rewrite powerRZ_add by lra. destruct s; lra.
  Qed.
  (** det of [[3,5],[7,-2]] = -41; row 0 times 4 and column 1 divided by 2. *)
  Definition ex_rows (i : nat) : Z := match i with O => 2 | _ => 0 end.
  Definition ex_cols (j : nat) : Z := match j with O => 0 | _ => -1 end.
  Example C114_ex_det : exists d d', m_det o64 2 [[f64_3; f64_5]; [f64_7; f64_m2]] = Ok d /\
    m_det o64 2 [[ldexp 2 f64_3; ldexp 1 f64_5]; [f64_7; ldexp (-1) f64_m2]] = Ok d' /\ shifted 53 1024 1 d d'.
  Proof.
    destruct (@C114_det 53 1024 (fun x _ => x) ltac:(lia) ltac:(lia) 2 ex_rows ex_cols [[f64_3; f64_5]; [f64_7; f64_m2]] [[ldexp 2 f64_3; ldexp 1 f64_5]; [ldexp 0 f64_7; ldexp (-1) f64_m2]]) as (d & d' & E & E' & S).
    - split; [reflexivity|repeat constructor].
    - split; [reflexivity|repeat constructor].
    - intros [|[|i]] [|[|j]] Hi Hj; try lia; apply ldexp_shifted; reflexivity.
    - eexists. vm_compute. reflexivity.
    - exists d, d'. split; auto.
  Qed.
  (** 3 m + 7 s is refused. *)
  Example C114_ex_mismatch : v_sum (scale_ops 53 1024) [(f64_3, Some 1%Z); (f64_7, Some 2%Z)] = Panic.
  Proof. vm_compute. reflexivity. Qed.
  (** Work = force . way over the reals, with metres replaced by centimetres and kilograms by grams: units are pairs of exponents. *)
  Definition si : units (Z * Z) := Units (0, 0)%Z (fun a b => (fst a + fst b, snd a + snd b)%Z) (fun a => (- fst a, - snd a)%Z) (fun a b => (Z.eqb (fst a) (fst b) && Z.eqb (snd a) (snd b))%bool).
  Definition cgs (a : Z * Z) : R := powerRZ 100 (fst a) * powerRZ 1000 (snd a).
  Lemma cgs_change : change r_field si cgs.
  Proof.
    constructor; unfold cgs; cbn.
    - ring.
    - intros g h. rewrite !powerRZ_add by lra. ring.
    - intros (a & b). cbn. replace 1 with (powerRZ 100 (- a + a) * powerRZ 1000 (- b + b)); [rewrite !powerRZ_add by lra; ring|]. rewrite !Z.add_opp_diag_l. cbn. ring.
    - intros (a & b) (c & d) H. cbn in *. apply andb_prop in H as (H1 & H2). apply Z.eqb_eq in H1, H2. subst. reflexivity.
  Qed.
  Example C114_ex_work : forall f g x y : R, exists w w', v_dot r_ops 2 [f; g] [x; y] = Ok w /\
    v_dot r_ops 2 [100000 * f; 100000 * g] [100 * x; 100 * y] = Ok w' /\ w' = 10000000 * w.
  Proof.
    intros f g x y. pose (N := Some (1, 1)%Z : option (Z * Z)). pose (L := Some (1, 0)%Z : option (Z * Z)).
    destruct (@C114_units_v_dot R _ r_ops r_field si cgs cgs_change 2 [(f, N); (g, N)] [(x, L); (y, L)] [f; g] [x; y] [100000 * f; 100000 * g] [100 * x; 100 * y] (f * x + g * y, Some (2, 1)%Z))
      as ((w & E & B) & (w' & E' & S)); try reflexivity; try (repeat constructor; fail).
    - apply Forall2_cons; [|apply Forall2_cons; [|apply Forall2_nil]]; unfold scaled, cgs, N, L; cbn; rewrite ?Pos2Nat.inj_1; cbn; ring.
    - apply Forall2_cons; [|apply Forall2_cons; [|apply Forall2_nil]]; unfold scaled, cgs, N, L; cbn; rewrite ?Pos2Nat.inj_1; cbn; ring.
    - exists w, w'. split; auto. split; auto. unfold bare in B. cbn in B. subst w. unfold scaled, cgs in S. cbn in S. rewrite S. change (Pos.to_nat 2) with 2%nat. change (Pos.to_nat 1) with 1%nat. cbn. ring.
  Qed.
End Ex114.

Print Assumptions C114_units_v_add.
Print Assumptions C114_units_v_sub.
Print Assumptions C114_units_v_mul.
Print Assumptions C114_units_v_neg.
Print Assumptions C114_units_v_smul.
Print Assumptions C114_units_v_sum.
Print Assumptions C114_units_v_dot.
Print Assumptions C114_units_v_square_length.
Print Assumptions C114_units_v_cross2.
Print Assumptions C114_units_v_cross3.
Print Assumptions C114_units_v_cross4.
Print Assumptions C114_units_v_div.
Print Assumptions C114_units_v_sdiv.
Print Assumptions C114_units_m_add.
Print Assumptions C114_units_m_sub.
Print Assumptions C114_units_m_mul.
Print Assumptions C114_units_m_neg.
Print Assumptions C114_units_m_smul.
Print Assumptions C114_units_m_sum.
Print Assumptions C114_units_m_div.
Print Assumptions C114_units_m_sdiv.
Print Assumptions C114_units_m_dot.
Print Assumptions C114_units_m_dot_v.
Print Assumptions C114_units_v_dot_m.
Print Assumptions C114_units_m_outer.
Print Assumptions C114_units_m_det.
Print Assumptions C114_units_m_cofactor.
Print Assumptions C114_units_m_adj.
Print Assumptions C114_units_m_inv.
Print Assumptions C114_units_c_add.
Print Assumptions C114_units_c_sub.
Print Assumptions C114_units_c_mul.
Print Assumptions C114_units_c_neg.
Print Assumptions C114_units_c_conj.
Print Assumptions C114_units_c_mul_s.
Print Assumptions C114_units_c_norm_sqr.
Print Assumptions C114_units_c_dot.
Print Assumptions C114_units_c_inv.
Print Assumptions C114_units_c_div.
Print Assumptions C114_units_q_add.
Print Assumptions C114_units_q_sub.
Print Assumptions C114_units_q_mul.
Print Assumptions C114_units_q_neg.
Print Assumptions C114_units_q_conj.
Print Assumptions C114_units_q_mul_s.
Print Assumptions C114_units_q_mul_c.
Print Assumptions C114_units_c_mul_q.
Print Assumptions C114_units_q_norm_sqr.
Print Assumptions C114_units_q_dot.
Print Assumptions C114_units_q_inv.
Print Assumptions C114_units_q_div.
Print Assumptions C114_units_rot2_apply.
Print Assumptions C114_units_rot3_apply.
Print Assumptions C114_units_mo_apply_self.
Print Assumptions C114_float_v_add.
Print Assumptions C114_float_v_sub.
Print Assumptions C114_float_v_mul.
Print Assumptions C114_float_v_neg.
Print Assumptions C114_float_v_smul.
Print Assumptions C114_float_v_sum.
Print Assumptions C114_float_v_dot.
Print Assumptions C114_float_v_square_length.
Print Assumptions C114_float_v_cross2.
Print Assumptions C114_float_v_cross3.
Print Assumptions C114_float_v_cross4.
Print Assumptions C114_float_v_div.
Print Assumptions C114_float_v_sdiv.
Print Assumptions C114_float_m_add.
Print Assumptions C114_float_m_sub.
Print Assumptions C114_float_m_mul.
Print Assumptions C114_float_m_neg.
Print Assumptions C114_float_m_smul.
Print Assumptions C114_float_m_sum.
Print Assumptions C114_float_m_div.
Print Assumptions C114_float_m_sdiv.
Print Assumptions C114_float_m_dot.
Print Assumptions C114_float_m_dot_v.
Print Assumptions C114_float_v_dot_m.
Print Assumptions C114_float_m_outer.
Print Assumptions C114_float_m_det.
Print Assumptions C114_float_m_cofactor.
Print Assumptions C114_float_m_adj.
Print Assumptions C114_float_m_inv.
Print Assumptions C114_float_c_add.
Print Assumptions C114_float_c_sub.
Print Assumptions C114_float_c_mul.
Print Assumptions C114_float_c_neg.
Print Assumptions C114_float_c_conj.
Print Assumptions C114_float_c_mul_s.
Print Assumptions C114_float_c_norm_sqr.
Print Assumptions C114_float_c_dot.
Print Assumptions C114_float_c_inv.
Print Assumptions C114_float_c_div.
Print Assumptions C114_float_q_add.
Print Assumptions C114_float_q_sub.
Print Assumptions C114_float_q_mul.
Print Assumptions C114_float_q_neg.
Print Assumptions C114_float_q_conj.
Print Assumptions C114_float_q_mul_s.
Print Assumptions C114_float_q_mul_c.
Print Assumptions C114_float_c_mul_q.
Print Assumptions C114_float_q_norm_sqr.
Print Assumptions C114_float_q_dot.
Print Assumptions C114_float_q_inv.
Print Assumptions C114_float_q_div.
Print Assumptions C114_float_rot2_apply.
Print Assumptions C114_float_rot3_apply.
Print Assumptions C114_float_mo_apply_self.
Print Assumptions C114_sum.
Print Assumptions C114_dot.
Print Assumptions C114_square_length.
Print Assumptions C114_length.
Print Assumptions C114_normalize.
Print Assumptions C114_det.
Print Assumptions C114_inv.
