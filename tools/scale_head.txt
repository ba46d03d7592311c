(** C114: changes of units.  (The list of theorems, one per operation of the API, was produced by tools/gen_scale.py; every
    statement is spelled out here.) *)
From Coq Require Import ZArith Reals Lra Lia Psatz SpecFloat.
From Flocq Require Import Core BinarySingleNaN Plus_error.
From Verif Require Import SpecFacts VFacts MFacts MatProofs AlgFacts SquareModel SpecDet DetFacts SqProofs MoebiusModel TransformModel MathModel SpecMachine RealInst FloatInst SpecRound FlocqFacts PropFloat RelFacts PropRel PropOrder PropRound PropExact PropFNorm SpecFRange PropFRange SpecScale.
Set Implicit Arguments.
Local Open Scope list_scope.

(* ------------------------------------------------------------------------- *)
(** * Fields                                                                    *)
Section Fi.
  Context {T G : Type} {o : Ops T} (F : Field o) (u : units G) (k : G -> T) (K : change F u k).
  Add Field F114 : (Field_theory F).
  Local Notation "0" := (o_zero o).
  Local Notation sc := (scaled F k).
  Lemma k_neq : forall g, k g <> 0.
  Proof.
    intros g E. pose proof (ch_inv K g) as H. rewrite E in H. apply (f_one_neq_zero F). rewrite <- H. ring.
  Qed.
  Lemma k_inv : forall g, k (u_inv u g) = f_inv F (k g).
  Proof.
    intros g. pose proof (@k_neq g) as N. pose proof (f_inv_l F N) as I. pose proof (ch_inv K g) as H.
    transitivity (r_mul F (k (u_inv u g)) (r_mul F (f_inv F (k g)) (k g))); [rewrite I; ring|].
    transitivity (r_mul F (f_inv F (k g)) (r_mul F (k (u_inv u g)) (k g))); [ring|]. rewrite H. ring.
  Qed.
  Lemma common_sc : forall a b g x y x' y', common u a b = Ok g -> sc (x, a) x' -> sc (y, b) y' ->
    sc (r_add F x y, g) (r_add F x' y') /\ sc (r_sub F x y, g) (r_sub F x' y').
  Proof.
    intros [a|] [b|] g x y x' y' E; cbn in E.
    - destruct (u_same u a b) eqn:S; [|discriminate]. apply Ok_inj in E. subst g. apply (ch_same K) in S. unfold scaled. cbn. intros -> ->. rewrite S. split; ring.
    - apply Ok_inj in E. subst g. unfold scaled. cbn. intros -> (-> & ->). split; ring.
    - apply Ok_inj in E. subst g. unfold scaled. cbn. intros (-> & ->) ->. split; ring.
    - apply Ok_inj in E. subst g. unfold scaled. cbn. intros (-> & ->) (-> & ->). repeat split; ring.
  Qed.
  Lemma times_sc : forall a b x y x' y', sc (x, a) x' -> sc (y, b) y' -> sc (r_mul F x y, times u a b) (r_mul F x' y').
  Proof.
    intros [a|] [b|] x y x' y'; unfold scaled; cbn.
    - intros -> ->. rewrite (ch_mul K). ring.
    - intros -> (-> & ->). split; ring.
    - intros (-> & ->) ->. split; ring.
    - intros (-> & ->) (-> & ->). split; ring.
  Qed.
  Lemma unit_rel : OpsRel false sc (unit_ops o u) o.
  Proof.
    constructor.
    - unfold scaled. cbn. auto.
    - unfold scaled. cbn. rewrite (ch_one K). ring.
    - intros [x a] x' [y b] y' H1 H2. cbn [o_add unit_ops fst snd]. destruct (common u a b) as [g| | |] eqn:E; cbn [bind]; rewrite ?(r_add_ok F); cbn; auto.
      apply (@common_sc a b g x y _ _ E H1 H2).
    - intros [x a] x' [y b] y' H1 H2. cbn [o_sub unit_ops fst snd]. destruct (common u a b) as [g| | |] eqn:E; cbn [bind]; rewrite ?(r_sub_ok F); cbn; auto.
      apply (@common_sc a b g x y _ _ E H1 H2).
    - intros [x a] x' [y b] y' H1 H2. cbn [o_mul unit_ops fst snd]. rewrite !(r_mul_ok F). apply times_sc; auto.
    - intros [x a] x' H. cbn [o_neg unit_ops fst snd]. rewrite !(r_neg_ok F). destruct a; unfold scaled in *; cbn in *.
      + subst x'. ring.
      + destruct H as (-> & ->). split; ring.
  Qed.
  Lemma unit_divrel : (forall x, o_is_zero o x = false -> x <> 0) -> DivRel false sc (unit_ops o u) o.
  Proof.
    intros Z [x a] x' [y b] y' H1 H2. cbn [o_div unit_ops fst snd]. destruct b as [h|]; [|cbn; destruct (o_div o x' y'); auto].
    destruct (o_is_zero o y) eqn:E; [cbn; destruct (o_div o x' y'); auto|]. apply Z in E. unfold scaled in H2. cbn in H2. subst y'.
    assert (N : r_mul F (k h) y <> 0).
    { intros Q. apply E. transitivity (r_mul F (f_inv F (k h)) (r_mul F (k h) y)); [|rewrite Q; ring].
      transitivity (r_mul F (r_mul F (f_inv F (k h)) (k h)) y); [rewrite (f_inv_l F (@k_neq h)); ring|ring]. }
    rewrite !(f_div_ok F) by auto. cbn [bind]. change (scaled F k (r_mul F x (f_inv F y), times u a (Some (u_inv u h))) (r_mul F x' (f_inv F (r_mul F (k h) y)))).
    apply times_sc; auto. unfold scaled. cbn. rewrite k_inv. field. split; auto. apply k_neq.
  Qed.
End Fi.

(** Dropping the units gives the ordinary operations. *)
Lemma bare_unit_rel : forall T G (o : Ops T) (u : units G), OpsRel false bare (unit_ops o u) o.
Proof.
  intros. constructor; unfold bare; cbn; auto.
  - intros [x a] ? [y b] ? <- <-. cbn. destruct (common u a b); cbn; [|destruct (o_add o x y); auto..]. destruct (o_add o x y); cbn; auto.
  - intros [x a] ? [y b] ? <- <-. cbn. destruct (common u a b); cbn; [|destruct (o_sub o x y); auto..]. destruct (o_sub o x y); cbn; auto.
  - intros [x a] ? [y b] ? <- <-. cbn. destruct (o_mul o x y); cbn; auto.
  - intros [x a] ? <-. cbn. destruct (o_neg o x); cbn; auto.
Qed.
Lemma bare_unit_divrel : forall T G (o : Ops T) (u : units G), DivRel false bare (unit_ops o u) o.
Proof.
  unfold DivRel, bare. intros T G o u [x a] ? [y b] ? <- <-. cbn. destruct b; [|cbn; destruct (o_div o x y); auto]. destruct (o_is_zero o y); [cbn; destruct (o_div o x y); auto|].
  destruct (o_div o x y); cbn; auto.
Qed.
Lemma bare_scale_rel : forall prec emax rem, OpsRel false bare (scale_ops prec emax) (sf_ops prec emax rem).
Proof.
  intros. constructor; unfold bare; cbn; auto.
  - intros [x a] ? [y b] ? <- <-. cbn. destruct (common z_units a b); cbn; auto. unfold keep. destruct (_ && _)%bool; cbn; auto.
  - intros [x a] ? [y b] ? <- <-. cbn. destruct (common z_units a b); cbn; auto. unfold keep. destruct (_ && _)%bool; cbn; auto.
  - intros [x a] ? [y b] ? <- <-. cbn. unfold keep. destruct (_ || _)%bool; cbn; auto.
  - intros [x a] ? <-. cbn. auto.
Qed.
Lemma bare_scale_divrel : forall prec emax rem, DivRel false bare (scale_ops prec emax) (sf_ops prec emax rem).
Proof.
  unfold DivRel, bare. intros prec emax rem [x a] ? [y b] ? <- <-. cbn. destruct b; [|cbn; auto]. destruct (zero_float y); [cbn; auto|]. unfold keep. destruct (_ || _)%bool; cbn; auto.
Qed.

(* ------------------------------------------------------------------------- *)
(** * Floats                                                                    *)
Local Open Scope R_scope.
Section FlS.
  Context (prec emax : Z) (rem : spec_float -> spec_float -> spec_float) (Hp : (0 < prec)%Z) (He : (prec < emax)%Z).
  Local Notation fo := (sf_ops prec emax rem).
  Local Notation fexp := (SpecFloat.fexp prec emax).
  Local Notation rnd := (round radix2 fexp ZnearestE).
  Local Notation number := (number_of prec emax).
  Local Notation emin := (SpecFloat.emin prec emax).
  Local Notation xrnd := (round radix2 (FLX_exp prec) ZnearestE).
  Local Notation bp := (bpow radix2).
  Local Notation small := (bp (emin + prec - 1)).
  Local Instance vexpS : Valid_exp fexp. Proof. apply (@fexp_correct prec emax Hp). Qed.
  Local Instance precS : Prec_gt_0 prec := Hp.

  Lemma xrnd_scale : forall x e, xrnd (bp e * x) = bp e * xrnd x.
  Proof.
    intros x e. destruct (Req_dec x 0) as [->|N]. { rewrite Rmult_0_r, round_0 by apply valid_rnd_N. ring. }
    unfold round, scaled_mantissa, cexp, FLX_exp. rewrite (Rmult_comm (bp e) x), mag_mult_bpow by auto.
    replace (x * bp e * bp (- (mag radix2 x + e - prec)))%R with (x * bp (- (mag radix2 x - prec)))%R.
    2:{ rewrite Rmult_assoc, <- bpow_plus. do 2 f_equal. lia. }
    unfold F2R. cbn [Fnum Fexp]. replace (mag radix2 x + e - prec)%Z with (mag radix2 x - prec + e)%Z by lia. rewrite bpow_plus. ring.
  Qed.
  Lemma rnd_x : forall x, small <= Rabs x -> rnd x = xrnd x.
  Proof. intros. apply (@round_FLT_FLX radix2 emin prec). auto. Qed.
  Lemma small_fmt : generic_format radix2 fexp small.
  Proof. apply generic_format_bpow. unfold SpecFloat.fexp. lia. Qed.
  Lemma small_xfmt : generic_format radix2 (FLX_exp prec) small.
  Proof. apply generic_format_bpow. unfold FLX_exp. lia. Qed.
  Lemma rnd_small : forall x, small < Rabs (rnd x) -> small <= Rabs x.
  Proof.
    intros x H. destruct (Rle_lt_dec small (Rabs x)) as [|L]; auto. exfalso.
    assert (Rabs (rnd x) <= small); [|lra]. apply abs_round_le_generic; auto using small_fmt with typeclass_instances. lra.
  Qed.
  Lemma xrnd_small : forall x, small < Rabs (xrnd x) -> small <= Rabs x.
  Proof.
    intros x H. destruct (Rle_lt_dec small (Rabs x)) as [|L]; auto. exfalso.
    assert (Rabs (xrnd x) <= small); [|lra]. apply abs_round_le_generic; auto using small_xfmt with typeclass_instances. lra.
  Qed.
  (** Far enough from the subnormal numbers, rounding commutes with powers of two. *)
  Lemma rnd_scale_far : forall x e, small < Rabs (rnd x) -> small < Rabs (bp e * rnd x) -> rnd (bp e * x) = bp e * rnd x.
  Proof.
    intros x e H1 H2. pose proof (rnd_small _ H1) as S. rewrite (@rnd_x _ S) in *. rewrite <- xrnd_scale in H2.
    pose proof (xrnd_small _ H2) as S2. rewrite (@rnd_x _ S2). apply xrnd_scale.
  Qed.
  (** So do sums, everywhere: small sums are exact. *)
  Lemma plus_small : forall x y, generic_format radix2 fexp x -> generic_format radix2 fexp y -> Rabs (x + y) < small -> generic_format radix2 fexp (x + y).
  Proof.
    intros x y Fx Fy H. apply (@FLT_format_plus_small radix2 emin prec); auto. apply Rlt_le. eapply Rlt_le_trans; [exact H|]. apply bpow_le. lia.
  Qed.
  Lemma fmt_up : forall x e, (0 <= e)%Z -> generic_format radix2 fexp x -> generic_format radix2 fexp (bp e * x).
  Proof.
    intros x e H Fx. destruct (Req_dec x 0) as [->|N]. { rewrite Rmult_0_r. apply generic_format_0. }
    rewrite Rmult_comm. apply (FLT_format_generic radix2 emin prec) in Fx. destruct Fx as [[m x'] E L1 L2]. cbn in *. apply (generic_format_FLT radix2 emin prec).
    exists (Float radix2 m (x' + e)); cbn; auto.
    - rewrite E. unfold F2R. cbn. rewrite bpow_plus. ring.
    - lia.
  Qed.
  Lemma rnd_scale_plus : forall x y e, generic_format radix2 fexp x -> generic_format radix2 fexp y ->
    generic_format radix2 fexp (bp e * x) -> generic_format radix2 fexp (bp e * y) -> rnd (bp e * (x + y)) = bp e * rnd (x + y).
  Proof.
    intros x y e Fx Fy Gx Gy. destruct (Rlt_le_dec (Rabs (x + y)) small) as [S|S].
    - pose proof (plus_small Fx Fy S) as Fs. rewrite (rnd_id Fs). apply rnd_id.
      destruct (Z_le_gt_dec 0 e) as [P|P]. { apply fmt_up; auto. }
      rewrite Rmult_plus_distr_l. apply plus_small; auto. rewrite <- Rmult_plus_distr_l, Rabs_mult, (Rabs_pos_eq (bp e)) by apply bpow_ge_0.
      assert (bp e <= 1). { change 1 with (bp 0). apply bpow_le. lia. } pose proof (bpow_gt_0 radix2 e). pose proof (Rabs_pos (x + y)). nra.
    - destruct (Rlt_le_dec (Rabs (bp e * (x + y))) small) as [S'|S'].
      + assert (Fs : generic_format radix2 fexp (bp e * (x + y))). { rewrite Rmult_plus_distr_l in *. apply plus_small; auto. }
        rewrite (rnd_id Fs). f_equal. symmetry. apply rnd_id.
        assert (P : (e < 0)%Z).
        { destruct (Z_lt_le_dec e 0); auto. exfalso. rewrite Rabs_mult, (Rabs_pos_eq (bp e)) in S' by apply bpow_ge_0.
          assert (1 <= bp e). { change 1 with (bp 0). apply bpow_le. lia. } pose proof (Rabs_pos (x + y)). nra. }
        replace (x + y) with (bp (- e) * (bp e * (x + y))). { apply fmt_up; auto. lia. }
        rewrite <- Rmult_assoc, <- bpow_plus. replace (- e + e)%Z with 0%Z by lia. cbn. ring.
      + rewrite !rnd_x by auto. apply xrnd_scale.
  Qed.

  Local Notation pw := (@PropFRange.pw).
  Lemma zero_value : forall x, number x -> (zero_float x = true <-> value x = 0).
  Proof.
    intros [s|s| |s m e] (V & F); try discriminate; cbn; split; auto; try discriminate. intros Z. exfalso.
    pose proof (powerRZ_lt 2 e ltac:(lra)). assert (1 <= IZR (Z.pos m)) by (apply IZR_le; lia). destruct s; nra.
  Qed.
  Lemma bound_value : forall x e, number x -> no_overflow emax e x = true -> Rabs (bp e * value x) < bp emax.
  Proof.
    intros [s|s| |s m x] e N H; try discriminate. { cbn. rewrite Rmult_0_r, Rabs_R0. apply bpow_gt_0. }
    cbn [no_overflow] in H. apply Z.leb_le in H. pose proof N as (V & _). destruct (lift _ _ _ V) as (a & Ea). rewrite <- Ea, value_B.
    destruct a as [| | |s' m' e' B]; try discriminate Ea. cbn in Ea. injection Ea as -> -> ->. cbn [B2R].
    rewrite Rabs_mult, (Rabs_pos_eq (bp e)) by apply bpow_ge_0. rewrite <- F2R_Zabs, abs_cond_Zopp. cbn [Z.abs].
    apply Rlt_le_trans with (bp e * bp (Z.pos (digits2_pos m) + x)).
    - apply Rmult_lt_compat_l; [apply bpow_gt_0|]. rewrite Digits.Zpos_digits2_pos. rewrite bpow_plus. unfold F2R. cbn [Fnum Fexp].
      apply Rmult_lt_compat_r; [apply bpow_gt_0|]. pose proof (Digits.Zdigits_correct radix2 (Z.pos m)) as (_ & Q). rewrite <- IZR_Zpower by apply Digits.Zdigits_ge_0. apply IZR_lt. exact Q.
    - rewrite <- bpow_plus. apply bpow_le. lia.
  Qed.
  Lemma far_value : forall z e, number z -> no_underflow prec emax e z = true -> small < Rabs (value z) /\ small < Rabs (bp e * value z).
  Proof.
    intros [s|s| |s m x] e N H; try discriminate. cbn [no_underflow] in H. apply andb_prop in H as (H1 & H2). apply Z.ltb_lt in H1, H2.
    pose proof N as (V & _). cbn [valid_binary] in V. unfold bounded in V. apply andb_prop in V as (C & _). unfold canonical_mantissa in C.
    apply Zeq_bool_eq in C. unfold SpecFloat.fexp, SpecFloat.emin in C.
    assert (D : Z.pos (digits2_pos m) = prec) by lia. clear C.
    assert (L : bp (prec - 1 + x) <= Rabs (value (S754_finite s m x))).
    { pose proof N as (V & _). destruct (lift _ _ _ V) as (a & Ea). rewrite <- Ea, value_B.
      destruct a as [| | |s' m' e' B]; try discriminate Ea. cbn in Ea. injection Ea as -> -> ->. cbn [B2R].
      rewrite <- F2R_Zabs, abs_cond_Zopp. cbn [Z.abs]. rewrite Digits.Zpos_digits2_pos in D. pose proof (Digits.Zdigits_correct radix2 (Z.pos m)) as (Q & _).
      rewrite D in Q. unfold F2R. cbn [Fnum Fexp]. rewrite bpow_plus. apply Rmult_le_compat_r; [apply bpow_ge_0|]. rewrite <- IZR_Zpower by lia. apply IZR_le. exact Q. }
    split.
    - eapply Rlt_le_trans; [|exact L]. apply bpow_lt. unfold SpecFloat.emin. lia.
    - rewrite Rabs_mult, (Rabs_pos_eq (bp e)) by apply bpow_ge_0. apply Rlt_le_trans with (bp e * bp (prec - 1 + x)).
      + rewrite <- bpow_plus. apply bpow_lt. unfold SpecFloat.emin. lia.
      + apply Rmult_le_compat_l; auto. apply bpow_ge_0.
  Qed.
  Local Notation sh := (shifted prec emax).
  Local Notation rs := (rescaled prec emax).
  Lemma rs_sh : forall x a y, rs (x, a) y -> sh (expo a) x y.
  Proof.
    intros x [e|] y; unfold rescaled; cbn [snd fst expo]; auto. intros (N1 & N2 & V1 & V2). split; auto. split; auto. rewrite V1, V2. ring.
  Qed.
  Lemma rs_value : forall x a y, rs (x, a) y -> value y = bp (expo a) * value x.
  Proof. intros x a y H. apply rs_sh in H as (_ & _ & E). rewrite pw in E. exact E. Qed.
  Arguments rs_value {x a y} _.
  Lemma rs_none : forall x y, rs (x, None) y -> value x = 0 /\ value y = 0.
  Proof. intros x y (_ & _ & E1 & E2). auto. Qed.
  Arguments rs_none {x y} _.
  Lemma common_cases : forall a b g x y x' y', common z_units a b = Ok g -> rs (x, a) x' -> rs (y, b) y' ->
    value x' = bp (expo g) * value x /\ value y' = bp (expo g) * value y /\ (g = None -> value x = 0 /\ value y = 0).
  Proof.
    intros [a|] [b|] g x y x' y' E H1 H2; cbn in E.
    - destruct (a =? b)%Z eqn:S; [|discriminate]. apply Z.eqb_eq in S. subst b. apply Ok_inj in E. subst g. split; [|split]; [apply (rs_value H1)|apply (rs_value H2)|discriminate].
    - apply Ok_inj in E. subst g. split; [apply (rs_value H1)|]. split; [|discriminate]. destruct (rs_none H2) as (-> & ->). ring.
    - apply Ok_inj in E. subst g. split; [|split; [apply (rs_value H2)|discriminate]]. destruct (rs_none H1) as (-> & ->). ring.
    - apply Ok_inj in E. subst g. split; [apply (rs_value H1)|]. split; [apply (rs_value H2)|]. intros _. destruct (rs_none H1) as (-> & _), (rs_none H2) as (-> & _). auto.
  Qed.
  Arguments common_cases a b {g x y x' y'} _ _ _.
  Lemma rs_numbers : forall x a y, rs (x, a) y -> number x /\ number y.
  Proof. intros x a y H. apply rs_sh in H as (? & ? & _). auto. Qed.
  Arguments rs_numbers {x a y} _.
  Lemma rs_intro : forall z g z', number z -> number z' -> value z' = bp (expo g) * value z -> (g = None -> value z = 0) -> rs (z, g) z'.
  Proof.
    intros z [e|] z' N N' V H; unfold rescaled; cbn [fst snd] in *.
    - split; auto. split; auto. rewrite pw. exact V.
    - specialize (H eq_refl). rewrite H in V. rewrite Rmult_0_r in V. auto.
  Qed.
  Lemma rnd_bound : forall z e, number z -> no_overflow emax e z = true -> Rabs (bp e * value z) < bp emax.
  Proof. exact bound_value. Qed.
  Lemma scale_add : forall add sub_ (g : R -> R -> R),
    (forall x y, number x -> number y -> finite (add x y) = true -> number (add x y) /\ value (add x y) = rnd (g (value x) (value y))) ->
    (forall x y, number x -> number y -> Rabs (rnd (g (value x) (value y))) < bp emax -> number (add x y) /\ value (add x y) = rnd (g (value x) (value y))) ->
    (forall t x y, g (t * x) (t * y) = t * g x y) -> (forall x y, g x y = x + sub_ y) -> (forall y, generic_format radix2 fexp y -> generic_format radix2 fexp (sub_ y)) ->
    (forall t y, sub_ (t * y) = t * sub_ y) ->
    forall x a x' y b y' , rs (x, a) x' -> rs (y, b) y' ->
    rrel false rs (let! c := common z_units a b in let z := add x y in keep (finite z && no_overflow emax (expo c) z)%bool z c) (Ok (add x' y')).
  Proof.
    intros add sub_ g A1 A2 G1 G2 G3 G4 x a x' y b y' H1 H2. destruct (common z_units a b) as [c| | |] eqn:E; cbn [bind]; [|cbn; auto..].
    cbv zeta. unfold keep. destruct (_ && _)%bool eqn:B; [|cbn; auto]. apply andb_prop in B as (B1 & B2).
    destruct (common_cases a b E H1 H2) as (V1 & V2 & Z). destruct (rs_numbers H1) as (Nx & Nx'), (rs_numbers H2) as (Ny & Ny').
    destruct (A1 x y Nx Ny B1) as (Nz & W).
    assert (S : rnd (g (value x') (value y')) = bp (expo c) * rnd (g (value x) (value y))).
    { rewrite V1, V2, G1, G2. apply rnd_scale_plus; try rewrite <- G4; try apply G3; try rewrite <- V1; try rewrite <- V2; apply fmt; auto; try apply Nx; try apply Ny; try apply Nx'; try apply Ny'. }
    pose proof (@bound_value _ _ Nz B2) as Bd. rewrite W, <- S in Bd. destruct (A2 x' y' Nx' Ny' Bd) as (Nz' & W').
    cbn. apply rs_intro; auto. { rewrite W', W. exact S. } intros Gn. destruct (Z Gn) as (Zx & Zy). rewrite W, Zx, Zy.
    replace (g 0 0) with 0; [apply round_0; apply valid_rnd_N|]. pose proof (G1 0 0 0) as Q. rewrite Rmult_0_l in Q. rewrite Q. ring.
  Qed.
  Lemma round0 : rnd 0 = 0.
  Proof. apply round_0. apply valid_rnd_N. Qed.
  Lemma scale_mul : forall mul (g : R -> R -> R) a b c x x' y y',
    (finite (mul x y) = true -> number (mul x y) /\ value (mul x y) = rnd (g (value x) (value y))) ->
    (forall x y, number x -> number y -> value x = 0 \/ value y = 0 -> rnd (g (value x) (value y)) = 0) ->
    (Rabs (rnd (g (value x) (value y))) < bp emax -> number (mul x y) /\ value (mul x y) = rnd (g (value x) (value y))) ->
    (Rabs (rnd (g (value x') (value y'))) < bp emax -> number (mul x' y') /\ value (mul x' y') = rnd (g (value x') (value y'))) ->
    g (value x') (value y') = bp (expo c) * g (value x) (value y) -> (c = None -> value x = 0 \/ value y = 0) ->
    rs (x, a) x' -> rs (y, b) y' ->
    rrel false rs (keep (zero_float x || zero_float y || (no_overflow emax (expo c) (mul x y) && no_underflow prec emax (expo c) (mul x y)))%bool (mul x y) c) (Ok (mul x' y')).
  Proof.
    intros mul g a b c x x' y y' A1 A0 A2 A3 G Cn H1 H2. unfold keep. destruct (rs_numbers H1) as (Nx & Nx'), (rs_numbers H2) as (Ny & Ny').
    pose proof (rs_value H1) as V1. pose proof (rs_value H2) as V2.
    assert (Z : value x = 0 \/ value y = 0 -> rrel false rs (Ok (mul x y, c)) (Ok (mul x' y'))).
    { intros Z. pose proof (A0 x y Nx Ny Z) as R0. assert (Z' : value x' = 0 \/ value y' = 0). { destruct Z as [Z|Z]; [left; rewrite V1|right; rewrite V2]; rewrite Z; ring. }
      pose proof (A0 x' y' Nx' Ny' Z') as R0'. rewrite R0 in A2. rewrite R0' in A3. rewrite Rabs_R0 in *. destruct (A2 (bpow_gt_0 _ _)) as (N & W), (A3 (bpow_gt_0 _ _)) as (N' & W').
      cbn. apply rs_intro; auto. rewrite W, W'. ring. }
    destruct (zero_float x) eqn:Zx; cbn [orb]. { apply Z. left. apply zero_value; auto. }
    destruct (zero_float y) eqn:Zy; cbn [orb]. { apply Z. right. apply zero_value; auto. }
    destruct (_ && _)%bool eqn:B; [|cbn; auto]. apply andb_prop in B as (B1 & B2).
    assert (Fz : finite (mul x y) = true) by (destruct (mul x y); auto; discriminate B2). destruct (A1 Fz) as (Nz & W).
    destruct (@far_value _ _ Nz B2) as (S1 & S2). rewrite W in S1, S2. pose proof (rnd_scale_far _ _ S1 S2) as S. rewrite <- G in S.
    pose proof (@bound_value _ _ Nz B1) as Bd. rewrite W, <- S in Bd. destruct (A3 Bd) as (Nz' & W'). cbn. apply rs_intro; auto.
    - rewrite W', W. exact S.
    - intros Q. destruct (Cn Q) as [Q'|Q']; apply zero_value in Q'; auto; congruence.
  Qed.
  Lemma scale_rel : OpsRel false rs (scale_ops prec emax) fo.
  Proof.
    constructor.
    - unfold rescaled, number_of. cbn. auto.
    - destruct (one_den Hp He) as (V & N & W). apply (@rs_intro (SFone prec emax) (Some 0%Z)); try (split; auto). { cbn. ring. } discriminate.
    - intros [x a] x' [y b] y' H1 H2. apply (@scale_add (SFadd prec emax) (fun y => y) Rplus); auto; try (intros; ring).
      + intros u v (Vu & Fu) (Vv & Fv) F. split; [split; auto; apply add_valid; auto|apply (@add_round prec emax Hp He); auto].
      + intros. apply add_in; auto.
    - intros [x a] x' [y b] y' H1 H2. apply (@scale_add (SFsub prec emax) Ropp Rminus); auto; try (intros; ring).
      + intros u v (Vu & Fu) (Vv & Fv) F. split; [split; auto; apply sub_valid; auto|apply (@sub_round prec emax Hp He); auto].
      + intros. apply sub_in; auto.
      + intros. apply generic_format_opp. auto.
    - intros [x a] x' [y b] y' H1 H2. destruct (rs_numbers H1) as (Nx & Nx'), (rs_numbers H2) as (Ny & Ny').
      cbn [o_mul scale_ops sf_ops ok2 fst snd]. apply (@scale_mul (SFmul prec emax) Rmult a b (times z_units a b)); auto.
      + intros F. split; [split; auto; apply mul_valid; try apply Nx; try apply Ny; auto|apply (@mul_round prec emax Hp He); try apply Nx; try apply Ny; auto].
      + intros u v _ _ [->| ->]; rewrite ?Rmult_0_l, ?Rmult_0_r; apply round0.
      + intros. apply mul_in; auto.
      + intros. apply mul_in; auto.
      + rewrite (rs_value H1), (rs_value H2). destruct a as [a|], b as [b|]; cbn [times expo u_mul z_units fst snd].
        * rewrite bpow_plus. ring.
        * destruct (rs_none H2) as (-> & _). ring.
        * destruct (rs_none H1) as (-> & _). ring.
        * destruct (rs_none H1) as (-> & _). ring.
      + destruct a as [a|], b as [b|]; try discriminate; intros _.
        * destruct (rs_none H2) as (-> & _). auto.
        * destruct (rs_none H1) as (-> & _). auto.
        * destruct (rs_none H1) as (-> & _). auto.
    - intros [x a] x' H. cbn. destruct (rs_numbers H) as ((V & F) & (V' & F')). destruct (opp_value x) as (A1 & A2), (opp_value x') as (A1' & A2'). pose proof (rs_value H) as W.
      apply rs_intro.
      + split; [apply opp_valid; auto|congruence].
      + split; [apply opp_valid; auto|congruence].
      + rewrite A1, A1', W. ring.
      + intros ->. destruct (rs_none H) as (Z & _). rewrite A1, Z. ring.
  Qed.
  Lemma scale_divrel : DivRel false rs (scale_ops prec emax) fo.
  Proof.
    intros [x a] x' [y b] y' H1 H2. cbn [o_div scale_ops sf_ops ok2 fst snd]. destruct b as [h|]; [|cbn; auto]. destruct (zero_float y) eqn:Z; [cbn; auto|].
    destruct (rs_numbers H1) as (Nx & Nx'), (rs_numbers H2) as (Ny & Ny').
    assert (Vy : value y <> 0). { intros Q. apply zero_value in Q; auto. congruence. }
    pose proof (rs_value H2) as W2. cbn [expo] in W2. pose proof (bpow_gt_0 radix2 h) as Ph.
    assert (Vy' : value y' <> 0). { rewrite W2. intros Q. apply Rmult_integral in Q. destruct Q; [lra|contradiction]. }
    replace (zero_float x || false)%bool with (zero_float x || zero_float y)%bool by (rewrite Z; auto). apply (@scale_mul (SFdiv prec emax) (fun u v => if Req_EM_T v 0 then 0 else u / v) a (Some h) (times z_units a (Some (- h)%Z))); auto.
    - intros F. destruct (Req_EM_T (value y) 0); [contradiction|]. destruct Nx, Ny. split; [split; auto; apply div_valid; auto|apply (@div_round prec emax Hp He); auto].
    - intros u v Nu Nv Q. destruct (Req_EM_T (value v) 0); [apply round0|]. destruct Q as [->|Q]; [|contradiction]. unfold Rdiv. rewrite Rmult_0_l. apply round0.
    - destruct (Req_EM_T (value y) 0); [contradiction|]. apply div_in; auto.
    - destruct (Req_EM_T (value y') 0); [contradiction|]. apply div_in; auto.
    - destruct (Req_EM_T (value y) 0); [contradiction|]. destruct (Req_EM_T (value y') 0); [contradiction|].
      rewrite (rs_value H1), W2. destruct a as [a|]; cbn [times expo u_mul z_units].
      + rewrite bpow_plus, bpow_opp. field. split; auto. lra.
      + destruct (rs_none H1) as (-> & _). unfold Rdiv. ring.
    - destruct a as [a|]; [discriminate|]. destruct (rs_none H1) as (-> & _). auto.
  Qed.
End FlS.
