(** C115: changes of signs in floating point.  (The list of theorems, one per operation of the API, was produced by
    tools/gen_sign.py; every statement is spelled out here.) *)
From Coq Require Import ZArith Lia SpecFloat List.
From Verif Require Import SpecFacts VFacts MFacts MatProofs AlgFacts SquareModel SpecDet DetFacts SqProofs MoebiusModel TransformModel MathModel FloatInst RelFacts PropRel PropRound PropExact SpecScale PropScale SpecSign.
Import ListNotations.
Set Implicit Arguments.
Local Open Scope list_scope.

Section Sg.
  Context (prec emax : Z) (rem : spec_float -> spec_float -> spec_float).
  Local Notation fo := (sf_ops prec emax rem).
  Local Notation add := (SFadd prec emax).
  Local Notation sub := (SFsub prec emax).
  Local Notation mul := (SFmul prec emax).
  Local Notation div := (SFdiv prec emax).
  Local Notation aux := (binary_round_aux prec emax).

  Lemma alike_refl : forall x, alike x x.
  Proof. left. reflexivity. Qed.
  Lemma alike_sym : forall x y, alike x y -> alike y x.
  Proof. intros x y [H|(H & H')]; [left|right]; auto. Qed.
  Lemma alike_trans : forall x y z, alike x y -> alike y z -> alike x z.
  Proof. intros x y z [->|(H & H')]; auto. intros [<-|(K & K')]; right; auto. Qed.
  Lemma opp_opp : forall x, SFopp (SFopp x) = x.
  Proof. intros []; cbn; rewrite ?Bool.negb_involutive; reflexivity. Qed.
  Lemma zero_opp : forall x, zero_float (SFopp x) = zero_float x.
  Proof. intros []; reflexivity. Qed.
  Lemma zero_mirror : forall b x, zero_float (mirror b x) = zero_float x.
  Proof. intros [] x; [apply zero_opp|reflexivity]. Qed.
  Lemma mirror_mirror : forall a b x, mirror a (mirror b x) = mirror (xorb a b) x.
  Proof. intros [] [] x; cbn; rewrite ?opp_opp; reflexivity. Qed.
  Lemma mirror_alike : forall b x y, alike x y -> alike (mirror b x) (mirror b y).
  Proof. intros b x y [->|(H & H')]; [apply alike_refl|right]. rewrite !zero_mirror. auto. Qed.

  Lemma aux_opp : forall s m e l, SFopp (aux s m e l) = aux (negb s) m e l.
  Proof.
    intros. unfold binary_round_aux. destruct (shr_fexp _ _ _ _ _) as (a & b). destruct (shr_fexp _ _ _ _ _) as (c & d). destruct (shr_m c); cbn; auto. destruct (_ <=? _)%Z; reflexivity.
  Qed.
  Lemma normalize_opp : forall m e s s', alike (SFopp (binary_normalize prec emax m e s)) (binary_normalize prec emax (- m) e s').
  Proof.
    intros [|m|m] e s s'; unfold binary_normalize; cbn [Z.opp].
    - right. auto.
    - left. unfold binary_round. destruct (shl_align _ _ _). apply aux_opp.
    - left. unfold binary_round. destruct (shl_align _ _ _). apply aux_opp.
  Qed.
  Lemma add_opp : forall x y, alike (SFopp (add x y)) (add (SFopp x) (SFopp y)).
  Proof.
    intros [s|s| |s m e] [s'|s'| |s' m' e']; try (destruct s; destruct s'; cbn; left; reflexivity); try (right; destruct s, s'; reflexivity); try (left; reflexivity);
      try (destruct s; cbn; left; reflexivity).
    - right. destruct s, s'; cbn; auto.
    - cbn [SFopp SFadd]. rewrite !cond_Zopp_negb. eapply alike_trans; [apply normalize_opp with (s' := false)|]. left. f_equal. lia.
  Qed.
  Lemma add_alike : forall x x' y y', alike x x' -> alike y y' -> alike (add x y) (add x' y').
  Proof.
    intros x x' y y' [<-|(Hx & Hx')] [<-|(Hy & Hy')].
    - left. reflexivity.
    - destruct y as [s| | | ], y' as [s'| | | ]; try discriminate. destruct x as [[]|[]| | ]; try (left; reflexivity); right; destruct s, s'; auto.
    - destruct x as [s| | | ], x' as [s'| | | ]; try discriminate. destruct y as [[]|[]| | ]; try (left; reflexivity); right; destruct s, s'; auto.
    - destruct x as [s| | | ], x' as [s'| | | ]; try discriminate. destruct y as [t| | | ], y' as [t'| | | ]; try discriminate. right. destruct s, s', t, t'; auto.
  Qed.
  Lemma add_mirror : forall b x y, alike (mirror b (add x y)) (add (mirror b x) (mirror b y)).
  Proof. intros [] x y; [apply add_opp|apply alike_refl]. Qed.
  Lemma sub_add : forall x y, sub x y = add x (SFopp y).
  Proof.
    intros [s|s| |s m e] [s'|s'| |s' m' e']; try reflexivity; try (destruct s, s'; reflexivity).
  Qed.
  Lemma mul_mirror : forall a b x y, mul (mirror a x) (mirror b y) = mirror (xorb a b) (mul x y).
  Proof.
    assert (L : forall x y, mul (SFopp x) y = SFopp (mul x y)).
    { intros [s|s| |s m e] [s'|s'| |s' m' e']; try reflexivity; try (destruct s, s'; reflexivity). cbn [SFopp SFmul]. rewrite aux_opp. destruct s, s'; reflexivity. }
    assert (R : forall x y, mul x (SFopp y) = SFopp (mul x y)).
    { intros x y. rewrite SFmul_comm, L, SFmul_comm. reflexivity. }
    intros [] [] x y; cbn [mirror xorb negb]; rewrite ?L, ?R, ?opp_opp; reflexivity.
  Qed.
  Lemma mul_zero : forall x y, zero_float x = true -> zero_float (mul x y) = true \/ mul x y = S754_nan.
  Proof. intros [s| | | ] [s'|s'| |s' m' e'] H; try discriminate; cbn; auto. Qed.
  Lemma mul_alike : forall x x' y y', alike x x' -> alike y y' -> alike (mul x y) (mul x' y').
  Proof.
    assert (L : forall x x' y, alike x x' -> alike (mul x y) (mul x' y)).
    { intros x x' y [<-|(Hx & Hx')]; [left; reflexivity|]. destruct x as [s| | | ], x' as [s'| | | ]; try discriminate. destruct y as [t|t| |t m e]; cbn; auto using alike_refl; right; auto. }
    intros x x' y y' H H'. eapply alike_trans; [apply L; exact H|]. rewrite (SFmul_comm _ _ x' y), (SFmul_comm _ _ x' y'). apply L. auto.
  Qed.
  Lemma div_mirror : forall a b x y, div (mirror a x) (mirror b y) = mirror (xorb a b) (div x y).
  Proof.
    assert (L : forall x y, div (SFopp x) y = SFopp (div x y)).
    { intros [s|s| |s m e] [s'|s'| |s' m' e']; try reflexivity; try (destruct s, s'; reflexivity). cbn [SFopp SFdiv]. destruct (SFdiv_core_binary _ _ _ _ _ _) as ((? & ?) & ?). rewrite aux_opp. destruct s, s'; reflexivity. }
    assert (R : forall x y, div x (SFopp y) = SFopp (div x y)).
    { intros [s|s| |s m e] [s'|s'| |s' m' e']; try reflexivity; try (destruct s, s'; reflexivity). cbn [SFopp SFdiv]. destruct (SFdiv_core_binary _ _ _ _ _ _) as ((? & ?) & ?). rewrite aux_opp. destruct s, s'; reflexivity. }
    intros [] [] x y; cbn [mirror xorb negb]; rewrite ?L, ?R, ?opp_opp; reflexivity.
  Qed.
  Lemma div_alike : forall x x' y, alike x x' -> zero_float y = false -> alike (div x y) (div x' y).
  Proof.
    intros x x' y [<-|(Hx & Hx')] H; [left; reflexivity|]. destruct x as [s| | | ], x' as [s'| | | ]; try discriminate. destruct y as [t|t| |t m e]; try discriminate; cbn; auto using alike_refl; right; auto.
  Qed.
  Lemma is_zero_float : forall x, o_is_zero fo x = zero_float x.
  Proof. intros [[]|[]| |[] m e]; reflexivity. Qed.

  (** Adding what is left of a zero. *)
  Definition nought (x y : spec_float) : Prop := (zero_float x = true /\ zero_float y = true) \/ (x = S754_nan /\ y = S754_nan).
  Lemma add_nought : forall x x' y y' b, nought x x' -> alike (mirror b y) y' -> alike (mirror b (add x y)) (add x' y').
  Proof.
    intros x x' y y' b [(Z & Z')|(-> & ->)] H.
    - eapply alike_trans; [apply add_mirror|]. apply add_alike; auto. right. rewrite zero_mirror. auto.
    - left. destruct b; cbn; destruct y; cbn; destruct y'; reflexivity.
  Qed.
  Lemma add_noughts : forall x x' y y', nought x x' -> nought y y' -> nought (add x y) (add x' y').
  Proof.
    intros x x' y y' [(Z & Z')|(-> & ->)] [(Y & Y')|(-> & ->)].
    - left. destruct x as [s| | | ], x' as [s'| | | ]; try discriminate. destruct y as [t| | | ], y' as [t'| | | ]; try discriminate. destruct s, s', t, t'; auto.
    - right. destruct x, x'; try discriminate; auto.
    - right. destruct y, y'; try discriminate; auto.
    - right. auto.
  Qed.
  Lemma nought_opp : forall x x', nought x x' -> nought (SFopp x) (SFopp x').
  Proof. intros x x' [(Z & Z')|(-> & ->)]; [left; rewrite !zero_opp; auto|right; auto]. Qed.
  Lemma mul_nought : forall x x' y y' b, nought x x' -> alike (mirror b y) y' -> nought (mul x y) (mul x' y').
  Proof.
    intros x x' y y' b [(Z & Z')|(-> & ->)] H.
    - destruct x as [s| | | ], x' as [s'| | | ]; try discriminate. destruct H as [<-|(H & H')].
      + destruct b, y; cbn; unfold nought; cbn; auto.
      + rewrite zero_mirror in H. destruct y, y'; try discriminate. left. auto.
    - right. destruct y, y'; auto.
  Qed.
  Lemma mul_noughts : forall x x' y y', nought x x' -> nought y y' -> nought (mul x y) (mul x' y').
  Proof.
    intros x x' y y' H [H'|(-> & ->)].
    - apply (@mul_nought x x' y y' false); auto. right. auto.
    - right. destruct H as [(Z & Z')|(-> & ->)]; auto. destruct x, x'; try discriminate; auto.
  Qed.
  Lemma div_nought : forall x x' y b, nought x x' -> zero_float y = false -> nought (div x y) (div x' (mirror b y)).
  Proof.
    intros x x' y b [(Z & Z')|(-> & ->)] H.
    - destruct x as [s| | | ], x' as [s'| | | ]; try discriminate. destruct y; try discriminate; destruct b; cbn; unfold nought; cbn; auto.
    - right. destruct b, y; auto.
  Qed.

  Lemma common_sg : forall a b g x y x' y', common sign_units a b = Ok g -> signed (x, a) x' -> signed (y, b) y' -> signed (add x y, g) (add x' y').
  Proof.
    intros [a|] [b|] g x y x' y' E; cbn in E.
    - destruct (Bool.eqb a b) eqn:S; [|discriminate]. apply Ok_inj in E. subst g. apply Bool.eqb_prop in S. subst b. unfold signed. cbn. intros H H'.
      eapply alike_trans; [apply add_mirror|]. apply add_alike; auto.
    - apply Ok_inj in E. subst g. unfold signed. cbn. intros H H'. rewrite (SFadd_comm _ _ x y), (SFadd_comm _ _ x' y'). apply add_nought; auto.
    - apply Ok_inj in E. subst g. unfold signed. cbn. intros H H'. apply add_nought; auto.
    - apply Ok_inj in E. subst g. unfold signed. cbn. apply add_noughts.
  Qed.
  Lemma signed_opp : forall a y y', signed (y, a) y' -> signed (SFopp y, a) (SFopp y').
  Proof.
    intros [b|] y y'; unfold signed; cbn.
    - intros H. replace (mirror b (SFopp y)) with (mirror true (mirror b y)) by (destruct b; reflexivity). apply (mirror_alike true). auto.
    - apply nought_opp.
  Qed.
  Lemma sign_rel : OpsRel false signed (unit_ops fo sign_units) fo.
  Proof.
    constructor.
    - unfold signed. cbn. left. auto.
    - unfold signed. cbn. apply alike_refl.
    - intros [x a] x' [y b] y' H1 H2. cbn [o_add unit_ops fst snd]. destruct (common sign_units a b) as [g| | |] eqn:E; cbn; auto. apply (@common_sg a b g x y _ _ E H1 H2).
    - intros [x a] x' [y b] y' H1 H2. cbn [o_sub unit_ops fst snd]. destruct (common sign_units a b) as [g| | |] eqn:E; cbn; auto. rewrite !sub_add. apply (@common_sg a b g); auto. apply signed_opp. auto.
    - intros [x a] x' [y b] y' H1 H2. cbn. destruct a as [a|], b as [b|]; unfold signed in *; cbn in *.
      + rewrite <- mul_mirror. apply mul_alike; auto.
      + rewrite (SFmul_comm _ _ x y), (SFmul_comm _ _ x' y'). eapply mul_nought; eauto.
      + eapply mul_nought; eauto.
      + apply mul_noughts; auto.
    - intros [x a] x' H. cbn. apply signed_opp. auto.
  Qed.
  Lemma sign_divrel : DivRel false signed (unit_ops fo sign_units) fo.
  Proof.
    intros [x a] x' [y b] y' H1 H2. cbn [o_div unit_ops fst snd]. destruct b as [h|]; [|cbn; auto]. rewrite is_zero_float. destruct (zero_float y) eqn:Z; [cbn; auto|]. cbn.
    unfold signed in H2. cbn in H2. destruct H2 as [<-|(Q & _)]; [|rewrite zero_mirror in Q; congruence].
    destruct a as [a|]; unfold signed in *; cbn in *.
    - rewrite <- div_mirror. apply div_alike; auto. rewrite zero_mirror. auto.
    - apply div_nought; auto.
  Qed.
End Sg.


Local Open Scope nat_scope.
(* ------------------------------------------------------------------------- *)
(** * C115: changing signs changes only signs, for all floats including infinities and NaN *)
Section C115_signs.
  Context (prec emax : Z) (rem : spec_float -> spec_float -> spec_float).

  Theorem C115_signs_v_add : forall N u v x y X Y r, length u = N -> length v = N -> v_bare u x -> v_bare v y -> v_signed u X -> v_signed v Y -> v_add (unit_ops (sf_ops prec emax rem) sign_units) N u v = Ok r ->
    (exists s, v_add (sf_ops prec emax rem) N x y = Ok s /\ v_bare r s) /\ exists s, v_add (sf_ops prec emax rem) N X Y = Ok s /\ v_signed r s.
  Proof. intros. split; [eapply v_rel_out; [|eassumption]; eapply (rr_v_add (bare_unit_rel (sf_ops prec emax rem) sign_units)); ex_args|eapply v_rel_out; [|eassumption]; eapply (rr_v_add (@sign_rel prec emax rem)); ex_args]. Qed.
  Theorem C115_signs_v_sub : forall N u v x y X Y r, length u = N -> length v = N -> v_bare u x -> v_bare v y -> v_signed u X -> v_signed v Y -> v_sub (unit_ops (sf_ops prec emax rem) sign_units) N u v = Ok r ->
    (exists s, v_sub (sf_ops prec emax rem) N x y = Ok s /\ v_bare r s) /\ exists s, v_sub (sf_ops prec emax rem) N X Y = Ok s /\ v_signed r s.
  Proof. intros. split; [eapply v_rel_out; [|eassumption]; eapply (rr_v_sub (bare_unit_rel (sf_ops prec emax rem) sign_units)); ex_args|eapply v_rel_out; [|eassumption]; eapply (rr_v_sub (@sign_rel prec emax rem)); ex_args]. Qed.
  Theorem C115_signs_v_mul : forall N u v x y X Y r, length u = N -> length v = N -> v_bare u x -> v_bare v y -> v_signed u X -> v_signed v Y -> v_mul (unit_ops (sf_ops prec emax rem) sign_units) N u v = Ok r ->
    (exists s, v_mul (sf_ops prec emax rem) N x y = Ok s /\ v_bare r s) /\ exists s, v_mul (sf_ops prec emax rem) N X Y = Ok s /\ v_signed r s.
  Proof. intros. split; [eapply v_rel_out; [|eassumption]; eapply (rr_v_mul (bare_unit_rel (sf_ops prec emax rem) sign_units)); ex_args|eapply v_rel_out; [|eassumption]; eapply (rr_v_mul (@sign_rel prec emax rem)); ex_args]. Qed.
  Theorem C115_signs_v_neg : forall N u x X r, length u = N -> v_bare u x -> v_signed u X -> v_neg (unit_ops (sf_ops prec emax rem) sign_units) u = Ok r ->
    (exists s, v_neg (sf_ops prec emax rem) x = Ok s /\ v_bare r s) /\ exists s, v_neg (sf_ops prec emax rem) X = Ok s /\ v_signed r s.
  Proof. intros. split; [eapply v_rel_out; [|eassumption]; eapply (rr_v_neg (bare_unit_rel (sf_ops prec emax rem) sign_units)); ex_args|eapply v_rel_out; [|eassumption]; eapply (rr_v_neg (@sign_rel prec emax rem)); ex_args]. Qed.
  Theorem C115_signs_v_smul : forall N u v x y X Y r, length u = N -> v_bare u x -> bare v y -> v_signed u X -> signed v Y -> v_smul (unit_ops (sf_ops prec emax rem) sign_units) u v = Ok r ->
    (exists s, v_smul (sf_ops prec emax rem) x y = Ok s /\ v_bare r s) /\ exists s, v_smul (sf_ops prec emax rem) X Y = Ok s /\ v_signed r s.
  Proof. intros. split; [eapply v_rel_out; [|eassumption]; eapply (rr_v_smul (bare_unit_rel (sf_ops prec emax rem) sign_units)); ex_args|eapply v_rel_out; [|eassumption]; eapply (rr_v_smul (@sign_rel prec emax rem)); ex_args]. Qed.
  Theorem C115_signs_v_sum : forall N u x X r, length u = N -> v_bare u x -> v_signed u X -> v_sum (unit_ops (sf_ops prec emax rem) sign_units) u = Ok r ->
    (exists s, v_sum (sf_ops prec emax rem) x = Ok s /\ bare r s) /\ exists s, v_sum (sf_ops prec emax rem) X = Ok s /\ signed r s.
  Proof. intros. split; [eapply s_rel_out; [|eassumption]; eapply (rr_v_sum (bare_unit_rel (sf_ops prec emax rem) sign_units)); ex_args|eapply s_rel_out; [|eassumption]; eapply (rr_v_sum (@sign_rel prec emax rem)); ex_args]. Qed.
  Theorem C115_signs_v_dot : forall N u v x y X Y r, length u = N -> length v = N -> v_bare u x -> v_bare v y -> v_signed u X -> v_signed v Y -> v_dot (unit_ops (sf_ops prec emax rem) sign_units) N u v = Ok r ->
    (exists s, v_dot (sf_ops prec emax rem) N x y = Ok s /\ bare r s) /\ exists s, v_dot (sf_ops prec emax rem) N X Y = Ok s /\ signed r s.
  Proof. intros. split; [eapply s_rel_out; [|eassumption]; eapply (rr_v_dot (bare_unit_rel (sf_ops prec emax rem) sign_units)); ex_args|eapply s_rel_out; [|eassumption]; eapply (rr_v_dot (@sign_rel prec emax rem)); ex_args]. Qed.
  Theorem C115_signs_v_square_length : forall N u x X r, length u = N -> v_bare u x -> v_signed u X -> v_square_length (unit_ops (sf_ops prec emax rem) sign_units) u = Ok r ->
    (exists s, v_square_length (sf_ops prec emax rem) x = Ok s /\ bare r s) /\ exists s, v_square_length (sf_ops prec emax rem) X = Ok s /\ signed r s.
  Proof. intros. split; [eapply s_rel_out; [|eassumption]; eapply (rr_v_square_length (bare_unit_rel (sf_ops prec emax rem) sign_units)); ex_args|eapply s_rel_out; [|eassumption]; eapply (rr_v_square_length (@sign_rel prec emax rem)); ex_args]. Qed.
  Theorem C115_signs_v_cross2 : forall u v x y X Y r, length u = 2 -> length v = 2 -> v_bare u x -> v_bare v y -> v_signed u X -> v_signed v Y -> v_cross2 (unit_ops (sf_ops prec emax rem) sign_units) u v = Ok r ->
    (exists s, v_cross2 (sf_ops prec emax rem) x y = Ok s /\ bare r s) /\ exists s, v_cross2 (sf_ops prec emax rem) X Y = Ok s /\ signed r s.
  Proof. intros. split; [eapply s_rel_out; [|eassumption]; eapply (rr_v_cross2 (bare_unit_rel (sf_ops prec emax rem) sign_units)); ex_args|eapply s_rel_out; [|eassumption]; eapply (rr_v_cross2 (@sign_rel prec emax rem)); ex_args]. Qed.
  Theorem C115_signs_v_cross3 : forall u v x y X Y r, length u = 3 -> length v = 3 -> v_bare u x -> v_bare v y -> v_signed u X -> v_signed v Y -> v_cross3 (unit_ops (sf_ops prec emax rem) sign_units) u v = Ok r ->
    (exists s, v_cross3 (sf_ops prec emax rem) x y = Ok s /\ v_bare r s) /\ exists s, v_cross3 (sf_ops prec emax rem) X Y = Ok s /\ v_signed r s.
  Proof. intros. split; [eapply v_rel_out; [|eassumption]; eapply (rr_v_cross3 (bare_unit_rel (sf_ops prec emax rem) sign_units)); ex_args|eapply v_rel_out; [|eassumption]; eapply (rr_v_cross3 (@sign_rel prec emax rem)); ex_args]. Qed.
  Theorem C115_signs_v_cross4 : forall u v x y X Y r, length u = 4 -> length v = 4 -> v_bare u x -> v_bare v y -> v_signed u X -> v_signed v Y -> v_cross4 (unit_ops (sf_ops prec emax rem) sign_units) u v = Ok r ->
    (exists s, v_cross4 (sf_ops prec emax rem) x y = Ok s /\ v_bare r s) /\ exists s, v_cross4 (sf_ops prec emax rem) X Y = Ok s /\ v_signed r s.
  Proof. intros. split; [eapply v_rel_out; [|eassumption]; eapply (rr_v_cross4 (bare_unit_rel (sf_ops prec emax rem) sign_units)); ex_args|eapply v_rel_out; [|eassumption]; eapply (rr_v_cross4 (@sign_rel prec emax rem)); ex_args]. Qed.
  Theorem C115_signs_v_div : forall N u v x y X Y r, length u = N -> length v = N -> v_bare u x -> v_bare v y -> v_signed u X -> v_signed v Y -> v_div (unit_ops (sf_ops prec emax rem) sign_units) N u v = Ok r ->
    (exists s, v_div (sf_ops prec emax rem) N x y = Ok s /\ v_bare r s) /\ exists s, v_div (sf_ops prec emax rem) N X Y = Ok s /\ v_signed r s.
  Proof. intros. split; [eapply v_rel_out; [|eassumption]; eapply (rr_v_div (@bare_unit_divrel _ _ (sf_ops prec emax rem) sign_units)); ex_args|eapply v_rel_out; [|eassumption]; eapply (rr_v_div (@sign_divrel prec emax rem)); ex_args]. Qed.
  Theorem C115_signs_v_sdiv : forall N u v x y X Y r, length u = N -> v_bare u x -> bare v y -> v_signed u X -> signed v Y -> v_sdiv (unit_ops (sf_ops prec emax rem) sign_units) u v = Ok r ->
    (exists s, v_sdiv (sf_ops prec emax rem) x y = Ok s /\ v_bare r s) /\ exists s, v_sdiv (sf_ops prec emax rem) X Y = Ok s /\ v_signed r s.
  Proof. intros. split; [eapply v_rel_out; [|eassumption]; eapply (rr_v_sdiv (@bare_unit_divrel _ _ (sf_ops prec emax rem) sign_units)); ex_args|eapply v_rel_out; [|eassumption]; eapply (rr_v_sdiv (@sign_divrel prec emax rem)); ex_args]. Qed.
  Theorem C115_signs_m_add : forall M N u v x y X Y r, rect M N u -> rect M N v -> m_bare u x -> m_bare v y -> m_signed u X -> m_signed v Y -> m_add (unit_ops (sf_ops prec emax rem) sign_units) M N u v = Ok r ->
    (exists s, m_add (sf_ops prec emax rem) M N x y = Ok s /\ m_bare r s) /\ exists s, m_add (sf_ops prec emax rem) M N X Y = Ok s /\ m_signed r s.
  Proof. intros. split; [eapply m_rel_out; [|eassumption]; eapply (rr_m_add (bare_unit_rel (sf_ops prec emax rem) sign_units)); ex_args|eapply m_rel_out; [|eassumption]; eapply (rr_m_add (@sign_rel prec emax rem)); ex_args]. Qed.
  Theorem C115_signs_m_sub : forall M N u v x y X Y r, rect M N u -> rect M N v -> m_bare u x -> m_bare v y -> m_signed u X -> m_signed v Y -> m_sub (unit_ops (sf_ops prec emax rem) sign_units) M N u v = Ok r ->
    (exists s, m_sub (sf_ops prec emax rem) M N x y = Ok s /\ m_bare r s) /\ exists s, m_sub (sf_ops prec emax rem) M N X Y = Ok s /\ m_signed r s.
  Proof. intros. split; [eapply m_rel_out; [|eassumption]; eapply (rr_m_sub (bare_unit_rel (sf_ops prec emax rem) sign_units)); ex_args|eapply m_rel_out; [|eassumption]; eapply (rr_m_sub (@sign_rel prec emax rem)); ex_args]. Qed.
  Theorem C115_signs_m_mul : forall M N u v x y X Y r, rect M N u -> rect M N v -> m_bare u x -> m_bare v y -> m_signed u X -> m_signed v Y -> m_mul (unit_ops (sf_ops prec emax rem) sign_units) M N u v = Ok r ->
    (exists s, m_mul (sf_ops prec emax rem) M N x y = Ok s /\ m_bare r s) /\ exists s, m_mul (sf_ops prec emax rem) M N X Y = Ok s /\ m_signed r s.
  Proof. intros. split; [eapply m_rel_out; [|eassumption]; eapply (rr_m_mul (bare_unit_rel (sf_ops prec emax rem) sign_units)); ex_args|eapply m_rel_out; [|eassumption]; eapply (rr_m_mul (@sign_rel prec emax rem)); ex_args]. Qed.
  Theorem C115_signs_m_neg : forall M N u x X r, rect M N u -> m_bare u x -> m_signed u X -> m_neg (unit_ops (sf_ops prec emax rem) sign_units) u = Ok r ->
    (exists s, m_neg (sf_ops prec emax rem) x = Ok s /\ m_bare r s) /\ exists s, m_neg (sf_ops prec emax rem) X = Ok s /\ m_signed r s.
  Proof. intros. split; [eapply m_rel_out; [|eassumption]; eapply (rr_m_neg (bare_unit_rel (sf_ops prec emax rem) sign_units)); ex_args|eapply m_rel_out; [|eassumption]; eapply (rr_m_neg (@sign_rel prec emax rem)); ex_args]. Qed.
  Theorem C115_signs_m_smul : forall M N u v x y X Y r, rect M N u -> m_bare u x -> bare v y -> m_signed u X -> signed v Y -> m_smul (unit_ops (sf_ops prec emax rem) sign_units) u v = Ok r ->
    (exists s, m_smul (sf_ops prec emax rem) x y = Ok s /\ m_bare r s) /\ exists s, m_smul (sf_ops prec emax rem) X Y = Ok s /\ m_signed r s.
  Proof. intros. split; [eapply m_rel_out; [|eassumption]; eapply (rr_m_smul (bare_unit_rel (sf_ops prec emax rem) sign_units)); ex_args|eapply m_rel_out; [|eassumption]; eapply (rr_m_smul (@sign_rel prec emax rem)); ex_args]. Qed.
  Theorem C115_signs_m_sum : forall M N u x X r, rect M N u -> m_bare u x -> m_signed u X -> m_sum (unit_ops (sf_ops prec emax rem) sign_units) u = Ok r ->
    (exists s, m_sum (sf_ops prec emax rem) x = Ok s /\ bare r s) /\ exists s, m_sum (sf_ops prec emax rem) X = Ok s /\ signed r s.
  Proof. intros. split; [eapply s_rel_out; [|eassumption]; eapply (rr_m_sum (bare_unit_rel (sf_ops prec emax rem) sign_units)); ex_args|eapply s_rel_out; [|eassumption]; eapply (rr_m_sum (@sign_rel prec emax rem)); ex_args]. Qed.
  Theorem C115_signs_m_div : forall M N u v x y X Y r, rect M N u -> rect M N v -> m_bare u x -> m_bare v y -> m_signed u X -> m_signed v Y -> m_div (unit_ops (sf_ops prec emax rem) sign_units) M N u v = Ok r ->
    (exists s, m_div (sf_ops prec emax rem) M N x y = Ok s /\ m_bare r s) /\ exists s, m_div (sf_ops prec emax rem) M N X Y = Ok s /\ m_signed r s.
  Proof. intros. split; [eapply m_rel_out; [|eassumption]; eapply (rr_m_div (@bare_unit_divrel _ _ (sf_ops prec emax rem) sign_units)); ex_args|eapply m_rel_out; [|eassumption]; eapply (rr_m_div (@sign_divrel prec emax rem)); ex_args]. Qed.
  Theorem C115_signs_m_sdiv : forall M N u v x y X Y r, rect M N u -> m_bare u x -> bare v y -> m_signed u X -> signed v Y -> m_sdiv (unit_ops (sf_ops prec emax rem) sign_units) u v = Ok r ->
    (exists s, m_sdiv (sf_ops prec emax rem) x y = Ok s /\ m_bare r s) /\ exists s, m_sdiv (sf_ops prec emax rem) X Y = Ok s /\ m_signed r s.
  Proof. intros. split; [eapply m_rel_out; [|eassumption]; eapply (rr_m_sdiv (@bare_unit_divrel _ _ (sf_ops prec emax rem) sign_units)); ex_args|eapply m_rel_out; [|eassumption]; eapply (rr_m_sdiv (@sign_divrel prec emax rem)); ex_args]. Qed.
  Theorem C115_signs_m_dot : forall L M N u v x y X Y r, rect L M u -> rect M N v -> m_bare u x -> m_bare v y -> m_signed u X -> m_signed v Y -> m_dot (unit_ops (sf_ops prec emax rem) sign_units) L M N u v = Ok r ->
    (exists s, m_dot (sf_ops prec emax rem) L M N x y = Ok s /\ m_bare r s) /\ exists s, m_dot (sf_ops prec emax rem) L M N X Y = Ok s /\ m_signed r s.
  Proof. intros. split; [eapply m_rel_out; [|eassumption]; eapply (rr_m_dot (bare_unit_rel (sf_ops prec emax rem) sign_units)); ex_args|eapply m_rel_out; [|eassumption]; eapply (rr_m_dot (@sign_rel prec emax rem)); ex_args]. Qed.
  Theorem C115_signs_m_dot_v : forall M N u v x y X Y r, rect M N u -> length v = N -> m_bare u x -> v_bare v y -> m_signed u X -> v_signed v Y -> m_dot_v (unit_ops (sf_ops prec emax rem) sign_units) M N u v = Ok r ->
    (exists s, m_dot_v (sf_ops prec emax rem) M N x y = Ok s /\ v_bare r s) /\ exists s, m_dot_v (sf_ops prec emax rem) M N X Y = Ok s /\ v_signed r s.
  Proof. intros. split; [eapply v_rel_out; [|eassumption]; eapply (rr_m_dot_v (bare_unit_rel (sf_ops prec emax rem) sign_units)); ex_args|eapply v_rel_out; [|eassumption]; eapply (rr_m_dot_v (@sign_rel prec emax rem)); ex_args]. Qed.
  Theorem C115_signs_v_dot_m : forall M N u v x y X Y r, length u = M -> rect M N v -> v_bare u x -> m_bare v y -> v_signed u X -> m_signed v Y -> v_dot_m (unit_ops (sf_ops prec emax rem) sign_units) M N u v = Ok r ->
    (exists s, v_dot_m (sf_ops prec emax rem) M N x y = Ok s /\ v_bare r s) /\ exists s, v_dot_m (sf_ops prec emax rem) M N X Y = Ok s /\ v_signed r s.
  Proof. intros. split; [eapply v_rel_out; [|eassumption]; eapply (rr_v_dot_m (bare_unit_rel (sf_ops prec emax rem) sign_units)); ex_args|eapply v_rel_out; [|eassumption]; eapply (rr_v_dot_m (@sign_rel prec emax rem)); ex_args]. Qed.
  Theorem C115_signs_m_outer : forall M N u v x y X Y r, length u = M -> length v = N -> v_bare u x -> v_bare v y -> v_signed u X -> v_signed v Y -> m_outer (unit_ops (sf_ops prec emax rem) sign_units) M N u v = Ok r ->
    (exists s, m_outer (sf_ops prec emax rem) M N x y = Ok s /\ m_bare r s) /\ exists s, m_outer (sf_ops prec emax rem) M N X Y = Ok s /\ m_signed r s.
  Proof. intros. split; [eapply m_rel_out; [|eassumption]; eapply (rr_m_outer (bare_unit_rel (sf_ops prec emax rem) sign_units)); ex_args|eapply m_rel_out; [|eassumption]; eapply (rr_m_outer (@sign_rel prec emax rem)); ex_args]. Qed.
  Theorem C115_signs_m_det : forall N u x X r, rect N N u -> m_bare u x -> m_signed u X -> m_det (unit_ops (sf_ops prec emax rem) sign_units) N u = Ok r ->
    (exists s, m_det (sf_ops prec emax rem) N x = Ok s /\ bare r s) /\ exists s, m_det (sf_ops prec emax rem) N X = Ok s /\ signed r s.
  Proof. intros. split; [eapply s_rel_out; [|eassumption]; eapply (rr_m_det (bare_unit_rel (sf_ops prec emax rem) sign_units)); ex_args|eapply s_rel_out; [|eassumption]; eapply (rr_m_det (@sign_rel prec emax rem)); ex_args]. Qed.
  Theorem C115_signs_m_cofactor : forall N i j u x X r, rect N N u -> m_bare u x -> m_signed u X -> m_cofactor (unit_ops (sf_ops prec emax rem) sign_units) N u i j = Ok r ->
    (exists s, m_cofactor (sf_ops prec emax rem) N x i j = Ok s /\ bare r s) /\ exists s, m_cofactor (sf_ops prec emax rem) N X i j = Ok s /\ signed r s.
  Proof. intros. split; [eapply s_rel_out; [|eassumption]; eapply (rr_m_cofactor (bare_unit_rel (sf_ops prec emax rem) sign_units)); ex_args|eapply s_rel_out; [|eassumption]; eapply (rr_m_cofactor (@sign_rel prec emax rem)); ex_args]. Qed.
  Theorem C115_signs_m_adj : forall N u x X r, rect N N u -> m_bare u x -> m_signed u X -> m_adj (unit_ops (sf_ops prec emax rem) sign_units) N u = Ok r ->
    (exists s, m_adj (sf_ops prec emax rem) N x = Ok s /\ m_bare r s) /\ exists s, m_adj (sf_ops prec emax rem) N X = Ok s /\ m_signed r s.
  Proof. intros. split; [eapply m_rel_out; [|eassumption]; eapply (rr_m_adj (bare_unit_rel (sf_ops prec emax rem) sign_units)); ex_args|eapply m_rel_out; [|eassumption]; eapply (rr_m_adj (@sign_rel prec emax rem)); ex_args]. Qed.
  Theorem C115_signs_m_inv : forall N u x X r, rect N N u -> m_bare u x -> m_signed u X -> m_inv (unit_ops (sf_ops prec emax rem) sign_units) N u = Ok r ->
    (exists s, m_inv (sf_ops prec emax rem) N x = Ok s /\ m_bare r s) /\ exists s, m_inv (sf_ops prec emax rem) N X = Ok s /\ m_signed r s.
  Proof. intros. split; [eapply m_rel_out; [|eassumption]; eapply (rr_m_inv (bare_unit_rel (sf_ops prec emax rem) sign_units) (@bare_unit_divrel _ _ (sf_ops prec emax rem) sign_units)); ex_args|eapply m_rel_out; [|eassumption]; eapply (rr_m_inv (@sign_rel prec emax rem) (@sign_divrel prec emax rem)); ex_args]. Qed.
  Theorem C115_signs_c_add : forall u v x y X Y r, c_bare u x -> c_bare v y -> c_signed u X -> c_signed v Y -> c_add (unit_ops (sf_ops prec emax rem) sign_units) u v = Ok r ->
    (exists s, c_add (sf_ops prec emax rem) x y = Ok s /\ c_bare r s) /\ exists s, c_add (sf_ops prec emax rem) X Y = Ok s /\ c_signed r s.
  Proof. intros. split; [eapply c_rel_out; [|eassumption]; eapply (rr_c_add (bare_unit_rel (sf_ops prec emax rem) sign_units)); ex_args|eapply c_rel_out; [|eassumption]; eapply (rr_c_add (@sign_rel prec emax rem)); ex_args]. Qed.
  Theorem C115_signs_c_sub : forall u v x y X Y r, c_bare u x -> c_bare v y -> c_signed u X -> c_signed v Y -> c_sub (unit_ops (sf_ops prec emax rem) sign_units) u v = Ok r ->
    (exists s, c_sub (sf_ops prec emax rem) x y = Ok s /\ c_bare r s) /\ exists s, c_sub (sf_ops prec emax rem) X Y = Ok s /\ c_signed r s.
  Proof. intros. split; [eapply c_rel_out; [|eassumption]; eapply (rr_c_sub (bare_unit_rel (sf_ops prec emax rem) sign_units)); ex_args|eapply c_rel_out; [|eassumption]; eapply (rr_c_sub (@sign_rel prec emax rem)); ex_args]. Qed.
  Theorem C115_signs_c_mul : forall u v x y X Y r, c_bare u x -> c_bare v y -> c_signed u X -> c_signed v Y -> c_mul (unit_ops (sf_ops prec emax rem) sign_units) u v = Ok r ->
    (exists s, c_mul (sf_ops prec emax rem) x y = Ok s /\ c_bare r s) /\ exists s, c_mul (sf_ops prec emax rem) X Y = Ok s /\ c_signed r s.
  Proof. intros. split; [eapply c_rel_out; [|eassumption]; eapply (rr_c_mul (bare_unit_rel (sf_ops prec emax rem) sign_units)); ex_args|eapply c_rel_out; [|eassumption]; eapply (rr_c_mul (@sign_rel prec emax rem)); ex_args]. Qed.
  Theorem C115_signs_c_neg : forall u x X r, c_bare u x -> c_signed u X -> c_neg (unit_ops (sf_ops prec emax rem) sign_units) u = Ok r ->
    (exists s, c_neg (sf_ops prec emax rem) x = Ok s /\ c_bare r s) /\ exists s, c_neg (sf_ops prec emax rem) X = Ok s /\ c_signed r s.
  Proof. intros. split; [eapply c_rel_out; [|eassumption]; eapply (rr_c_neg (bare_unit_rel (sf_ops prec emax rem) sign_units)); ex_args|eapply c_rel_out; [|eassumption]; eapply (rr_c_neg (@sign_rel prec emax rem)); ex_args]. Qed.
  Theorem C115_signs_c_conj : forall u x X r, c_bare u x -> c_signed u X -> c_conj (unit_ops (sf_ops prec emax rem) sign_units) u = Ok r ->
    (exists s, c_conj (sf_ops prec emax rem) x = Ok s /\ c_bare r s) /\ exists s, c_conj (sf_ops prec emax rem) X = Ok s /\ c_signed r s.
  Proof. intros. split; [eapply c_rel_out; [|eassumption]; eapply (rr_c_conj (bare_unit_rel (sf_ops prec emax rem) sign_units)); ex_args|eapply c_rel_out; [|eassumption]; eapply (rr_c_conj (@sign_rel prec emax rem)); ex_args]. Qed.
  Theorem C115_signs_c_mul_s : forall u v x y X Y r, c_bare u x -> bare v y -> c_signed u X -> signed v Y -> c_mul_s (unit_ops (sf_ops prec emax rem) sign_units) u v = Ok r ->
    (exists s, c_mul_s (sf_ops prec emax rem) x y = Ok s /\ c_bare r s) /\ exists s, c_mul_s (sf_ops prec emax rem) X Y = Ok s /\ c_signed r s.
  Proof. intros. split; [eapply c_rel_out; [|eassumption]; eapply (rr_c_mul_s (bare_unit_rel (sf_ops prec emax rem) sign_units)); ex_args|eapply c_rel_out; [|eassumption]; eapply (rr_c_mul_s (@sign_rel prec emax rem)); ex_args]. Qed.
  Theorem C115_signs_c_norm_sqr : forall u x X r, c_bare u x -> c_signed u X -> c_norm_sqr (unit_ops (sf_ops prec emax rem) sign_units) u = Ok r ->
    (exists s, c_norm_sqr (sf_ops prec emax rem) x = Ok s /\ bare r s) /\ exists s, c_norm_sqr (sf_ops prec emax rem) X = Ok s /\ signed r s.
  Proof. intros. split; [eapply s_rel_out; [|eassumption]; eapply (rr_c_norm_sqr (bare_unit_rel (sf_ops prec emax rem) sign_units)); ex_args|eapply s_rel_out; [|eassumption]; eapply (rr_c_norm_sqr (@sign_rel prec emax rem)); ex_args]. Qed.
  Theorem C115_signs_c_dot : forall u v x y X Y r, c_bare u x -> c_bare v y -> c_signed u X -> c_signed v Y -> c_dot (unit_ops (sf_ops prec emax rem) sign_units) u v = Ok r ->
    (exists s, c_dot (sf_ops prec emax rem) x y = Ok s /\ bare r s) /\ exists s, c_dot (sf_ops prec emax rem) X Y = Ok s /\ signed r s.
  Proof. intros. split; [eapply s_rel_out; [|eassumption]; eapply (rr_c_dot (bare_unit_rel (sf_ops prec emax rem) sign_units)); ex_args|eapply s_rel_out; [|eassumption]; eapply (rr_c_dot (@sign_rel prec emax rem)); ex_args]. Qed.
  Theorem C115_signs_c_inv : forall u x X r, c_bare u x -> c_signed u X -> c_inv (unit_ops (sf_ops prec emax rem) sign_units) u = Ok r ->
    (exists s, c_inv (sf_ops prec emax rem) x = Ok s /\ c_bare r s) /\ exists s, c_inv (sf_ops prec emax rem) X = Ok s /\ c_signed r s.
  Proof. intros. split; [eapply c_rel_out; [|eassumption]; eapply (rr_c_inv (bare_unit_rel (sf_ops prec emax rem) sign_units) (@bare_unit_divrel _ _ (sf_ops prec emax rem) sign_units)); ex_args|eapply c_rel_out; [|eassumption]; eapply (rr_c_inv (@sign_rel prec emax rem) (@sign_divrel prec emax rem)); ex_args]. Qed.
  Theorem C115_signs_c_div : forall u v x y X Y r, c_bare u x -> c_bare v y -> c_signed u X -> c_signed v Y -> c_div (unit_ops (sf_ops prec emax rem) sign_units) u v = Ok r ->
    (exists s, c_div (sf_ops prec emax rem) x y = Ok s /\ c_bare r s) /\ exists s, c_div (sf_ops prec emax rem) X Y = Ok s /\ c_signed r s.
  Proof. intros. split; [eapply c_rel_out; [|eassumption]; eapply (rr_c_div (bare_unit_rel (sf_ops prec emax rem) sign_units) (@bare_unit_divrel _ _ (sf_ops prec emax rem) sign_units)); ex_args|eapply c_rel_out; [|eassumption]; eapply (rr_c_div (@sign_rel prec emax rem) (@sign_divrel prec emax rem)); ex_args]. Qed.
  Theorem C115_signs_q_add : forall u v x y X Y r, q_bare u x -> q_bare v y -> q_signed u X -> q_signed v Y -> q_add (unit_ops (sf_ops prec emax rem) sign_units) u v = Ok r ->
    (exists s, q_add (sf_ops prec emax rem) x y = Ok s /\ q_bare r s) /\ exists s, q_add (sf_ops prec emax rem) X Y = Ok s /\ q_signed r s.
  Proof. intros. split; [eapply q_rel_out; [|eassumption]; eapply (rr_q_add (bare_unit_rel (sf_ops prec emax rem) sign_units)); ex_args|eapply q_rel_out; [|eassumption]; eapply (rr_q_add (@sign_rel prec emax rem)); ex_args]. Qed.
  Theorem C115_signs_q_sub : forall u v x y X Y r, q_bare u x -> q_bare v y -> q_signed u X -> q_signed v Y -> q_sub (unit_ops (sf_ops prec emax rem) sign_units) u v = Ok r ->
    (exists s, q_sub (sf_ops prec emax rem) x y = Ok s /\ q_bare r s) /\ exists s, q_sub (sf_ops prec emax rem) X Y = Ok s /\ q_signed r s.
  Proof. intros. split; [eapply q_rel_out; [|eassumption]; eapply (rr_q_sub (bare_unit_rel (sf_ops prec emax rem) sign_units)); ex_args|eapply q_rel_out; [|eassumption]; eapply (rr_q_sub (@sign_rel prec emax rem)); ex_args]. Qed.
  Theorem C115_signs_q_mul : forall u v x y X Y r, q_bare u x -> q_bare v y -> q_signed u X -> q_signed v Y -> q_mul (unit_ops (sf_ops prec emax rem) sign_units) u v = Ok r ->
    (exists s, q_mul (sf_ops prec emax rem) x y = Ok s /\ q_bare r s) /\ exists s, q_mul (sf_ops prec emax rem) X Y = Ok s /\ q_signed r s.
  Proof. intros. split; [eapply q_rel_out; [|eassumption]; eapply (rr_q_mul (bare_unit_rel (sf_ops prec emax rem) sign_units)); ex_args|eapply q_rel_out; [|eassumption]; eapply (rr_q_mul (@sign_rel prec emax rem)); ex_args]. Qed.
  Theorem C115_signs_q_neg : forall u x X r, q_bare u x -> q_signed u X -> q_neg (unit_ops (sf_ops prec emax rem) sign_units) u = Ok r ->
    (exists s, q_neg (sf_ops prec emax rem) x = Ok s /\ q_bare r s) /\ exists s, q_neg (sf_ops prec emax rem) X = Ok s /\ q_signed r s.
  Proof. intros. split; [eapply q_rel_out; [|eassumption]; eapply (rr_q_neg (bare_unit_rel (sf_ops prec emax rem) sign_units)); ex_args|eapply q_rel_out; [|eassumption]; eapply (rr_q_neg (@sign_rel prec emax rem)); ex_args]. Qed.
  Theorem C115_signs_q_conj : forall u x X r, q_bare u x -> q_signed u X -> q_conj (unit_ops (sf_ops prec emax rem) sign_units) u = Ok r ->
    (exists s, q_conj (sf_ops prec emax rem) x = Ok s /\ q_bare r s) /\ exists s, q_conj (sf_ops prec emax rem) X = Ok s /\ q_signed r s.
  Proof. intros. split; [eapply q_rel_out; [|eassumption]; eapply (rr_q_conj (bare_unit_rel (sf_ops prec emax rem) sign_units)); ex_args|eapply q_rel_out; [|eassumption]; eapply (rr_q_conj (@sign_rel prec emax rem)); ex_args]. Qed.
  Theorem C115_signs_q_mul_s : forall u v x y X Y r, q_bare u x -> bare v y -> q_signed u X -> signed v Y -> q_mul_s (unit_ops (sf_ops prec emax rem) sign_units) u v = Ok r ->
    (exists s, q_mul_s (sf_ops prec emax rem) x y = Ok s /\ q_bare r s) /\ exists s, q_mul_s (sf_ops prec emax rem) X Y = Ok s /\ q_signed r s.
  Proof. intros. split; [eapply q_rel_out; [|eassumption]; eapply (rr_q_mul_s (bare_unit_rel (sf_ops prec emax rem) sign_units)); ex_args|eapply q_rel_out; [|eassumption]; eapply (rr_q_mul_s (@sign_rel prec emax rem)); ex_args]. Qed.
  Theorem C115_signs_q_mul_c : forall u v x y X Y r, q_bare u x -> c_bare v y -> q_signed u X -> c_signed v Y -> q_mul_c (unit_ops (sf_ops prec emax rem) sign_units) u v = Ok r ->
    (exists s, q_mul_c (sf_ops prec emax rem) x y = Ok s /\ q_bare r s) /\ exists s, q_mul_c (sf_ops prec emax rem) X Y = Ok s /\ q_signed r s.
  Proof. intros. split; [eapply q_rel_out; [|eassumption]; eapply (rr_q_mul_c (bare_unit_rel (sf_ops prec emax rem) sign_units)); ex_args|eapply q_rel_out; [|eassumption]; eapply (rr_q_mul_c (@sign_rel prec emax rem)); ex_args]. Qed.
  Theorem C115_signs_c_mul_q : forall u v x y X Y r, c_bare u x -> q_bare v y -> c_signed u X -> q_signed v Y -> c_mul_q (unit_ops (sf_ops prec emax rem) sign_units) u v = Ok r ->
    (exists s, c_mul_q (sf_ops prec emax rem) x y = Ok s /\ q_bare r s) /\ exists s, c_mul_q (sf_ops prec emax rem) X Y = Ok s /\ q_signed r s.
  Proof. intros. split; [eapply q_rel_out; [|eassumption]; eapply (rr_c_mul_q (bare_unit_rel (sf_ops prec emax rem) sign_units)); ex_args|eapply q_rel_out; [|eassumption]; eapply (rr_c_mul_q (@sign_rel prec emax rem)); ex_args]. Qed.
  Theorem C115_signs_q_norm_sqr : forall u x X r, q_bare u x -> q_signed u X -> q_norm_sqr (unit_ops (sf_ops prec emax rem) sign_units) u = Ok r ->
    (exists s, q_norm_sqr (sf_ops prec emax rem) x = Ok s /\ bare r s) /\ exists s, q_norm_sqr (sf_ops prec emax rem) X = Ok s /\ signed r s.
  Proof. intros. split; [eapply s_rel_out; [|eassumption]; eapply (rr_q_norm_sqr (bare_unit_rel (sf_ops prec emax rem) sign_units)); ex_args|eapply s_rel_out; [|eassumption]; eapply (rr_q_norm_sqr (@sign_rel prec emax rem)); ex_args]. Qed.
  Theorem C115_signs_q_dot : forall u v x y X Y r, q_bare u x -> q_bare v y -> q_signed u X -> q_signed v Y -> q_dot (unit_ops (sf_ops prec emax rem) sign_units) u v = Ok r ->
    (exists s, q_dot (sf_ops prec emax rem) x y = Ok s /\ bare r s) /\ exists s, q_dot (sf_ops prec emax rem) X Y = Ok s /\ signed r s.
  Proof. intros. split; [eapply s_rel_out; [|eassumption]; eapply (rr_q_dot (bare_unit_rel (sf_ops prec emax rem) sign_units)); ex_args|eapply s_rel_out; [|eassumption]; eapply (rr_q_dot (@sign_rel prec emax rem)); ex_args]. Qed.
  Theorem C115_signs_q_inv : forall u x X r, q_bare u x -> q_signed u X -> q_inv (unit_ops (sf_ops prec emax rem) sign_units) u = Ok r ->
    (exists s, q_inv (sf_ops prec emax rem) x = Ok s /\ q_bare r s) /\ exists s, q_inv (sf_ops prec emax rem) X = Ok s /\ q_signed r s.
  Proof. intros. split; [eapply q_rel_out; [|eassumption]; eapply (rr_q_inv (bare_unit_rel (sf_ops prec emax rem) sign_units) (@bare_unit_divrel _ _ (sf_ops prec emax rem) sign_units)); ex_args|eapply q_rel_out; [|eassumption]; eapply (rr_q_inv (@sign_rel prec emax rem) (@sign_divrel prec emax rem)); ex_args]. Qed.
  Theorem C115_signs_q_div : forall u v x y X Y r, q_bare u x -> q_bare v y -> q_signed u X -> q_signed v Y -> q_div (unit_ops (sf_ops prec emax rem) sign_units) u v = Ok r ->
    (exists s, q_div (sf_ops prec emax rem) x y = Ok s /\ q_bare r s) /\ exists s, q_div (sf_ops prec emax rem) X Y = Ok s /\ q_signed r s.
  Proof. intros. split; [eapply q_rel_out; [|eassumption]; eapply (rr_q_div (bare_unit_rel (sf_ops prec emax rem) sign_units) (@bare_unit_divrel _ _ (sf_ops prec emax rem) sign_units)); ex_args|eapply q_rel_out; [|eassumption]; eapply (rr_q_div (@sign_rel prec emax rem) (@sign_divrel prec emax rem)); ex_args]. Qed.
  Theorem C115_signs_rot2_apply : forall u v x y X Y r, length v = 2 -> c_bare u x -> v_bare v y -> c_signed u X -> v_signed v Y -> rot2_apply (unit_ops (sf_ops prec emax rem) sign_units) u v = Ok r ->
    (exists s, rot2_apply (sf_ops prec emax rem) x y = Ok s /\ v_bare r s) /\ exists s, rot2_apply (sf_ops prec emax rem) X Y = Ok s /\ v_signed r s.
  Proof. intros. split; [eapply v_rel_out; [|eassumption]; eapply (rr_rot2_apply (bare_unit_rel (sf_ops prec emax rem) sign_units)); ex_args|eapply v_rel_out; [|eassumption]; eapply (rr_rot2_apply (@sign_rel prec emax rem)); ex_args]. Qed.
  Theorem C115_signs_rot3_apply : forall u v x y X Y r, length v = 3 -> q_bare u x -> v_bare v y -> q_signed u X -> v_signed v Y -> rot3_apply (unit_ops (sf_ops prec emax rem) sign_units) u v = Ok r ->
    (exists s, rot3_apply (sf_ops prec emax rem) x y = Ok s /\ v_bare r s) /\ exists s, rot3_apply (sf_ops prec emax rem) X Y = Ok s /\ v_signed r s.
  Proof. intros. split; [eapply v_rel_out; [|eassumption]; eapply (rr_rot3_apply (bare_unit_rel (sf_ops prec emax rem) sign_units)); ex_args|eapply v_rel_out; [|eassumption]; eapply (rr_rot3_apply (@sign_rel prec emax rem)); ex_args]. Qed.
  Theorem C115_signs_mo_apply_self : forall u v x y X Y r, rect 2 2 u -> m_bare u x -> bare v y -> m_signed u X -> signed v Y -> mo_apply_self (unit_ops (sf_ops prec emax rem) sign_units) u v = Ok r ->
    (exists s, mo_apply_self (sf_ops prec emax rem) x y = Ok s /\ bare r s) /\ exists s, mo_apply_self (sf_ops prec emax rem) X Y = Ok s /\ signed r s.
  Proof. intros. split; [eapply s_rel_out; [|eassumption]; eapply (rr_mo_apply_self (bare_unit_rel (sf_ops prec emax rem) sign_units) (@bare_unit_divrel _ _ (sf_ops prec emax rem) sign_units)); ex_args|eapply s_rel_out; [|eassumption]; eapply (rr_mo_apply_self (@sign_rel prec emax rem) (@sign_divrel prec emax rem)); ex_args]. Qed.
End C115_signs.

(* ------------------------------------------------------------------------- *)
(** * Closed forms                                                              *)
Section Closed.
  Context (prec emax : Z) (rem : spec_float -> spec_float -> spec_float).
  Local Notation fo := (sf_ops prec emax rem).
  Local Notation so := (unit_ops fo sign_units).
  Local Notation Q := (quantity spec_float bool).

  (** Squares, so lengths and directions: bit for bit, signs of zeros included. *)
  Lemma square_opp : forall x, SFmul prec emax (SFopp x) (SFopp x) = SFmul prec emax x x.
  Proof. intros x. exact (@mul_mirror prec emax true true x x). Qed.
  Theorem C115_length : forall sqrt v,
    (let! n := v_neg fo v in v_square_length fo n) = v_square_length fo v /\
    (let! n := v_neg fo v in v_length fo sqrt n) = v_length fo sqrt v /\
    (let! n := v_neg fo v in v_normalize fo sqrt n) = (let! n := v_normalize fo sqrt v in v_neg fo n).
  Proof.
    intros sqrt v. assert (N : v_neg fo v = Ok (map SFopp v)) by (apply v_map_pure). rewrite N. cbn [bind].
    assert (E : v_square_length fo (map SFopp v) = v_square_length fo v).
    { unfold v_square_length. f_equal. rewrite !(@v_map_pure _ _ (fun x => SFmul prec emax x x)). f_equal. rewrite map_map. apply map_ext. apply square_opp. }
    assert (L : v_length fo sqrt (map SFopp v) = v_length fo sqrt v) by (unfold v_length; rewrite E; reflexivity).
    split; auto. split; auto. unfold v_normalize. rewrite L. destruct (v_length fo sqrt v) as [l| | |]; cbn [bind]; auto.
    assert (D : forall v, v_sdiv fo v l = Ok (map (fun x => SFdiv prec emax x l) v)) by (intros; apply (@v_map_pure _ _ (fun x => SFdiv prec emax x l))).
    rewrite !D. cbn [bind]. assert (M : forall v, v_neg fo v = Ok (map SFopp v)) by (intros; apply v_map_pure). rewrite M. f_equal. rewrite !map_map. apply map_ext. intros x. exact (@div_mirror prec emax true false x l).
  Qed.

  Lemma sum_unit : forall (l : list Q) c, l <> [] -> Forall (fun q => snd q = Some c) l -> exists d, v_sum so l = Ok (d, Some c).
  Proof.
    intros [|(x & g) l] c N H; [contradiction|]. inversion H as [|? ? G H']; subst. cbn [snd] in G. subst g. unfold v_sum. rewrite v_fold_first_cons. clear N H. revert x.
    induction H' as [|(y & g) l E H IH]; intros x; cbn [fold_res]; [eexists; reflexivity|]. cbn [snd] in E. subst g.
    cbn [o_add unit_ops fst snd common u_same sign_units]. rewrite Bool.eqb_reflx. cbn. apply IH.
  Qed.
  Lemma bare_vk : forall N (x : nat -> spec_float) (s : nat -> bool), v_bare (vk N (fun i => (x i, Some (s i)))) (vk N x).
  Proof. intros. apply Forall2_vk. reflexivity. Qed.
  Lemma bare_mk : forall M N (x : nat -> nat -> spec_float) (s : nat -> nat -> bool), m_bare (mk M N (fun i j => (x i j, Some (s i j)))) (mk M N x).
  Proof. intros. apply Forall2_mk. reflexivity. Qed.
  Lemma signed_vk : forall N (s : nat -> bool) x y, (forall i, i < N -> alike (mirror (s i) (vget fo (vk N x) i)) (vget fo (vk N y) i)) -> v_signed (vk N (fun i => (x i, Some (s i)))) (vk N y).
  Proof. intros N s x y H. apply Forall2_vk. intros i Hi. specialize (H i Hi). rewrite !vget_vk in H by auto. exact H. Qed.
  Lemma signed_mk : forall M N (s : nat -> nat -> bool) x y, (forall i j, i < M -> j < N -> alike (mirror (s i j) (mget fo (mk M N x) i j)) (mget fo (mk M N y) i j)) ->
    m_signed (mk M N (fun i j => (x i j, Some (s i j)))) (mk M N y).
  Proof. intros M N s x y H. apply Forall2_mk. intros i j Hi Hj. specialize (H i j Hi Hj). rewrite !mget_mk in H by auto. exact H. Qed.
  Lemma Forall2_rect : forall A B (P : A -> B -> Prop) M N m m', Forall2 (Forall2 P) m m' -> rect M N m -> rect M N m'.
  Proof.
    intros A B P M N m m' F (L & Fr). split. { rewrite <- (Forall2_length F). auto. }
    clear L. induction F as [|u v l s Huv F IH]; constructor.
    - inversion Fr; subst. symmetry. apply (Forall2_length Huv).
    - apply IH. inversion Fr; auto.
  Qed.
  Definition fd (N : nat) (x y : nat -> spec_float) : spec_float := match v_dot fo N (vk N x) (vk N y) with Ok d => d | _ => S754_nan end.
  Lemma dot_unit : forall N x y (s t : nat -> bool) c, 0 < N -> (forall i, i < N -> xorb (s i) (t i) = c) ->
    v_dot so N (vk N (fun i => (x i, Some (s i)))) (vk N (fun i => (y i, Some (t i)))) = Ok (fd N x y, Some c).
  Proof.
    intros N x y s t c HN H. set (u := vk N (fun i => (x i, Some (s i)))). set (v := vk N (fun i => (y i, Some (t i)))).
    assert (E : exists d, v_dot so N u v = Ok (d, Some c)).
    { unfold v_dot. rewrite v_zip_map_res by (apply vk_length). unfold u, v. rewrite (@map2_res_vk _ _ _ _ N _ _ (fun i => (SFmul prec emax (x i) (y i), Some c))).
      2:{ intros i Hi. cbn. rewrite (H i Hi). reflexivity. }
      cbn [bind]. apply sum_unit. { destruct N; [lia|discriminate]. } apply Forall_forall. intros q Hq. apply in_map_iff in Hq as (i & <- & _). reflexivity. }
    destruct E as (d & E). destruct (@C115_signs_v_dot prec emax rem N u v (vk N x) (vk N y) (vk N (fun i => mirror (s i) (x i))) (vk N (fun i => mirror (t i) (y i))) (d, Some c)) as ((b & Eb & B) & _);
      try apply vk_length; auto; try (apply Forall2_vk; intros; reflexivity); try (apply Forall2_vk; intros; apply alike_refl).
    rewrite E. unfold fd. rewrite Eb. unfold bare in B. cbn in B. subst b. reflexivity.
  Qed.
  (** Changing the sign of some coordinates in both vectors keeps the dot product; changing them all in one vector changes its sign. *)
  Theorem C115_dot : forall N s t c u v u' v', 0 < N -> length u = N -> length v = N -> length u' = N -> length v' = N ->
    (forall i, i < N -> alike (mirror (s i) (vget fo u i)) (vget fo u' i)) -> (forall i, i < N -> alike (mirror (t i) (vget fo v i)) (vget fo v' i)) ->
    (forall i, i < N -> xorb (s i) (t i) = c) ->
    exists d d', v_dot fo N u v = Ok d /\ v_dot fo N u' v' = Ok d' /\ alike (mirror c d) d'.
  Proof.
    intros N s t c u v u' v' HN Lu Lv Lu' Lv' Hu Hv Hc. destruct (vk_ex fo u Lu) as (x & ->), (vk_ex fo v Lv) as (y & ->), (vk_ex fo u' Lu') as (x' & ->), (vk_ex fo v' Lv') as (y' & ->).
    destruct (@C115_signs_v_dot prec emax rem N _ _ (vk N x) (vk N y) (vk N x') (vk N y') _ (vk_length N _) (vk_length N _) (bare_vk N x s) (bare_vk N y t) (@signed_vk N s _ _ Hu) (@signed_vk N t _ _ Hv) (@dot_unit N x y s t c HN Hc)) as ((d & E & B) & d' & E' & S).
    exists d, d'. split; auto. split; auto. unfold signed in S. cbn in S. unfold bare in B. cbn in B. subst d. auto.
  Qed.

  (** Changing the signs of rows and columns. *)
  Theorem C115_product : forall L M N a b c x y x' y', 0 < M -> rect L M x -> rect M N y -> rect L M x' -> rect M N y' ->
    (forall i j, i < L -> j < M -> alike (mirror (xorb (a i) (b j)) (mget fo x i j)) (mget fo x' i j)) ->
    (forall j k, j < M -> k < N -> alike (mirror (xorb (b j) (c k)) (mget fo y j k)) (mget fo y' j k)) ->
    exists p p', m_dot fo L M N x y = Ok p /\ m_dot fo L M N x' y' = Ok p' /\ rect L N p /\ rect L N p' /\
      forall i k, i < L -> k < N -> alike (mirror (xorb (a i) (c k)) (mget fo p i k)) (mget fo p' i k).
  Proof.
    intros L M N a b c x y x' y' HM Rx Ry Rx' Ry' Hx Hy. destruct (mk_ex fo Rx) as (f & ->), (mk_ex fo Ry) as (g & ->), (mk_ex fo Rx') as (f' & ->), (mk_ex fo Ry') as (g' & ->).
    pose (h := fun i k => (fd M (f i) (fun j => g j k), Some (xorb (a i) (c k))) : Q).
    assert (E : m_dot so L M N (mk L M (fun i j => (f i j, Some (xorb (a i) (b j))))) (mk M N (fun j k => (g j k, Some (xorb (b j) (c k))))) = Ok (mk L N h)).
    { unfold m_dot. rewrite m_indices_mk. cbn [bind]. apply m_map_mk. intros i k Hi Hk. rewrite m_row_mk by auto. cbn [bind]. rewrite m_col_mk by auto. cbn [bind]. apply dot_unit; auto.
      intros j _. destruct (a i), (b j), (c k); reflexivity. }
    destruct (@C115_signs_m_dot prec emax rem L M N _ _ _ _ _ _ _ (rect_mk L M _) (rect_mk M N _) (bare_mk L M f _) (bare_mk M N g _) (@signed_mk L M _ _ _ Hx) (@signed_mk M N _ _ _ Hy) E) as ((p & Ep & B) & p' & Ep' & S).
    exists p, p'. split; auto. split; auto.
    assert (Rp : rect L N p) by (eapply Forall2_rect; [exact B|apply rect_mk]). assert (Rp' : rect L N p') by (eapply Forall2_rect; [exact S|apply rect_mk]). split; auto. split; auto.
    destruct (mk_ex fo Rp) as (u & ->), (mk_ex fo Rp') as (v & ->). intros i k Hi Hk. rewrite !mget_mk by auto.
    pose proof (proj1 (Forall2_mk _ _ _ _ _) B i k Hi Hk) as B1. pose proof (proj1 (Forall2_mk _ _ _ _ _) S i k Hi Hk) as S1. unfold bare in B1. cbn in B1. unfold signed in S1. cbn in S1. rewrite <- B1. exact S1.
  Qed.
  Theorem C115_matrix_vector : forall M N a b c x y x' y', 0 < N -> rect M N x -> length y = N -> rect M N x' -> length y' = N ->
    (forall i j, i < M -> j < N -> alike (mirror (xorb (a i) (b j)) (mget fo x i j)) (mget fo x' i j)) ->
    (forall j, j < N -> alike (mirror (xorb (b j) c) (vget fo y j)) (vget fo y' j)) ->
    exists p p', m_dot_v fo M N x y = Ok p /\ m_dot_v fo M N x' y' = Ok p' /\ length p = M /\ length p' = M /\
      forall i, i < M -> alike (mirror (xorb (a i) c) (vget fo p i)) (vget fo p' i).
  Proof.
    intros M N a b c x y x' y' HN Rx Ly Rx' Ly' Hx Hy. destruct (mk_ex fo Rx) as (f & ->), (vk_ex fo y Ly) as (g & ->), (mk_ex fo Rx') as (f' & ->), (vk_ex fo y' Ly') as (g' & ->).
    pose (h := fun i => (fd N (f i) g, Some (xorb (a i) c)) : Q).
    assert (E : m_dot_v so M N (mk M N (fun i j => (f i j, Some (xorb (a i) (b j))))) (vk N (fun j => (g j, Some (xorb (b j) c)))) = Ok (vk M h)).
    { unfold m_dot_v. rewrite v_indices_seq. cbn [bind]. rewrite <- vk_seq. apply v_map_vk. intros i Hi. rewrite m_row_mk by auto. cbn [bind]. apply dot_unit; auto.
      intros j _. destruct (a i), (b j), c; reflexivity. }
    destruct (@C115_signs_m_dot_v prec emax rem M N _ _ _ _ _ _ _ (rect_mk M N _) (vk_length N _) (bare_mk M N f _) (bare_vk N g _) (@signed_mk M N _ _ _ Hx) (@signed_vk N _ _ _ Hy) E) as ((p & Ep & B) & p' & Ep' & S).
    exists p, p'. split; auto. split; auto. pose proof (Forall2_length B) as L1. pose proof (Forall2_length S) as L2. rewrite vk_length in L1, L2. split; auto. split; auto.
    destruct (vk_ex fo p (eq_sym L1)) as (u & ->), (vk_ex fo p' (eq_sym L2)) as (v & ->). intros i Hi. rewrite !vget_vk by auto.
    pose proof (proj1 (Forall2_vk _ _ _ _) B i Hi) as B1. pose proof (proj1 (Forall2_vk _ _ _ _) S i Hi) as S1. unfold bare in B1. cbn in B1. unfold signed in S1. cbn in S1. rewrite <- B1. exact S1.
  Qed.

  Definition parity (a : nat -> bool) (l : list nat) : bool := fold_right (fun i s => xorb (a i) s) false l.
  Lemma parity_remove : forall a l k, k < length l -> parity a l = xorb (a (nth k l 0)) (parity a (remove_at k l)).
  Proof.
    intros a. induction l as [|h t IH]; intros [|k] H; cbn [length] in H; try lia; [reflexivity|]. cbn [nth remove_at].
    change (parity a (h :: t)) with (xorb (a h) (parity a t)). change (parity a (h :: remove_at k t)) with (xorb (a h) (parity a (remove_at k t))). rewrite (IH k) by lia.
    destruct (a h), (a (nth k t 0)), (parity a (remove_at k t)); reflexivity.
  Qed.
  Lemma fold_add : forall (body : nat -> res Q) t (l : list nat) acc,
    (forall k, In k l -> exists d, body k = Ok (d, Some t)) -> (snd acc = None \/ snd acc = Some t) -> (l = [] -> snd acc = Some t) ->
    exists d, fold_res (fun a k => let! p := body k in o_add so a p) acc l = Ok (d, Some t).
  Proof.
    intros body t. induction l as [|k l IH]; intros (x & g) H A N; cbn [fold_res].
    - cbn [snd] in N. rewrite (N eq_refl). eexists. reflexivity.
    - destruct (H k) as (d & E); [left; auto|]. rewrite E. cbn [bind]. cbn [snd] in A.
      assert (E' : exists z, o_add so (x, g) (d, Some t) = Ok (z, Some t)).
      { destruct A as [-> | ->]; cbn [o_add unit_ops fst snd common u_same sign_units]; [|rewrite Bool.eqb_reflx]; cbn; eexists; reflexivity. }
      destruct E' as (z & ->). cbn [bind]. apply IH; auto. intros. apply H. right. auto.
  Qed.
  Lemma rdet_unit : forall (q : list (list Q)) (a b : nat -> bool) rows cols,
    (forall i j, In i rows -> In j cols -> exists x, m_index q (i, j) = Ok (x, Some (xorb (a i) (b j)))) -> length rows = length cols ->
    exists d, rdet so q rows cols = Ok (d, Some (xorb (parity a rows) (parity b cols))).
  Proof.
    intros q a b. induction rows as [|i rows IH]; intros cols H L.
    - destruct cols; [|discriminate]. cbn. eexists. reflexivity.
    - cbn [rdet]. set (body := fun k => let! x := m_index q (i, nth k cols 0) in let! c := rdet so q rows (remove_at k cols) in let! c1 := rneg so k c in o_mul so x c1).
      destruct (@fold_add body (xorb (parity a (i :: rows)) (parity b cols)) (seq 0 (length cols)) (o_zero so)) as (d & E).
      + intros k Hk. apply in_seq in Hk. cbn [length] in L. unfold body. destruct (H i (nth k cols 0)) as (x & Ex); [left; auto|apply nth_In; lia|]. rewrite Ex. cbn [bind].
        destruct (IH (remove_at k cols)) as (c & Ec).
        { intros i' j' Hi Hj. apply H; [right; auto|]. eapply remove_at_in; eauto. }
        { rewrite remove_at_length by lia. lia. }
        rewrite Ec. cbn [bind]. assert (R : exists c', rneg so k (c, Some (xorb (parity a rows) (parity b (remove_at k cols)))) = Ok (c', Some (xorb (parity a rows) (parity b (remove_at k cols))))).
        { unfold rneg. destruct (_ =? _); [eexists; reflexivity|]. cbn. eexists. reflexivity. }
        destruct R as (c' & ->). cbn [bind]. cbn. eexists. f_equal. f_equal. f_equal. rewrite (@parity_remove b cols k) by lia. fold (parity a rows).
        destruct (a i), (b (nth k cols 0)), (parity a rows), (parity b (remove_at k cols)); reflexivity.
      + left. reflexivity.
      + intros C. destruct cols; [discriminate L|]. discriminate C.
      + exists d. rewrite <- E. apply fold_res_ext. intros acc k _. unfold body. rewrite !bind_assoc'. apply bind_ext. intros ? _. rewrite !bind_assoc'. apply bind_ext. intros ? _. rewrite !bind_assoc'. apply bind_ext. reflexivity.
  Qed.
  Lemma tagged_index : forall N (a b : nat -> bool) f i j, i < N -> j < N -> exists x : spec_float, m_index (mk N N (fun i j => (f i j, Some (xorb (a i) (b j))))) (i, j) = Ok (x, Some (xorb (a i) (b j))).
  Proof. intros. eexists. rewrite m_index_mk by auto. reflexivity. Qed.
  (** Changing the signs of some rows and columns changes the sign of det once for each of them. *)
  Theorem C115_det : forall N a b x x', rect N N x -> rect N N x' ->
    (forall i j, i < N -> j < N -> alike (mirror (xorb (a i) (b j)) (mget fo x i j)) (mget fo x' i j)) ->
    exists d d', m_det fo N x = Ok d /\ m_det fo N x' = Ok d' /\ alike (mirror (xorb (parity a (seq 0 N)) (parity b (seq 0 N))) d) d'.
  Proof.
    intros N a b x x' Rx Rx' H. destruct (mk_ex fo Rx) as (f & ->), (mk_ex fo Rx') as (f' & ->).
    destruct (@rdet_unit (mk N N (fun i j => (f i j, Some (xorb (a i) (b j))))) a b (seq 0 N) (seq 0 N)) as (d & E); auto.
    { intros i j Hi Hj. apply in_seq in Hi, Hj. apply tagged_index; lia. }
    rewrite <- m_det_spec in E.
    destruct (@C115_signs_m_det prec emax rem N _ _ _ _ (rect_mk N N _) (bare_mk N N f _) (@signed_mk N N _ _ _ H) E) as ((p & Ep & B) & p' & Ep' & S).
    exists p, p'. split; auto. split; auto. unfold bare in B. cbn in B. subst p. exact S.
  Qed.
  (** ... and the sign of element (i, j) of the inverse with the signs of column i and row j, unless det is zero. *)
  Theorem C115_inv : forall N a b x x' d, rect N N x -> rect N N x' ->
    (forall i j, i < N -> j < N -> alike (mirror (xorb (a i) (b j)) (mget fo x i j)) (mget fo x' i j)) ->
    m_det fo N x = Ok d -> zero_float d = false ->
    exists c c', m_inv fo N x = Ok c /\ m_inv fo N x' = Ok c' /\ rect N N c /\ rect N N c' /\
      forall i j, i < N -> j < N -> alike (mirror (xorb (a j) (b i)) (mget fo c i j)) (mget fo c' i j).
  Proof.
    intros N a b x x' d Rx Rx' H Ed Zd. destruct (mk_ex fo Rx) as (f & ->), (mk_ex fo Rx') as (f' & ->). set (q := mk N N (fun i j => (f i j, Some (xorb (a i) (b j))))).
    assert (Iq : forall i j, i < N -> j < N -> exists z, m_index q (i, j) = Ok (z, Some (xorb (a i) (b j)))) by (intros; apply tagged_index; auto).
    destruct (@rdet_unit q a b (seq 0 N) (seq 0 N)) as (D & ED); auto.
    { intros i j Hi Hj. apply in_seq in Hi, Hj. apply Iq; lia. }
    rewrite <- m_det_spec in ED.
    assert (ED' : D = d).
    { destruct (@C115_signs_m_det prec emax rem N _ _ _ _ (rect_mk N N _) (bare_mk N N f _) (@signed_mk N N _ _ _ H) ED) as ((p & Ep & B) & _). rewrite Ed in Ep. apply Ok_inj in Ep. subst p. unfold bare in B. cbn in B. auto. }
    subst D. set (t := xorb (parity a (seq 0 N)) (parity b (seq 0 N))) in *.
    assert (CF : forall i j, i < N -> j < N -> exists c, m_cofactor so N q i j = Ok (c, Some (xorb (xorb (a i) (b j)) t))).
    { intros i j Hi Hj. rewrite m_cofactor_spec by auto. destruct (@rdet_unit q a b (remove_at i (seq 0 N)) (remove_at j (seq 0 N))) as (c & Ec).
      { intros i' j' Hi' Hj'. apply remove_at_in, in_seq in Hi', Hj'. apply Iq; lia. }
      { rewrite !remove_at_length; rewrite ?seq_length; auto. }
      rewrite Ec. cbn [bind]. unfold t. rewrite (@parity_remove a (seq 0 N) i), (@parity_remove b (seq 0 N) j) by (rewrite seq_length; auto). rewrite !seq_nth by auto. cbn [Nat.add].
      replace (xorb (xorb (a i) (b j)) _) with (xorb (parity a (remove_at i (seq 0 N))) (parity b (remove_at j (seq 0 N)))).
      2:{ destruct (a i), (b j), (parity a (remove_at i (seq 0 N))), (parity b (remove_at j (seq 0 N))); reflexivity. }
      unfold rneg. destruct (_ =? _); [eexists; reflexivity|]. cbn. eexists. reflexivity. }
    pose (val := fun r : res Q => match r with Ok p => fst p | _ => S754_nan end).
    assert (E : m_inv so N q = Ok (mk N N (fun i j => (SFdiv prec emax (val (m_cofactor so N q j i)) d, Some (xorb (a j) (b i)))))).
    { unfold m_inv, m_adj. rewrite m_indices_mk. cbn [bind]. rewrite (@m_map_mk _ _ _ (fun i j => (val (m_cofactor so N q j i), Some (xorb (xorb (a j) (b i)) t)))).
      2:{ intros i j Hi Hj. destruct (CF j i Hj Hi) as (c & ->). reflexivity. }
      cbn [bind]. rewrite ED. cbn [bind]. unfold m_sdiv. apply m_map_mk. intros i j Hi Hj. cbn [o_div unit_ops fst snd]. rewrite is_zero_float, Zd. cbn. f_equal. f_equal. f_equal.
      destruct (a j), (b i), t; reflexivity. }
    destruct (@C115_signs_m_inv prec emax rem N _ _ _ _ (rect_mk N N _) (bare_mk N N f _) (@signed_mk N N _ _ _ H) E) as ((p & Ep & B) & p' & Ep' & S).
    exists p, p'. split; auto. split; auto.
    assert (Rp : rect N N p) by (eapply Forall2_rect; [exact B|apply rect_mk]). assert (Rp' : rect N N p') by (eapply Forall2_rect; [exact S|apply rect_mk]). split; auto. split; auto.
    destruct (mk_ex fo Rp) as (u & ->), (mk_ex fo Rp') as (v & ->). intros i k Hi Hk. rewrite !mget_mk by auto.
    pose proof (proj1 (Forall2_mk _ _ _ _ _) B i k Hi Hk) as B1. pose proof (proj1 (Forall2_mk _ _ _ _ _) S i k Hi Hk) as S1. unfold bare in B1. cbn in B1. unfold signed in S1. cbn in S1. rewrite <- B1. exact S1.
  Qed.

  (** ** Complex numbers and quaternions *)
  Local Notation tag := (fun (b : bool) (x : spec_float) => (x, Some b) : Q).
  Definition c_tag (s t : bool) (z : complex spec_float) : complex Q := Cx (tag s (re z)) (tag t (im z)).
  Definition c_flip (s t : bool) (z : complex spec_float) : complex spec_float := Cx (mirror s (re z)) (mirror t (im z)).
  Definition q_tag (r s t u : bool) (z : quat spec_float) : quat Q := Qt (tag r (qw z)) (tag s (qx z)) (tag t (qy z)) (tag u (qz z)).
  Definition q_flip (r s t u : bool) (z : quat spec_float) : quat spec_float := Qt (mirror r (qw z)) (mirror s (qx z)) (mirror t (qy z)) (mirror u (qz z)).
  Lemma c_tag_bare : forall s t z, c_bare (c_tag s t z) z.
  Proof. intros. split; reflexivity. Qed.
  Lemma c_tag_signed : forall s t z, c_signed (c_tag s t z) (c_flip s t z).
  Proof. intros. split; apply alike_refl. Qed.
  Lemma q_tag_bare : forall r s t u z, q_bare (q_tag r s t u z) z.
  Proof. intros. repeat split; reflexivity. Qed.
  Lemma q_tag_signed : forall r s t u z, q_signed (q_tag r s t u z) (q_flip r s t u z).
  Proof. intros. repeat split; apply alike_refl. Qed.
  (** If the signs of the imaginary parts (s), or of whole factors (a, b), change then so do those of the result. *)
  Theorem C115_complex_mul : forall a b s x y, exists p p',
    c_mul fo x y = Ok p /\ c_mul fo (c_flip a (xorb a s) x) (c_flip b (xorb b s) y) = Ok p' /\ c_alike (c_flip (xorb a b) (xorb (xorb a b) s) p) p'.
  Proof.
    intros a b s x y.
    assert (E : exists u v, c_mul so (c_tag a (xorb a s) x) (c_tag b (xorb b s) y) = Ok (c_tag (xorb a b) (xorb (xorb a b) s) (Cx u v))).
    { destruct a, b, s; do 2 eexists; reflexivity. }
    destruct E as (u & v & E).
    destruct (@C115_signs_c_mul prec emax rem _ _ _ _ _ _ _ (c_tag_bare _ _ _) (c_tag_bare _ _ _) (c_tag_signed _ _ _) (c_tag_signed _ _ _) E) as ((p & Ep & B) & p' & Ep' & S).
    exists p, p'. split; auto. split; auto. destruct p, B as (B1 & B2). unfold bare in B1, B2. cbn in B1, B2. subst. exact S.
  Qed.
  Lemma eqb_zero : forall x, SFeqb x (S754_zero false) = zero_float x.
  Proof. exact (is_zero_float prec emax rem). Qed.
  Theorem C115_complex_div : forall a b s x y n, c_norm_sqr fo y = Ok n -> zero_float n = false -> exists p p',
    c_div fo x y = Ok p /\ c_div fo (c_flip a (xorb a s) x) (c_flip b (xorb b s) y) = Ok p' /\ c_alike (c_flip (xorb a b) (xorb (xorb a b) s) p) p'.
  Proof.
    intros a b s [xr xi] [yr yi] n En Z. rewrite <- eqb_zero in Z. lazy -[SFadd SFmul SFeqb] in En. apply Ok_inj in En. subst n.
    assert (E : exists u v, c_div so (c_tag a (xorb a s) (Cx xr xi)) (c_tag b (xorb b s) (Cx yr yi)) = Ok (c_tag (xorb a b) (xorb (xorb a b) s) (Cx u v))).
    { destruct a, b, s; lazy -[SFadd SFsub SFmul SFdiv SFopp SFeqb]; rewrite Z; do 2 eexists; reflexivity. }
    destruct E as (u & v & E).
    destruct (@C115_signs_c_div prec emax rem _ _ _ _ _ _ _ (c_tag_bare _ _ _) (c_tag_bare _ _ _) (c_tag_signed _ _ _) (c_tag_signed _ _ _) E) as ((p & Ep & B) & p' & Ep' & S).
    exists p, p'. split; auto. split; auto. destruct p, B as (B1 & B2). unfold bare in B1, B2. cbn in B1, B2. subst. exact S.
  Qed.
  (** For quaternions: the signs of two of the three imaginary parts. *)
  Theorem C115_quaternion_mul : forall a b s t x y, exists p p',
    q_mul fo x y = Ok p /\ q_mul fo (q_flip a (xorb a s) (xorb a t) (xorb a (xorb s t)) x) (q_flip b (xorb b s) (xorb b t) (xorb b (xorb s t)) y) = Ok p' /\
    q_alike (q_flip (xorb a b) (xorb (xorb a b) s) (xorb (xorb a b) t) (xorb (xorb a b) (xorb s t)) p) p'.
  Proof.
    intros a b s t x y.
    assert (E : exists w u v z, q_mul so (q_tag a (xorb a s) (xorb a t) (xorb a (xorb s t)) x) (q_tag b (xorb b s) (xorb b t) (xorb b (xorb s t)) y) =
      Ok (q_tag (xorb a b) (xorb (xorb a b) s) (xorb (xorb a b) t) (xorb (xorb a b) (xorb s t)) (Qt w u v z))).
    { destruct a, b, s, t; do 4 eexists; reflexivity. }
    destruct E as (w & u & v & z & E).
    destruct (@C115_signs_q_mul prec emax rem _ _ _ _ _ _ _ (q_tag_bare _ _ _ _ _) (q_tag_bare _ _ _ _ _) (q_tag_signed _ _ _ _ _) (q_tag_signed _ _ _ _ _) E) as ((p & Ep & B) & p' & Ep' & S).
    exists p, p'. split; auto. split; auto. destruct p, B as (B1 & B2 & B3 & B4). unfold bare in B1, B2, B3, B4. cbn in B1, B2, B3, B4. subst. exact S.
  Qed.
  Theorem C115_quaternion_div : forall a b s t x y n, q_norm_sqr fo y = Ok n -> zero_float n = false -> exists p p',
    q_div fo x y = Ok p /\ q_div fo (q_flip a (xorb a s) (xorb a t) (xorb a (xorb s t)) x) (q_flip b (xorb b s) (xorb b t) (xorb b (xorb s t)) y) = Ok p' /\
    q_alike (q_flip (xorb a b) (xorb (xorb a b) s) (xorb (xorb a b) t) (xorb (xorb a b) (xorb s t)) p) p'.
  Proof.
    intros a b s t [xw xx xy xz] [yw yx yy yz] n En Z. rewrite <- eqb_zero in Z. lazy -[SFadd SFmul SFeqb] in En. apply Ok_inj in En. subst n.
    assert (E : exists w u v z, q_div so (q_tag a (xorb a s) (xorb a t) (xorb a (xorb s t)) (Qt xw xx xy xz)) (q_tag b (xorb b s) (xorb b t) (xorb b (xorb s t)) (Qt yw yx yy yz)) =
      Ok (q_tag (xorb a b) (xorb (xorb a b) s) (xorb (xorb a b) t) (xorb (xorb a b) (xorb s t)) (Qt w u v z))).
    { destruct a, b, s, t; lazy -[SFadd SFsub SFmul SFdiv SFopp SFeqb]; rewrite Z; do 4 eexists; reflexivity. }
    destruct E as (w & u & v & z & E).
    destruct (@C115_signs_q_div prec emax rem _ _ _ _ _ _ _ (q_tag_bare _ _ _ _ _) (q_tag_bare _ _ _ _ _) (q_tag_signed _ _ _ _ _) (q_tag_signed _ _ _ _ _) E) as ((p & Ep & B) & p' & Ep' & S).
    exists p, p'. split; auto. split; auto. destruct p, B as (B1 & B2 & B3 & B4). unfold bare in B1, B2, B3, B4. cbn in B1, B2, B3, B4. subst. exact S.
  Qed.
  (** A mirror image of plane, rotation and point: the mirror image of the result. *)
  Theorem C115_rotation2 : forall a b s r x y, exists p q p' q',
    rot2_apply fo r [x; y] = Ok [p; q] /\ rot2_apply fo (c_flip a (xorb a s) r) [mirror b x; mirror (xorb b s) y] = Ok [p'; q'] /\
    alike (mirror (xorb a b) p) p' /\ alike (mirror (xorb (xorb a b) s) q) q'.
  Proof.
    intros a b s r x y. destruct (@C115_complex_mul b a s (Cx x y) r) as ((p & q) & (p' & q') & E & E' & A1 & A2). exists p, q, p', q'.
    unfold rot2_apply. cbn [c_from_vector bind]. change (c_from_vector [x; y]) with (Ok (Cx x y)). change (c_from_vector [mirror b x; mirror (xorb b s) y]) with (Ok (Cx (mirror b x) (mirror (xorb b s) y))). cbn [bind].
    rewrite E. change (Cx (mirror b x) (mirror (xorb b s) y)) with (c_flip b (xorb b s) (Cx x y)). rewrite E'. cbn [bind]. split; [reflexivity|]. split; [reflexivity|].
    cbn in A1, A2. rewrite (Bool.xorb_comm a b). auto.
  Qed.
  (** A half turn of the coordinate frame (s, t), the opposite quaternion (a: the result is the same), the opposite point (b). *)
  Theorem C115_rotation3 : forall a b s t r x y z, exists p q u p' q' u',
    rot3_apply fo r [x; y; z] = Ok [p; q; u] /\
    rot3_apply fo (q_flip a (xorb a s) (xorb a t) (xorb a (xorb s t)) r) [mirror (xorb b s) x; mirror (xorb b t) y; mirror (xorb b (xorb s t)) z] = Ok [p'; q'; u'] /\
    alike (mirror (xorb b s) p) p' /\ alike (mirror (xorb b t) q) q' /\ alike (mirror (xorb b (xorb s t)) u) u'.
  Proof.
    intros a b s t r x y z.
    assert (E : exists p q u, rot3_apply so (q_tag a (xorb a s) (xorb a t) (xorb a (xorb s t)) r) [tag (xorb b s) x; tag (xorb b t) y; tag (xorb b (xorb s t)) z] =
      Ok [tag (xorb b s) p; tag (xorb b t) q; tag (xorb b (xorb s t)) u]).
    { destruct r as [rw rx ry rz], a, b, s, t; lazy -[SFadd SFsub SFmul SFdiv SFopp]; do 3 eexists; reflexivity. }
    destruct E as (p & q & u & E).
    set (l1 := [tag (xorb b s) x; tag (xorb b t) y; tag (xorb b (xorb s t)) z]) in E.
    assert (Bv : v_bare l1 [x; y; z]) by (repeat constructor).
    assert (Sv : v_signed l1 [mirror (xorb b s) x; mirror (xorb b t) y; mirror (xorb b (xorb s t)) z]).
    { apply Forall2_cons; [apply alike_refl|]. apply Forall2_cons; [apply alike_refl|]. apply Forall2_cons; [apply alike_refl|]. apply Forall2_nil. }
    destruct (@C115_signs_rot3_apply prec emax rem _ l1 _ _ _ _ _ eq_refl (q_tag_bare _ _ _ _ r) Bv (q_tag_signed _ _ _ _ r) Sv E) as ((l & El & B) & l' & El' & S).
    inversion B as [|? x1 ? ? B1 Br1]; subst. inversion Br1 as [|? x2 ? ? B2 Br2]; subst. inversion Br2 as [|? x3 ? ? B3 Br3]; subst. inversion Br3; subst.
    inversion S as [|? y1 ? ? S1 Sr1]; subst. inversion Sr1 as [|? y2 ? ? S2 Sr2]; subst. inversion Sr2 as [|? y3 ? ? S3 Sr3]; subst. inversion Sr3; subst.
    unfold bare in B1, B2, B3. cbn in B1, B2, B3. subst. exists x1, x2, x3, y1, y2, y3. split; auto.
  Qed.
  (** Signs of zeros can change: -(x + y) is not -x + -y when the sum is zero. *)
  Theorem C115_zero_refuted : exists x y : spec_float, SFopp (SFadd 53 1024 x y) <> SFadd 53 1024 (SFopp x) (SFopp y).
  Proof. exists f64_3, (SFopp f64_3). vm_compute. discriminate. Qed.
End Closed.

(* ------------------------------------------------------------------------- *)
(** * Examples                                                                  *)
Section Ex115.
  Local Notation o64 := (sf_ops 53 1024 (fun x _ => x)).
  (** det of [[3,5],[7,-2]] and of [[-3,5],[-7,-2]] (column 0 negated). *)
  Example C115_ex_det : exists d d', m_det o64 2 [[f64_3; f64_5]; [f64_7; f64_m2]] = Ok d /\
    m_det o64 2 [[SFopp f64_3; f64_5]; [SFopp f64_7; f64_m2]] = Ok d' /\ alike (SFopp d) d' /\ zero_float d = false.
  Proof.
    destruct (@C115_det 53 1024 (fun x _ => x) 2 (fun _ => false) (fun j => j =? 0) [[f64_3; f64_5]; [f64_7; f64_m2]] [[SFopp f64_3; f64_5]; [SFopp f64_7; f64_m2]]) as (d & d' & E & E' & S).
    - split; [reflexivity|repeat constructor].
    - split; [reflexivity|repeat constructor].
    - intros [|[|i]] [|[|j]] Hi Hj; try lia; apply alike_refl.
    - exists d, d'. split; auto. split; auto. split; auto. vm_compute in E. apply Ok_inj in E. subst d. reflexivity.
  Qed.
End Ex115.

Print Assumptions C115_signs_v_add.
Print Assumptions C115_signs_v_sub.
Print Assumptions C115_signs_v_mul.
Print Assumptions C115_signs_v_neg.
Print Assumptions C115_signs_v_smul.
Print Assumptions C115_signs_v_sum.
Print Assumptions C115_signs_v_dot.
Print Assumptions C115_signs_v_square_length.
Print Assumptions C115_signs_v_cross2.
Print Assumptions C115_signs_v_cross3.
Print Assumptions C115_signs_v_cross4.
Print Assumptions C115_signs_v_div.
Print Assumptions C115_signs_v_sdiv.
Print Assumptions C115_signs_m_add.
Print Assumptions C115_signs_m_sub.
Print Assumptions C115_signs_m_mul.
Print Assumptions C115_signs_m_neg.
Print Assumptions C115_signs_m_smul.
Print Assumptions C115_signs_m_sum.
Print Assumptions C115_signs_m_div.
Print Assumptions C115_signs_m_sdiv.
Print Assumptions C115_signs_m_dot.
Print Assumptions C115_signs_m_dot_v.
Print Assumptions C115_signs_v_dot_m.
Print Assumptions C115_signs_m_outer.
Print Assumptions C115_signs_m_det.
Print Assumptions C115_signs_m_cofactor.
Print Assumptions C115_signs_m_adj.
Print Assumptions C115_signs_m_inv.
Print Assumptions C115_signs_c_add.
Print Assumptions C115_signs_c_sub.
Print Assumptions C115_signs_c_mul.
Print Assumptions C115_signs_c_neg.
Print Assumptions C115_signs_c_conj.
Print Assumptions C115_signs_c_mul_s.
Print Assumptions C115_signs_c_norm_sqr.
Print Assumptions C115_signs_c_dot.
Print Assumptions C115_signs_c_inv.
Print Assumptions C115_signs_c_div.
Print Assumptions C115_signs_q_add.
Print Assumptions C115_signs_q_sub.
Print Assumptions C115_signs_q_mul.
Print Assumptions C115_signs_q_neg.
Print Assumptions C115_signs_q_conj.
Print Assumptions C115_signs_q_mul_s.
Print Assumptions C115_signs_q_mul_c.
Print Assumptions C115_signs_c_mul_q.
Print Assumptions C115_signs_q_norm_sqr.
Print Assumptions C115_signs_q_dot.
Print Assumptions C115_signs_q_inv.
Print Assumptions C115_signs_q_div.
Print Assumptions C115_signs_rot2_apply.
Print Assumptions C115_signs_rot3_apply.
Print Assumptions C115_signs_mo_apply_self.
Print Assumptions C115_length.
Print Assumptions C115_dot.
Print Assumptions C115_product.
Print Assumptions C115_matrix_vector.
Print Assumptions C115_det.
Print Assumptions C115_inv.
Print Assumptions C115_complex_mul.
Print Assumptions C115_complex_div.
Print Assumptions C115_quaternion_mul.
Print Assumptions C115_quaternion_div.
Print Assumptions C115_rotation2.
Print Assumptions C115_rotation3.
Print Assumptions C115_zero_refuted.
