(** C115: changes of signs in floating point.  (The list of theorems, one per operation of the API, was produced by
    tools/gen_sign.py; every statement is spelled out here.) *)
From Coq Require Import ZArith Lia SpecFloat List.
From Verif Require Import SpecFacts VFacts MFacts MatProofs AlgFacts SquareModel SpecDet DetFacts SqProofs MoebiusModel TransformModel MathModel FloatInst RelFacts PropRel PropRound PropExact SpecScale PropScale SpecSign.
Import ListNotations.
Set Implicit Arguments.
Local Open Scope list_scope.

Section Sg.
  Context (prec emax : Z) (rem : spec_float -> spec_float -> spec_float).
  Local Notation fo := (sf_ops prec emax rem).
  Local Notation add := (SFadd prec emax).
  Local Notation sub := (SFsub prec emax).
  Local Notation mul := (SFmul prec emax).
  Local Notation div := (SFdiv prec emax).
  Local Notation aux := (binary_round_aux prec emax).

  Lemma alike_refl : forall x, alike x x.
  Proof. left. reflexivity. Qed.
  Lemma alike_sym : forall x y, alike x y -> alike y x.
  Proof. intros x y [H|(H & H')]; [left|right]; auto. Qed.
  Lemma alike_trans : forall x y z, alike x y -> alike y z -> alike x z.
  Proof. intros x y z [->|(H & H')]; auto. intros [<-|(K & K')]; right; auto. Qed.
  Lemma opp_opp : forall x, SFopp (SFopp x) = x.
  Proof. intros []; cbn; rewrite ?Bool.negb_involutive; reflexivity. Qed.
  Lemma zero_opp : forall x, zero_float (SFopp x) = zero_float x.
  Proof. intros []; reflexivity. Qed.
  Lemma zero_mirror : forall b x, zero_float (mirror b x) = zero_float x.
  Proof. intros [] x; [apply zero_opp|reflexivity]. Qed.
  Lemma mirror_mirror : forall a b x, mirror a (mirror b x) = mirror (xorb a b) x.
  Proof. intros [] [] x; cbn; rewrite ?opp_opp; reflexivity. Qed.
  Lemma mirror_alike : forall b x y, alike x y -> alike (mirror b x) (mirror b y).
  Proof. intros b x y [->|(H & H')]; [apply alike_refl|right]. rewrite !zero_mirror. auto. Qed.

  Lemma aux_opp : forall s m e l, SFopp (aux s m e l) = aux (negb s) m e l.
  Proof.
    intros. unfold binary_round_aux. destruct (shr_fexp _ _ _ _ _) as (a & b). destruct (shr_fexp _ _ _ _ _) as (c & d). destruct (shr_m c); cbn; auto. destruct (_ <=? _)%Z; reflexivity.
  Qed.
  Lemma normalize_opp : forall m e s s', alike (SFopp (binary_normalize prec emax m e s)) (binary_normalize prec emax (- m) e s').
  Proof.
    intros [|m|m] e s s'; unfold binary_normalize; cbn [Z.opp].
    - right. auto.
    - left. unfold binary_round. destruct (shl_align _ _ _). apply aux_opp.
    - left. unfold binary_round. destruct (shl_align _ _ _). apply aux_opp.
  Qed.
  Lemma add_opp : forall x y, alike (SFopp (add x y)) (add (SFopp x) (SFopp y)).
  Proof.
    intros [s|s| |s m e] [s'|s'| |s' m' e']; try (destruct s; destruct s'; cbn; left; reflexivity); try (right; destruct s, s'; reflexivity); try (left; reflexivity);
      try (destruct s; cbn; left; reflexivity).
    - right. destruct s, s'; cbn; auto.
    - cbn [SFopp SFadd]. rewrite !cond_Zopp_negb. eapply alike_trans; [apply normalize_opp with (s' := false)|]. left. f_equal. lia.
  Qed.
  Lemma add_alike : forall x x' y y', alike x x' -> alike y y' -> alike (add x y) (add x' y').
  Proof.
    intros x x' y y' [<-|(Hx & Hx')] [<-|(Hy & Hy')].
    - left. reflexivity.
    - destruct y as [s| | | ], y' as [s'| | | ]; try discriminate. destruct x as [[]|[]| | ]; try (left; reflexivity); right; destruct s, s'; auto.
    - destruct x as [s| | | ], x' as [s'| | | ]; try discriminate. destruct y as [[]|[]| | ]; try (left; reflexivity); right; destruct s, s'; auto.
    - destruct x as [s| | | ], x' as [s'| | | ]; try discriminate. destruct y as [t| | | ], y' as [t'| | | ]; try discriminate. right. destruct s, s', t, t'; auto.
  Qed.
  Lemma add_mirror : forall b x y, alike (mirror b (add x y)) (add (mirror b x) (mirror b y)).
  Proof. intros [] x y; [apply add_opp|apply alike_refl]. Qed.
  Lemma sub_add : forall x y, sub x y = add x (SFopp y).
  Proof.
    intros [s|s| |s m e] [s'|s'| |s' m' e']; try reflexivity; try (destruct s, s'; reflexivity).
  Qed.
  Lemma mul_mirror : forall a b x y, mul (mirror a x) (mirror b y) = mirror (xorb a b) (mul x y).
  Proof.
    assert (L : forall x y, mul (SFopp x) y = SFopp (mul x y)).
    { intros [s|s| |s m e] [s'|s'| |s' m' e']; try reflexivity; try (destruct s, s'; reflexivity). cbn [SFopp SFmul]. rewrite aux_opp. destruct s, s'; reflexivity. }
    assert (R : forall x y, mul x (SFopp y) = SFopp (mul x y)).
    { intros x y. rewrite SFmul_comm, L, SFmul_comm. reflexivity. }
    intros [] [] x y; cbn [mirror xorb negb]; rewrite ?L, ?R, ?opp_opp; reflexivity.
  Qed.
  Lemma mul_zero : forall x y, zero_float x = true -> zero_float (mul x y) = true \/ mul x y = S754_nan.
  Proof. intros [s| | | ] [s'|s'| |s' m' e'] H; try discriminate; cbn; auto. Qed.
  Lemma mul_alike : forall x x' y y', alike x x' -> alike y y' -> alike (mul x y) (mul x' y').
  Proof.
    assert (L : forall x x' y, alike x x' -> alike (mul x y) (mul x' y)).
    { intros x x' y [<-|(Hx & Hx')]; [left; reflexivity|]. destruct x as [s| | | ], x' as [s'| | | ]; try discriminate. destruct y as [t|t| |t m e]; cbn; auto using alike_refl; right; auto. }
    intros x x' y y' H H'. eapply alike_trans; [apply L; exact H|]. rewrite (SFmul_comm _ _ x' y), (SFmul_comm _ _ x' y'). apply L. auto.
  Qed.
  Lemma div_mirror : forall a b x y, div (mirror a x) (mirror b y) = mirror (xorb a b) (div x y).
  Proof.
    assert (L : forall x y, div (SFopp x) y = SFopp (div x y)).
    { intros [s|s| |s m e] [s'|s'| |s' m' e']; try reflexivity; try (destruct s, s'; reflexivity). cbn [SFopp SFdiv]. destruct (SFdiv_core_binary _ _ _ _ _ _) as ((? & ?) & ?). rewrite aux_opp. destruct s, s'; reflexivity. }
    assert (R : forall x y, div x (SFopp y) = SFopp (div x y)).
    { intros [s|s| |s m e] [s'|s'| |s' m' e']; try reflexivity; try (destruct s, s'; reflexivity). cbn [SFopp SFdiv]. destruct (SFdiv_core_binary _ _ _ _ _ _) as ((? & ?) & ?). rewrite aux_opp. destruct s, s'; reflexivity. }
    intros [] [] x y; cbn [mirror xorb negb]; rewrite ?L, ?R, ?opp_opp; reflexivity.
  Qed.
  Lemma div_alike : forall x x' y, alike x x' -> zero_float y = false -> alike (div x y) (div x' y).
  Proof.
    intros x x' y [<-|(Hx & Hx')] H; [left; reflexivity|]. destruct x as [s| | | ], x' as [s'| | | ]; try discriminate. destruct y as [t|t| |t m e]; try discriminate; cbn; auto using alike_refl; right; auto.
  Qed.
  Lemma is_zero_float : forall x, o_is_zero fo x = zero_float x.
  Proof. intros [[]|[]| |[] m e]; reflexivity. Qed.

  (** Adding what is left of a zero. *)
  Definition nought (x y : spec_float) : Prop := (zero_float x = true /\ zero_float y = true) \/ (x = S754_nan /\ y = S754_nan).
  Lemma add_nought : forall x x' y y' b, nought x x' -> alike (mirror b y) y' -> alike (mirror b (add x y)) (add x' y').
  Proof.
    intros x x' y y' b [(Z & Z')|(-> & ->)] H.
    - eapply alike_trans; [apply add_mirror|]. apply add_alike; auto. right. rewrite zero_mirror. auto.
    - left. destruct b; cbn; destruct y; cbn; destruct y'; reflexivity.
  Qed.
  Lemma add_noughts : forall x x' y y', nought x x' -> nought y y' -> nought (add x y) (add x' y').
  Proof.
    intros x x' y y' [(Z & Z')|(-> & ->)] [(Y & Y')|(-> & ->)].
    - left. destruct x as [s| | | ], x' as [s'| | | ]; try discriminate. destruct y as [t| | | ], y' as [t'| | | ]; try discriminate. destruct s, s', t, t'; auto.
    - right. destruct x, x'; try discriminate; auto.
    - right. destruct y, y'; try discriminate; auto.
    - right. auto.
  Qed.
  Lemma nought_opp : forall x x', nought x x' -> nought (SFopp x) (SFopp x').
  Proof. intros x x' [(Z & Z')|(-> & ->)]; [left; rewrite !zero_opp; auto|right; auto]. Qed.
  Lemma mul_nought : forall x x' y y' b, nought x x' -> alike (mirror b y) y' -> nought (mul x y) (mul x' y').
  Proof.
    intros x x' y y' b [(Z & Z')|(-> & ->)] H.
    - destruct x as [s| | | ], x' as [s'| | | ]; try discriminate. destruct H as [<-|(H & H')].
      + destruct b, y; cbn; unfold nought; cbn; auto.
      + rewrite zero_mirror in H. destruct y, y'; try discriminate. left. auto.
    - right. destruct y, y'; auto.
  Qed.
  Lemma mul_noughts : forall x x' y y', nought x x' -> nought y y' -> nought (mul x y) (mul x' y').
  Proof.
    intros x x' y y' H [H'|(-> & ->)].
    - apply (@mul_nought x x' y y' false); auto. right. auto.
    - right. destruct H as [(Z & Z')|(-> & ->)]; auto. destruct x, x'; try discriminate; auto.
  Qed.
  Lemma div_nought : forall x x' y b, nought x x' -> zero_float y = false -> nought (div x y) (div x' (mirror b y)).
  Proof.
    intros x x' y b [(Z & Z')|(-> & ->)] H.
    - destruct x as [s| | | ], x' as [s'| | | ]; try discriminate. destruct y; try discriminate; destruct b; cbn; unfold nought; cbn; auto.
    - right. destruct b, y; auto.
  Qed.

  Lemma common_sg : forall a b g x y x' y', common sign_units a b = Ok g -> signed (x, a) x' -> signed (y, b) y' -> signed (add x y, g) (add x' y').
  Proof.
    intros [a|] [b|] g x y x' y' E; cbn in E.
    - destruct (Bool.eqb a b) eqn:S; [|discriminate]. apply Ok_inj in E. subst g. apply Bool.eqb_prop in S. subst b. unfold signed. cbn. intros H H'.
      eapply alike_trans; [apply add_mirror|]. apply add_alike; auto.
    - apply Ok_inj in E. subst g. unfold signed. cbn. intros H H'. rewrite (SFadd_comm _ _ x y), (SFadd_comm _ _ x' y'). apply add_nought; auto.
    - apply Ok_inj in E. subst g. unfold signed. cbn. intros H H'. apply add_nought; auto.
    - apply Ok_inj in E. subst g. unfold signed. cbn. apply add_noughts.
  Qed.
  Lemma signed_opp : forall a y y', signed (y, a) y' -> signed (SFopp y, a) (SFopp y').
  Proof.
    intros [b|] y y'; unfold signed; cbn.
    - intros H. replace (mirror b (SFopp y)) with (mirror true (mirror b y)) by (destruct b; reflexivity). apply (mirror_alike true). auto.
    - apply nought_opp.
  Qed.
  Lemma sign_rel : OpsRel false signed (unit_ops fo sign_units) fo.
  Proof.
    constructor.
    - unfold signed. cbn. left. auto.
    - unfold signed. cbn. apply alike_refl.
    - intros [x a] x' [y b] y' H1 H2. cbn [o_add unit_ops fst snd]. destruct (common sign_units a b) as [g| | |] eqn:E; cbn; auto. apply (@common_sg a b g x y _ _ E H1 H2).
    - intros [x a] x' [y b] y' H1 H2. cbn [o_sub unit_ops fst snd]. destruct (common sign_units a b) as [g| | |] eqn:E; cbn; auto. rewrite !sub_add. apply (@common_sg a b g); auto. apply signed_opp. auto.
    - intros [x a] x' [y b] y' H1 H2. cbn. destruct a as [a|], b as [b|]; unfold signed in *; cbn in *.
      + rewrite <- mul_mirror. apply mul_alike; auto.
      + rewrite (SFmul_comm _ _ x y), (SFmul_comm _ _ x' y'). eapply mul_nought; eauto.
      + eapply mul_nought; eauto.
      + apply mul_noughts; auto.
    - intros [x a] x' H. cbn. apply signed_opp. auto.
  Qed.
  Lemma sign_divrel : DivRel false signed (unit_ops fo sign_units) fo.
  Proof.
    intros [x a] x' [y b] y' H1 H2. cbn [o_div unit_ops fst snd]. destruct b as [h|]; [|cbn; auto]. rewrite is_zero_float. destruct (zero_float y) eqn:Z; [cbn; auto|]. cbn.
    unfold signed in H2. cbn in H2. destruct H2 as [<-|(Q & _)]; [|rewrite zero_mirror in Q; congruence].
    destruct a as [a|]; unfold signed in *; cbn in *.
    - rewrite <- div_mirror. apply div_alike; auto. rewrite zero_mirror. auto.
    - apply div_nought; auto.
  Qed.
End Sg.

