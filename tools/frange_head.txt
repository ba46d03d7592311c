(** C110: range analysis of floating point computations.  (The list of theorems, one per operation of the API, was produced by
    tools/gen_frange.py; every statement is spelled out here.) *)
From Coq Require Import ZArith Reals Lra Lia Psatz SpecFloat Factorial.
From Flocq Require Import Core BinarySingleNaN.
From Verif Require Import SpecFacts VFacts MFacts MatProofs AlgFacts SquareModel SpecDet DetFacts SqProofs MoebiusModel TransformModel MathModel SpecMachine RealInst FloatInst SpecRound FlocqFacts PropFloat RelFacts PropRel PropOrder PropRound PropExact PropFNorm SpecFRange.
Set Implicit Arguments.
Local Open Scope list_scope.
Local Open Scope R_scope.

Section Fr.
  Context (prec emax : Z) (rem : spec_float -> spec_float -> spec_float) (Hp : (0 < prec)%Z) (He : (prec < emax)%Z).
  Local Notation fo := (sf_ops prec emax rem).
  Local Notation fexp := (SpecFloat.fexp prec emax).
  Local Notation rnd := (round radix2 fexp ZnearestE).
  Local Notation number := (number_of prec emax).
  Local Notation inr := (fin prec emax).
  Local Notation add := (SFadd prec emax).
  Local Notation sub := (SFsub prec emax).
  Local Notation mul := (SFmul prec emax).
  Local Notation div := (SFdiv prec emax).
  Local Instance vexp : Valid_exp fexp. Proof. apply (@fexp_correct prec emax Hp). Qed.

  Lemma rnd_le : forall x y, x <= y -> rnd x <= rnd y.
  Proof. intros. apply round_le; auto. apply vexp. apply valid_rnd_N. Qed.
  Lemma rnd_id : forall x, generic_format radix2 fexp x -> rnd x = x.
  Proof. intros. apply round_generic; auto. apply valid_rnd_N. Qed.
  Lemma number_lt : forall x, number x -> Rabs (value x) < bpow radix2 emax.
  Proof. intros x (V & F). destruct (lift _ _ _ V) as (a & <-). rewrite value_B. apply abs_B2R_lt_emax. Qed.
  (* an operation whose rounded result is not too large returns it *)
  Lemma add_in : forall x y, number x -> number y -> Rabs (rnd (value x + value y)) < bpow radix2 emax -> number (add x y) /\ value (add x y) = rnd (value x + value y).
  Proof.
    intros x y (V1 & F1) (V2 & F2) S. assert (V : valid_binary prec emax (add x y) = true) by (apply add_valid; auto). revert V.
    destruct (lift _ _ _ V1) as (a & <-), (lift _ _ _ V2) as (b & <-). rewrite (@add_B prec emax Hp He). unfold number_of. rewrite !finite_B, !value_B in *.
    pose proof (Bplus_correct prec emax Hp He mode_NE a b F1 F2) as H. cbn [round_mode] in H. rewrite Rlt_bool_true in H by exact S. tauto.
  Qed.
  Lemma sub_in : forall x y, number x -> number y -> Rabs (rnd (value x - value y)) < bpow radix2 emax -> number (sub x y) /\ value (sub x y) = rnd (value x - value y).
  Proof.
    intros x y (V1 & F1) (V2 & F2) S. assert (V : valid_binary prec emax (sub x y) = true) by (apply sub_valid; auto). revert V.
    destruct (lift _ _ _ V1) as (a & <-), (lift _ _ _ V2) as (b & <-). rewrite (@sub_B prec emax Hp He). unfold number_of. rewrite !finite_B, !value_B in *.
    pose proof (Bminus_correct prec emax Hp He mode_NE a b F1 F2) as H. cbn [round_mode] in H. rewrite Rlt_bool_true in H by exact S. tauto.
  Qed.
  Lemma mul_in : forall x y, number x -> number y -> Rabs (rnd (value x * value y)) < bpow radix2 emax -> number (mul x y) /\ value (mul x y) = rnd (value x * value y).
  Proof.
    intros x y (V1 & F1) (V2 & F2) S. assert (V : valid_binary prec emax (mul x y) = true) by (apply mul_valid; auto). revert V.
    destruct (lift _ _ _ V1) as (a & <-), (lift _ _ _ V2) as (b & <-). rewrite (@mul_B prec emax Hp He). unfold number_of. rewrite !finite_B, !value_B in *.
    pose proof (Bmult_correct prec emax Hp He mode_NE a b) as H. cbn [round_mode] in H. rewrite Rlt_bool_true in H by exact S. destruct H as (A & B & _). rewrite B, F1, F2. auto.
  Qed.
  Lemma div_in : forall x y, number x -> number y -> value y <> 0 -> Rabs (rnd (value x / value y)) < bpow radix2 emax -> number (div x y) /\ value (div x y) = rnd (value x / value y).
  Proof.
    intros x y (V1 & F1) (V2 & F2) Ny S. assert (V : valid_binary prec emax (div x y) = true) by (apply div_valid; auto). revert V.
    destruct (lift _ _ _ V1) as (a & <-), (lift _ _ _ V2) as (b & <-). rewrite (@div_B prec emax Hp He). unfold number_of. rewrite !finite_B, !value_B in *.
    pose proof (Bdiv_correct prec emax Hp He mode_NE a b Ny) as H. cbn [round_mode] in H. rewrite Rlt_bool_true in H by exact S. destruct H as (A & B & _). rewrite B, F1. auto.
  Qed.
  Lemma sandwich : forall l h t, number l -> number h -> value l <= t <= value h -> Rabs t < bpow radix2 emax.
  Proof. intros l h t L H B. pose proof (number_lt L) as A1. pose proof (number_lt H) as A2. apply Rabs_def2 in A1, A2. apply Rabs_def1; lra. Qed.
  Lemma least_value : forall x y, number x -> number y -> number (f_least x y) /\ value (f_least x y) = Rmin (value x) (value y).
  Proof.
    intros x y Nx Ny. unfold f_least. pose proof (proj1 (@C80_compare prec emax rem y x Ny Nx)) as C. cbn [o_lt sf_ops] in C.
    destruct (SFltb y x) eqn:E. { split; auto. rewrite Rmin_right; auto. left. apply C. auto. }
    split; auto. rewrite Rmin_left; auto. destruct (Rle_lt_dec (value x) (value y)) as [|L]; auto. apply C in L. discriminate.
  Qed.
  Lemma most_value : forall x y, number x -> number y -> number (f_most x y) /\ value (f_most x y) = Rmax (value x) (value y).
  Proof.
    intros x y Nx Ny. unfold f_most. pose proof (proj1 (@C80_compare prec emax rem x y Nx Ny)) as C. cbn [o_lt sf_ops] in C.
    destruct (SFltb x y) eqn:E. { split; auto. rewrite Rmax_right; auto. left. apply C. auto. }
    split; auto. rewrite Rmax_left; auto. destruct (Rle_lt_dec (value y) (value x)) as [|L]; auto. apply C in L. discriminate.
  Qed.
  Definition rmin4 a b c d := Rmin (Rmin a b) (Rmin c d).
  Definition rmax4 a b c d := Rmax (Rmax a b) (Rmax c d).
  Lemma rnd_min : forall a b, rnd (Rmin a b) = Rmin (rnd a) (rnd b).
  Proof.
    intros a b. destruct (Rle_lt_dec a b) as [L|L].
    - rewrite !Rmin_left; auto. apply rnd_le; auto.
    - rewrite !Rmin_right; auto; try lra. apply rnd_le; lra.
  Qed.
  Lemma rnd_max : forall a b, rnd (Rmax a b) = Rmax (rnd a) (rnd b).
  Proof.
    intros a b. destruct (Rle_lt_dec a b) as [L|L].
    - rewrite !Rmax_right; auto. apply rnd_le; auto.
    - rewrite !Rmax_left; auto; try lra. apply rnd_le; lra.
  Qed.
  (* one operation f with exact counterpart g, at the corners *)
  Lemma corners_sound : forall f g (P : R -> Prop) u v x y,
    (forall x y, number x -> number y -> P (value y) -> Rabs (rnd (g (value x) (value y))) < bpow radix2 emax -> number (f x y) /\ value (f x y) = rnd (g (value x) (value y))) ->
    (forall x y, number x -> number y -> P (value y) -> finite (f x y) = true -> number (f x y) /\ value (f x y) = rnd (g (value x) (value y))) ->
    P (value (fst v)) -> P (value (snd v)) -> P (value y) -> inr u x -> inr v y ->
    rmin4 (g (value (fst u)) (value (fst v))) (g (value (fst u)) (value (snd v))) (g (value (snd u)) (value (fst v))) (g (value (snd u)) (value (snd v))) <= g (value x) (value y) <=
    rmax4 (g (value (fst u)) (value (fst v))) (g (value (fst u)) (value (snd v))) (g (value (snd u)) (value (fst v))) (g (value (snd u)) (value (snd v))) ->
    rrel false inr (f_corners f u v) (Ok (f x y)).
  Proof.
    intros f g P [a b] [c d] x y H1 H2 Pc Pd Py (Na & Nb & Nx & Hx) (Nc & Nd & Ny & Hy) G. cbn [fst snd] in *. unfold f_corners. cbn [fst snd].
    destruct (_ && _)%bool eqn:E; [|cbn; auto]. apply andb_prop in E as (E & E4). apply andb_prop in E as (E & E3). apply andb_prop in E as (E1 & E2).
    destruct (H2 _ _ Na Nc Pc E1) as (N1 & V1). destruct (H2 _ _ Na Nd Pd E2) as (N2 & V2). destruct (H2 _ _ Nb Nc Pc E3) as (N3 & V3). destruct (H2 _ _ Nb Nd Pd E4) as (N4 & V4).
    destruct (least_value N1 N2) as (M1 & W1). destruct (least_value N3 N4) as (M2 & W2). destruct (least_value M1 M2) as (M & W).
    destruct (most_value N1 N2) as (M1' & W1'). destruct (most_value N3 N4) as (M2' & W2'). destruct (most_value M1' M2') as (M' & W').
    unfold rmin4, rmax4 in G. destruct G as (G1 & G2). apply rnd_le in G1, G2. rewrite !rnd_min in G1. rewrite !rnd_max in G2.
    rewrite W1, W2, V1, V2, V3, V4 in W. rewrite W1', W2', V1, V2, V3, V4 in W'.
    assert (B : value (f_least (f_least (f a c) (f a d)) (f_least (f b c) (f b d))) <= rnd (g (value x) (value y)) <= value (f_most (f_most (f a c) (f a d)) (f_most (f b c) (f b d)))).
    { rewrite W, W'. split; assumption. }
    destruct (H1 x y Nx Ny Py (sandwich M M' B)) as (N & V). split; [exact M|]. split; [exact M'|]. split; [exact N|]. cbn [fst snd]. rewrite V. exact B.
  Qed.
  Lemma clip_sound : forall l h x t, (finite l = true -> number l /\ value l <= rnd t) -> (finite h = true -> number h /\ rnd t <= value h) ->
    (Rabs (rnd t) < bpow radix2 emax -> number x /\ value x = rnd t) -> rrel false inr (f_clip l h) (Ok x).
  Proof.
    intros l h x t Hl Hh Hx. unfold f_clip. destruct (_ && _)%bool eqn:E; [|cbn; auto]. apply andb_prop in E as (E1 & E2).
    destruct (Hl E1) as (L & L1). destruct (Hh E2) as (H & H1). destruct (Hx (@sandwich l h _ L H (conj L1 H1))) as (N & V).
    split; [exact L|]. split; [exact H|]. split; [exact N|]. cbn [fst snd]. rewrite V. auto.
  Qed.
  Lemma mul_mid : forall a b x y, a <= x <= b -> Rmin (a * y) (b * y) <= x * y <= Rmax (a * y) (b * y).
  Proof.
    intros a b x y H. pose proof (Rmin_l (a * y) (b * y)). pose proof (Rmin_r (a * y) (b * y)). pose proof (Rmax_l (a * y) (b * y)). pose proof (Rmax_r (a * y) (b * y)).
    destruct (Rle_lt_dec 0 y) as [P|P].
    - assert (a * y <= x * y <= b * y) by (split; apply Rmult_le_compat_r; lra). lra.
    - assert (b * y <= x * y <= a * y) by (split; nra). lra.
  Qed.
  Lemma corner_mul : forall a b c d x y, a <= x <= b -> c <= y <= d ->
    rmin4 (a * c) (a * d) (b * c) (b * d) <= x * y <= rmax4 (a * c) (a * d) (b * c) (b * d).
  Proof.
    intros a b c d x y H1 H2. unfold rmin4, rmax4.
    pose proof (@mul_mid a b x y H1) as K1. pose proof (@mul_mid c d y a H2) as K2. pose proof (@mul_mid c d y b H2) as K3.
    rewrite !(Rmult_comm _ a) in K2. rewrite !(Rmult_comm _ b) in K3.
    destruct K1 as (K1 & K1'), K2 as (K2 & K2'), K3 as (K3 & K3'). split.
    - eapply Rle_trans; [|exact K1]. apply Rmin_glb; (eapply Rle_trans; [|eassumption]); [apply Rmin_l|apply Rmin_r].
    - eapply Rle_trans; [exact K1'|]. apply Rmax_lub; (eapply Rle_trans; [eassumption|]); [apply Rmax_l|apply Rmax_r].
  Qed.
  Lemma corner_div : forall a b c d x y, a <= x <= b -> c <= y <= d -> (0 < c \/ d < 0) ->
    rmin4 (a / c) (a / d) (b / c) (b / d) <= x / y <= rmax4 (a / c) (a / d) (b / c) (b / d).
  Proof.
    intros a b c d x y H1 H2 N. assert (I : / d <= / y <= / c).
    { destruct N as [N|N]. { split; apply Rinv_le_contravar; lra. }
      split; apply Ropp_le_cancel; rewrite <- !Rinv_opp; apply Rinv_le_contravar; lra. }
    pose proof (@corner_mul a b (/ d) (/ c) x (/ y) H1 I) as K. unfold rmin4, rmax4 in *.
    rewrite (Rmin_comm (a * / d)), (Rmin_comm (b * / d)), (Rmax_comm (a * / d)), (Rmax_comm (b * / d)) in K. exact K.
  Qed.
  Lemma frange_rel : OpsRel false inr (frange_ops prec emax) fo.
  Proof.
    constructor; cbn [o_zero o_one o_add o_sub o_mul o_neg frange_ops sf_ops ok1 ok2].
    - repeat split; auto; cbn; lra.
    - destruct (one_den Hp He) as (V & F & E). repeat split; auto; cbn; lra.
    - intros [a b] x [c d] y (Na & Nb & Nx & Hx) (Nc & Nd & Ny & Hy). cbn [fst snd] in *. apply clip_sound with (t := value x + value y).
      + intros F. destruct Na, Nc. rewrite (@add_round prec emax Hp He a c) by auto. split; [split; auto; apply add_valid; auto|]. apply rnd_le. lra.
      + intros F. destruct Nb, Nd. rewrite (@add_round prec emax Hp He b d) by auto. split; [split; auto; apply add_valid; auto|]. apply rnd_le. lra.
      + apply add_in; auto.
    - intros [a b] x [c d] y (Na & Nb & Nx & Hx) (Nc & Nd & Ny & Hy). cbn [fst snd] in *. apply clip_sound with (t := value x - value y).
      + intros F. destruct Na, Nd. rewrite (@sub_round prec emax Hp He a d) by auto. split; [split; auto; apply sub_valid; auto|]. apply rnd_le. lra.
      + intros F. destruct Nb, Nc. rewrite (@sub_round prec emax Hp He b c) by auto. split; [split; auto; apply sub_valid; auto|]. apply rnd_le. lra.
      + apply sub_in; auto.
    - intros u x v y Hu Hv. apply corners_sound with (g := Rmult) (P := fun _ => True); auto.
      + intros. apply mul_in; auto.
      + intros a b (Va & Fa) (Vb & Fb) _ F. rewrite (@mul_round prec emax Hp He a b) by auto. split; auto. split; auto. apply mul_valid; auto.
      + apply corner_mul; [apply Hu|apply Hv].
    - intros [a b] x ((Va & Fa) & (Vb & Fb) & (Vx & Fx) & H). cbn [fst snd] in *. change (fin prec emax (SFopp b, SFopp a) (SFopp x)). unfold fin, number_of. cbn [fst snd].
      destruct (opp_value a) as (A1 & A2), (opp_value b) as (B1 & B2), (opp_value x) as (X1 & X2). rewrite A1, A2, B1, B2, X1, X2.
      repeat split; auto; try (apply opp_valid; auto); lra.
  Qed.
  Lemma frange_divrel : DivRel false inr (frange_ops prec emax) fo.
  Proof.
    intros u x v y Hu Hv. cbn [o_div frange_ops sf_ops ok2]. destruct (_ || _)%bool eqn:E; [|cbn; auto].
    assert (N0 : number (S754_zero false)) by (split; auto).
    assert (N : 0 < value (fst v) \/ value (snd v) < 0).
    { destruct Hv as (Nc & Nd & _). apply Bool.orb_true_iff in E as [E|E]; [left|right].
      - apply (proj1 (@C80_compare prec emax rem _ _ N0 Nc)). exact E.
      - apply (proj1 (@C80_compare prec emax rem _ _ Nd N0)). exact E. }
    pose proof Hv as (_ & _ & _ & Hy). apply corners_sound with (g := Rdiv) (P := fun y => y <> 0); auto; try lra.
    - intros. apply div_in; auto.
    - intros a b (Va & Fa) (Vb & Fb) Nz F. rewrite (@div_round prec emax Hp He a b) by auto. split; auto. split; auto. apply div_valid; auto.
    - apply corner_div; auto. apply Hu.
  Qed.
End Fr.
