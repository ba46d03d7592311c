(** C110: range analysis of floating point computations.  (The list of theorems, one per operation of the API, was produced by
    tools/gen_frange.py; every statement is spelled out here.) *)
From Coq Require Import ZArith Reals Lra Lia Psatz SpecFloat Factorial.
From Flocq Require Import Core BinarySingleNaN.
From Verif Require Import SpecFacts VFacts MFacts MatProofs AlgFacts SquareModel SpecDet DetFacts SqProofs MoebiusModel TransformModel MathModel SpecMachine RealInst FloatInst SpecRound FlocqFacts PropFloat RelFacts PropRel PropOrder PropRound PropExact PropFNorm SpecFRange.
Set Implicit Arguments.
Local Open Scope list_scope.
Local Open Scope R_scope.

Section Fr.
  Context (prec emax : Z) (rem : spec_float -> spec_float -> spec_float) (Hp : (0 < prec)%Z) (He : (prec < emax)%Z).
  Local Notation fo := (sf_ops prec emax rem).
  Local Notation fexp := (SpecFloat.fexp prec emax).
  Local Notation rnd := (round radix2 fexp ZnearestE).
  Local Notation number := (number_of prec emax).
  Local Notation inr := (fin prec emax).
  Local Notation add := (SFadd prec emax).
  Local Notation sub := (SFsub prec emax).
  Local Notation mul := (SFmul prec emax).
  Local Notation div := (SFdiv prec emax).
  Local Instance vexp : Valid_exp fexp. Proof. apply (@fexp_correct prec emax Hp). Qed.

  Lemma rnd_le : forall x y, x <= y -> rnd x <= rnd y.
  Proof. intros. apply round_le; auto. apply vexp. apply valid_rnd_N. Qed.
  Lemma rnd_id : forall x, generic_format radix2 fexp x -> rnd x = x.
  Proof. intros. apply round_generic; auto. apply valid_rnd_N. Qed.
  Lemma number_lt : forall x, number x -> Rabs (value x) < bpow radix2 emax.
  Proof. intros x (V & F). destruct (lift _ _ _ V) as (a & <-). rewrite value_B. apply abs_B2R_lt_emax. Qed.
  (* an operation whose rounded result is not too large returns it *)
  Lemma add_in : forall x y, number x -> number y -> Rabs (rnd (value x + value y)) < bpow radix2 emax -> number (add x y) /\ value (add x y) = rnd (value x + value y).
  Proof.
    intros x y (V1 & F1) (V2 & F2) S. assert (V : valid_binary prec emax (add x y) = true) by (apply add_valid; auto). revert V.
    destruct (lift _ _ _ V1) as (a & <-), (lift _ _ _ V2) as (b & <-). rewrite (@add_B prec emax Hp He). unfold number_of. rewrite !finite_B, !value_B in *.
    pose proof (Bplus_correct prec emax Hp He mode_NE a b F1 F2) as H. cbn [round_mode] in H. rewrite Rlt_bool_true in H by exact S. tauto.
  Qed.
  Lemma sub_in : forall x y, number x -> number y -> Rabs (rnd (value x - value y)) < bpow radix2 emax -> number (sub x y) /\ value (sub x y) = rnd (value x - value y).
  Proof.
    intros x y (V1 & F1) (V2 & F2) S. assert (V : valid_binary prec emax (sub x y) = true) by (apply sub_valid; auto). revert V.
    destruct (lift _ _ _ V1) as (a & <-), (lift _ _ _ V2) as (b & <-). rewrite (@sub_B prec emax Hp He). unfold number_of. rewrite !finite_B, !value_B in *.
    pose proof (Bminus_correct prec emax Hp He mode_NE a b F1 F2) as H. cbn [round_mode] in H. rewrite Rlt_bool_true in H by exact S. tauto.
  Qed.
  Lemma mul_in : forall x y, number x -> number y -> Rabs (rnd (value x * value y)) < bpow radix2 emax -> number (mul x y) /\ value (mul x y) = rnd (value x * value y).
  Proof.
    intros x y (V1 & F1) (V2 & F2) S. assert (V : valid_binary prec emax (mul x y) = true) by (apply mul_valid; auto). revert V.
    destruct (lift _ _ _ V1) as (a & <-), (lift _ _ _ V2) as (b & <-). rewrite (@mul_B prec emax Hp He). unfold number_of. rewrite !finite_B, !value_B in *.
    pose proof (Bmult_correct prec emax Hp He mode_NE a b) as H. cbn [round_mode] in H. rewrite Rlt_bool_true in H by exact S. destruct H as (A & B & _). rewrite B, F1, F2. auto.
  Qed.
  Lemma div_in : forall x y, number x -> number y -> value y <> 0 -> Rabs (rnd (value x / value y)) < bpow radix2 emax -> number (div x y) /\ value (div x y) = rnd (value x / value y).
  Proof.
    intros x y (V1 & F1) (V2 & F2) Ny S. assert (V : valid_binary prec emax (div x y) = true) by (apply div_valid; auto). revert V.
    destruct (lift _ _ _ V1) as (a & <-), (lift _ _ _ V2) as (b & <-). rewrite (@div_B prec emax Hp He). unfold number_of. rewrite !finite_B, !value_B in *.
    pose proof (Bdiv_correct prec emax Hp He mode_NE a b Ny) as H. cbn [round_mode] in H. rewrite Rlt_bool_true in H by exact S. destruct H as (A & B & _). rewrite B, F1. auto.
  Qed.
  Lemma sandwich : forall l h t, number l -> number h -> value l <= t <= value h -> Rabs t < bpow radix2 emax.
  Proof. intros l h t L H B. pose proof (number_lt L) as A1. pose proof (number_lt H) as A2. apply Rabs_def2 in A1, A2. apply Rabs_def1; lra. Qed.
  Lemma least_value : forall x y, number x -> number y -> number (f_least x y) /\ value (f_least x y) = Rmin (value x) (value y).
  Proof.
    intros x y Nx Ny. unfold f_least. pose proof (proj1 (@C80_compare prec emax rem y x Ny Nx)) as C. cbn [o_lt sf_ops] in C.
    destruct (SFltb y x) eqn:E. { split; auto. rewrite Rmin_right; auto. left. apply C. auto. }
    split; auto. rewrite Rmin_left; auto. destruct (Rle_lt_dec (value x) (value y)) as [|L]; auto. apply C in L. discriminate.
  Qed.
  Lemma most_value : forall x y, number x -> number y -> number (f_most x y) /\ value (f_most x y) = Rmax (value x) (value y).
  Proof.
    intros x y Nx Ny. unfold f_most. pose proof (proj1 (@C80_compare prec emax rem x y Nx Ny)) as C. cbn [o_lt sf_ops] in C.
    destruct (SFltb x y) eqn:E. { split; auto. rewrite Rmax_right; auto. left. apply C. auto. }
    split; auto. rewrite Rmax_left; auto. destruct (Rle_lt_dec (value y) (value x)) as [|L]; auto. apply C in L. discriminate.
  Qed.
  Definition rmin4 a b c d := Rmin (Rmin a b) (Rmin c d).
  Definition rmax4 a b c d := Rmax (Rmax a b) (Rmax c d).
  Lemma rnd_min : forall a b, rnd (Rmin a b) = Rmin (rnd a) (rnd b).
  Proof.
    intros a b. destruct (Rle_lt_dec a b) as [L|L].
    - rewrite !Rmin_left; auto. apply rnd_le; auto.
    - rewrite !Rmin_right; auto; try lra. apply rnd_le; lra.
  Qed.
  Lemma rnd_max : forall a b, rnd (Rmax a b) = Rmax (rnd a) (rnd b).
  Proof.
    intros a b. destruct (Rle_lt_dec a b) as [L|L].
    - rewrite !Rmax_right; auto. apply rnd_le; auto.
    - rewrite !Rmax_left; auto; try lra. apply rnd_le; lra.
  Qed.
  (* one operation f with exact counterpart g, at the corners *)
  Lemma corners_sound : forall f g (P : R -> Prop) u v x y,
    (forall x y, number x -> number y -> P (value y) -> Rabs (rnd (g (value x) (value y))) < bpow radix2 emax -> number (f x y) /\ value (f x y) = rnd (g (value x) (value y))) ->
    (forall x y, number x -> number y -> P (value y) -> finite (f x y) = true -> number (f x y) /\ value (f x y) = rnd (g (value x) (value y))) ->
    P (value (fst v)) -> P (value (snd v)) -> P (value y) -> inr u x -> inr v y ->
    rmin4 (g (value (fst u)) (value (fst v))) (g (value (fst u)) (value (snd v))) (g (value (snd u)) (value (fst v))) (g (value (snd u)) (value (snd v))) <= g (value x) (value y) <=
    rmax4 (g (value (fst u)) (value (fst v))) (g (value (fst u)) (value (snd v))) (g (value (snd u)) (value (fst v))) (g (value (snd u)) (value (snd v))) ->
    rrel false inr (f_corners f u v) (Ok (f x y)).
  Proof.
    intros f g P [a b] [c d] x y H1 H2 Pc Pd Py (Na & Nb & Nx & Hx) (Nc & Nd & Ny & Hy) G. cbn [fst snd] in *. unfold f_corners. cbn [fst snd].
    destruct (_ && _)%bool eqn:E; [|cbn; auto]. apply andb_prop in E as (E & E4). apply andb_prop in E as (E & E3). apply andb_prop in E as (E1 & E2).
    destruct (H2 _ _ Na Nc Pc E1) as (N1 & V1). destruct (H2 _ _ Na Nd Pd E2) as (N2 & V2). destruct (H2 _ _ Nb Nc Pc E3) as (N3 & V3). destruct (H2 _ _ Nb Nd Pd E4) as (N4 & V4).
    destruct (least_value N1 N2) as (M1 & W1). destruct (least_value N3 N4) as (M2 & W2). destruct (least_value M1 M2) as (M & W).
    destruct (most_value N1 N2) as (M1' & W1'). destruct (most_value N3 N4) as (M2' & W2'). destruct (most_value M1' M2') as (M' & W').
    unfold rmin4, rmax4 in G. destruct G as (G1 & G2). apply rnd_le in G1, G2. rewrite !rnd_min in G1. rewrite !rnd_max in G2.
    rewrite W1, W2, V1, V2, V3, V4 in W. rewrite W1', W2', V1, V2, V3, V4 in W'.
    assert (B : value (f_least (f_least (f a c) (f a d)) (f_least (f b c) (f b d))) <= rnd (g (value x) (value y)) <= value (f_most (f_most (f a c) (f a d)) (f_most (f b c) (f b d)))).
    { rewrite W, W'. split; assumption. }
    destruct (H1 x y Nx Ny Py (sandwich M M' B)) as (N & V). split; [exact M|]. split; [exact M'|]. split; [exact N|]. cbn [fst snd]. rewrite V. exact B.
  Qed.
  Lemma clip_sound : forall l h x t, (finite l = true -> number l /\ value l <= rnd t) -> (finite h = true -> number h /\ rnd t <= value h) ->
    (Rabs (rnd t) < bpow radix2 emax -> number x /\ value x = rnd t) -> rrel false inr (f_clip l h) (Ok x).
  Proof.
    intros l h x t Hl Hh Hx. unfold f_clip. destruct (_ && _)%bool eqn:E; [|cbn; auto]. apply andb_prop in E as (E1 & E2).
    destruct (Hl E1) as (L & L1). destruct (Hh E2) as (H & H1). destruct (Hx (@sandwich l h _ L H (conj L1 H1))) as (N & V).
    split; [exact L|]. split; [exact H|]. split; [exact N|]. cbn [fst snd]. rewrite V. auto.
  Qed.
  Lemma mul_mid : forall a b x y, a <= x <= b -> Rmin (a * y) (b * y) <= x * y <= Rmax (a * y) (b * y).
  Proof.
    intros a b x y H. pose proof (Rmin_l (a * y) (b * y)). pose proof (Rmin_r (a * y) (b * y)). pose proof (Rmax_l (a * y) (b * y)). pose proof (Rmax_r (a * y) (b * y)).
    destruct (Rle_lt_dec 0 y) as [P|P].
    - assert (a * y <= x * y <= b * y) by (split; apply Rmult_le_compat_r; lra). lra.
    - assert (b * y <= x * y <= a * y) by (split; nra). lra.
  Qed.
  Lemma corner_mul : forall a b c d x y, a <= x <= b -> c <= y <= d ->
    rmin4 (a * c) (a * d) (b * c) (b * d) <= x * y <= rmax4 (a * c) (a * d) (b * c) (b * d).
  Proof.
    intros a b c d x y H1 H2. unfold rmin4, rmax4.
    pose proof (@mul_mid a b x y H1) as K1. pose proof (@mul_mid c d y a H2) as K2. pose proof (@mul_mid c d y b H2) as K3.
    rewrite !(Rmult_comm _ a) in K2. rewrite !(Rmult_comm _ b) in K3.
    destruct K1 as (K1 & K1'), K2 as (K2 & K2'), K3 as (K3 & K3'). split.
    - eapply Rle_trans; [|exact K1]. apply Rmin_glb; (eapply Rle_trans; [|eassumption]); [apply Rmin_l|apply Rmin_r].
    - eapply Rle_trans; [exact K1'|]. apply Rmax_lub; (eapply Rle_trans; [eassumption|]); [apply Rmax_l|apply Rmax_r].
  Qed.
  Lemma corner_div : forall a b c d x y, a <= x <= b -> c <= y <= d -> (0 < c \/ d < 0) ->
    rmin4 (a / c) (a / d) (b / c) (b / d) <= x / y <= rmax4 (a / c) (a / d) (b / c) (b / d).
  Proof.
    intros a b c d x y H1 H2 N. assert (I : / d <= / y <= / c).
    { destruct N as [N|N]. { split; apply Rinv_le_contravar; lra. }
      split; apply Ropp_le_cancel; rewrite <- !Rinv_opp; apply Rinv_le_contravar; lra. }
    pose proof (@corner_mul a b (/ d) (/ c) x (/ y) H1 I) as K. unfold rmin4, rmax4 in *.
    rewrite (Rmin_comm (a * / d)), (Rmin_comm (b * / d)), (Rmax_comm (a * / d)), (Rmax_comm (b * / d)) in K. exact K.
  Qed.
  Lemma frange_rel : OpsRel false inr (frange_ops prec emax) fo.
  Proof.
    constructor; cbn [o_zero o_one o_add o_sub o_mul o_neg frange_ops sf_ops ok1 ok2].
    - repeat split; auto; cbn; lra.
    - destruct (one_den Hp He) as (V & F & E). repeat split; auto; cbn; lra.
    - intros [a b] x [c d] y (Na & Nb & Nx & Hx) (Nc & Nd & Ny & Hy). cbn [fst snd] in *. apply clip_sound with (t := value x + value y).
      + intros F. destruct Na, Nc. rewrite (@add_round prec emax Hp He a c) by auto. split; [split; auto; apply add_valid; auto|]. apply rnd_le. lra.
      + intros F. destruct Nb, Nd. rewrite (@add_round prec emax Hp He b d) by auto. split; [split; auto; apply add_valid; auto|]. apply rnd_le. lra.
      + apply add_in; auto.
    - intros [a b] x [c d] y (Na & Nb & Nx & Hx) (Nc & Nd & Ny & Hy). cbn [fst snd] in *. apply clip_sound with (t := value x - value y).
      + intros F. destruct Na, Nd. rewrite (@sub_round prec emax Hp He a d) by auto. split; [split; auto; apply sub_valid; auto|]. apply rnd_le. lra.
      + intros F. destruct Nb, Nc. rewrite (@sub_round prec emax Hp He b c) by auto. split; [split; auto; apply sub_valid; auto|]. apply rnd_le. lra.
      + apply sub_in; auto.
    - intros u x v y Hu Hv. apply corners_sound with (g := Rmult) (P := fun _ => True); auto.
      + intros. apply mul_in; auto.
      + intros a b (Va & Fa) (Vb & Fb) _ F. rewrite (@mul_round prec emax Hp He a b) by auto. split; auto. split; auto. apply mul_valid; auto.
      + apply corner_mul; [apply Hu|apply Hv].
    - intros [a b] x ((Va & Fa) & (Vb & Fb) & (Vx & Fx) & H). cbn [fst snd] in *. change (fin prec emax (SFopp b, SFopp a) (SFopp x)). unfold fin, number_of. cbn [fst snd].
      destruct (opp_value a) as (A1 & A2), (opp_value b) as (B1 & B2), (opp_value x) as (X1 & X2). rewrite A1, A2, B1, B2, X1, X2.
      repeat split; auto; try (apply opp_valid; auto); lra.
  Qed.
  Lemma frange_divrel : DivRel false inr (frange_ops prec emax) fo.
  Proof.
    intros u x v y Hu Hv. cbn [o_div frange_ops sf_ops ok2]. destruct (_ || _)%bool eqn:E; [|cbn; auto].
    assert (N0 : number (S754_zero false)) by (split; auto).
    assert (N : 0 < value (fst v) \/ value (snd v) < 0).
    { destruct Hv as (Nc & Nd & _). apply Bool.orb_true_iff in E as [E|E]; [left|right].
      - apply (proj1 (@C80_compare prec emax rem _ _ N0 Nc)). exact E.
      - apply (proj1 (@C80_compare prec emax rem _ _ Nd N0)). exact E. }
    pose proof Hv as (_ & _ & _ & Hy). apply corners_sound with (g := Rdiv) (P := fun y => y <> 0); auto; try lra.
    - intros. apply div_in; auto.
    - intros a b (Va & Fa) (Vb & Fb) Nz F. rewrite (@div_round prec emax Hp He a b) by auto. split; auto. split; auto. apply div_valid; auto.
    - apply corner_div; auto. apply Hu.
  Qed.
End Fr.

Local Open Scope nat_scope.
(* ------------------------------------------------------------------------- *)
(** * C110: if interval arithmetic in the same format finds no overflow, there is none; the result is inside the computed range *)
Section C110.
  Context (prec emax : Z) (rem : spec_float -> spec_float -> spec_float) (Hp : (0 < prec)%Z) (He : (prec < emax)%Z).
  Local Notation fo := (sf_ops prec emax rem).
  Local Notation ranges := (frange_ops prec emax).

  Theorem C110_v_add : forall N u v x y r, length u = N -> length v = N -> v_fin prec emax u x -> v_fin prec emax v y -> v_add ranges N u v = Ok r -> exists s, v_add fo N x y = Ok s /\ v_fin prec emax r s.
  Proof. intros. eapply v_rel_out; [|eassumption]. eapply (rr_v_add (frange_rel rem Hp He)); ex_args. Qed.
  Theorem C110_v_sub : forall N u v x y r, length u = N -> length v = N -> v_fin prec emax u x -> v_fin prec emax v y -> v_sub ranges N u v = Ok r -> exists s, v_sub fo N x y = Ok s /\ v_fin prec emax r s.
  Proof. intros. eapply v_rel_out; [|eassumption]. eapply (rr_v_sub (frange_rel rem Hp He)); ex_args. Qed.
  Theorem C110_v_mul : forall N u v x y r, length u = N -> length v = N -> v_fin prec emax u x -> v_fin prec emax v y -> v_mul ranges N u v = Ok r -> exists s, v_mul fo N x y = Ok s /\ v_fin prec emax r s.
  Proof. intros. eapply v_rel_out; [|eassumption]. eapply (rr_v_mul (frange_rel rem Hp He)); ex_args. Qed.
  Theorem C110_v_neg : forall N u x r, length u = N -> v_fin prec emax u x -> v_neg ranges u = Ok r -> exists s, v_neg fo x = Ok s /\ v_fin prec emax r s.
  Proof. intros. eapply v_rel_out; [|eassumption]. eapply (rr_v_neg (frange_rel rem Hp He)); ex_args. Qed.
  Theorem C110_v_smul : forall N u v x y r, length u = N -> v_fin prec emax u x -> fin prec emax v y -> v_smul ranges u v = Ok r -> exists s, v_smul fo x y = Ok s /\ v_fin prec emax r s.
  Proof. intros. eapply v_rel_out; [|eassumption]. eapply (rr_v_smul (frange_rel rem Hp He)); ex_args. Qed.
  Theorem C110_v_sum : forall N u x r, length u = N -> v_fin prec emax u x -> v_sum ranges u = Ok r -> exists s, v_sum fo x = Ok s /\ fin prec emax r s.
  Proof. intros. eapply s_rel_out; [|eassumption]. eapply (rr_v_sum (frange_rel rem Hp He)); ex_args. Qed.
  Theorem C110_v_dot : forall N u v x y r, length u = N -> length v = N -> v_fin prec emax u x -> v_fin prec emax v y -> v_dot ranges N u v = Ok r -> exists s, v_dot fo N x y = Ok s /\ fin prec emax r s.
  Proof. intros. eapply s_rel_out; [|eassumption]. eapply (rr_v_dot (frange_rel rem Hp He)); ex_args. Qed.
  Theorem C110_v_square_length : forall N u x r, length u = N -> v_fin prec emax u x -> v_square_length ranges u = Ok r -> exists s, v_square_length fo x = Ok s /\ fin prec emax r s.
  Proof. intros. eapply s_rel_out; [|eassumption]. eapply (rr_v_square_length (frange_rel rem Hp He)); ex_args. Qed.
  Theorem C110_v_cross2 : forall u v x y r, length u = 2 -> length v = 2 -> v_fin prec emax u x -> v_fin prec emax v y -> v_cross2 ranges u v = Ok r -> exists s, v_cross2 fo x y = Ok s /\ fin prec emax r s.
  Proof. intros. eapply s_rel_out; [|eassumption]. eapply (rr_v_cross2 (frange_rel rem Hp He)); ex_args. Qed.
  Theorem C110_v_cross3 : forall u v x y r, length u = 3 -> length v = 3 -> v_fin prec emax u x -> v_fin prec emax v y -> v_cross3 ranges u v = Ok r -> exists s, v_cross3 fo x y = Ok s /\ v_fin prec emax r s.
  Proof. intros. eapply v_rel_out; [|eassumption]. eapply (rr_v_cross3 (frange_rel rem Hp He)); ex_args. Qed.
  Theorem C110_v_cross4 : forall u v x y r, length u = 4 -> length v = 4 -> v_fin prec emax u x -> v_fin prec emax v y -> v_cross4 ranges u v = Ok r -> exists s, v_cross4 fo x y = Ok s /\ v_fin prec emax r s.
  Proof. intros. eapply v_rel_out; [|eassumption]. eapply (rr_v_cross4 (frange_rel rem Hp He)); ex_args. Qed.
  Theorem C110_v_div : forall N u v x y r, length u = N -> length v = N -> v_fin prec emax u x -> v_fin prec emax v y -> v_div ranges N u v = Ok r -> exists s, v_div fo N x y = Ok s /\ v_fin prec emax r s.
  Proof. intros. eapply v_rel_out; [|eassumption]. eapply (rr_v_div (frange_divrel rem Hp He)); ex_args. Qed.
  Theorem C110_v_sdiv : forall N u v x y r, length u = N -> v_fin prec emax u x -> fin prec emax v y -> v_sdiv ranges u v = Ok r -> exists s, v_sdiv fo x y = Ok s /\ v_fin prec emax r s.
  Proof. intros. eapply v_rel_out; [|eassumption]. eapply (rr_v_sdiv (frange_divrel rem Hp He)); ex_args. Qed.
  Theorem C110_m_add : forall M N u v x y r, rect M N u -> rect M N v -> m_fin prec emax u x -> m_fin prec emax v y -> m_add ranges M N u v = Ok r -> exists s, m_add fo M N x y = Ok s /\ m_fin prec emax r s.
  Proof. intros. eapply m_rel_out; [|eassumption]. eapply (rr_m_add (frange_rel rem Hp He)); ex_args. Qed.
  Theorem C110_m_sub : forall M N u v x y r, rect M N u -> rect M N v -> m_fin prec emax u x -> m_fin prec emax v y -> m_sub ranges M N u v = Ok r -> exists s, m_sub fo M N x y = Ok s /\ m_fin prec emax r s.
  Proof. intros. eapply m_rel_out; [|eassumption]. eapply (rr_m_sub (frange_rel rem Hp He)); ex_args. Qed.
  Theorem C110_m_mul : forall M N u v x y r, rect M N u -> rect M N v -> m_fin prec emax u x -> m_fin prec emax v y -> m_mul ranges M N u v = Ok r -> exists s, m_mul fo M N x y = Ok s /\ m_fin prec emax r s.
  Proof. intros. eapply m_rel_out; [|eassumption]. eapply (rr_m_mul (frange_rel rem Hp He)); ex_args. Qed.
  Theorem C110_m_neg : forall M N u x r, rect M N u -> m_fin prec emax u x -> m_neg ranges u = Ok r -> exists s, m_neg fo x = Ok s /\ m_fin prec emax r s.
  Proof. intros. eapply m_rel_out; [|eassumption]. eapply (rr_m_neg (frange_rel rem Hp He)); ex_args. Qed.
  Theorem C110_m_smul : forall M N u v x y r, rect M N u -> m_fin prec emax u x -> fin prec emax v y -> m_smul ranges u v = Ok r -> exists s, m_smul fo x y = Ok s /\ m_fin prec emax r s.
  Proof. intros. eapply m_rel_out; [|eassumption]. eapply (rr_m_smul (frange_rel rem Hp He)); ex_args. Qed.
  Theorem C110_m_sum : forall M N u x r, rect M N u -> m_fin prec emax u x -> m_sum ranges u = Ok r -> exists s, m_sum fo x = Ok s /\ fin prec emax r s.
  Proof. intros. eapply s_rel_out; [|eassumption]. eapply (rr_m_sum (frange_rel rem Hp He)); ex_args. Qed.
  Theorem C110_m_div : forall M N u v x y r, rect M N u -> rect M N v -> m_fin prec emax u x -> m_fin prec emax v y -> m_div ranges M N u v = Ok r -> exists s, m_div fo M N x y = Ok s /\ m_fin prec emax r s.
  Proof. intros. eapply m_rel_out; [|eassumption]. eapply (rr_m_div (frange_divrel rem Hp He)); ex_args. Qed.
  Theorem C110_m_sdiv : forall M N u v x y r, rect M N u -> m_fin prec emax u x -> fin prec emax v y -> m_sdiv ranges u v = Ok r -> exists s, m_sdiv fo x y = Ok s /\ m_fin prec emax r s.
  Proof. intros. eapply m_rel_out; [|eassumption]. eapply (rr_m_sdiv (frange_divrel rem Hp He)); ex_args. Qed.
  Theorem C110_m_dot : forall L M N u v x y r, rect L M u -> rect M N v -> m_fin prec emax u x -> m_fin prec emax v y -> m_dot ranges L M N u v = Ok r -> exists s, m_dot fo L M N x y = Ok s /\ m_fin prec emax r s.
  Proof. intros. eapply m_rel_out; [|eassumption]. eapply (rr_m_dot (frange_rel rem Hp He)); ex_args. Qed.
  Theorem C110_m_dot_v : forall M N u v x y r, rect M N u -> length v = N -> m_fin prec emax u x -> v_fin prec emax v y -> m_dot_v ranges M N u v = Ok r -> exists s, m_dot_v fo M N x y = Ok s /\ v_fin prec emax r s.
  Proof. intros. eapply v_rel_out; [|eassumption]. eapply (rr_m_dot_v (frange_rel rem Hp He)); ex_args. Qed.
  Theorem C110_v_dot_m : forall M N u v x y r, length u = M -> rect M N v -> v_fin prec emax u x -> m_fin prec emax v y -> v_dot_m ranges M N u v = Ok r -> exists s, v_dot_m fo M N x y = Ok s /\ v_fin prec emax r s.
  Proof. intros. eapply v_rel_out; [|eassumption]. eapply (rr_v_dot_m (frange_rel rem Hp He)); ex_args. Qed.
  Theorem C110_m_outer : forall M N u v x y r, length u = M -> length v = N -> v_fin prec emax u x -> v_fin prec emax v y -> m_outer ranges M N u v = Ok r -> exists s, m_outer fo M N x y = Ok s /\ m_fin prec emax r s.
  Proof. intros. eapply m_rel_out; [|eassumption]. eapply (rr_m_outer (frange_rel rem Hp He)); ex_args. Qed.
  Theorem C110_m_det : forall N u x r, rect N N u -> m_fin prec emax u x -> m_det ranges N u = Ok r -> exists s, m_det fo N x = Ok s /\ fin prec emax r s.
  Proof. intros. eapply s_rel_out; [|eassumption]. eapply (rr_m_det (frange_rel rem Hp He)); ex_args. Qed.
  Theorem C110_m_cofactor : forall N i j u x r, rect N N u -> m_fin prec emax u x -> m_cofactor ranges N u i j = Ok r -> exists s, m_cofactor fo N x i j = Ok s /\ fin prec emax r s.
  Proof. intros. eapply s_rel_out; [|eassumption]. eapply (rr_m_cofactor (frange_rel rem Hp He)); ex_args. Qed.
  Theorem C110_m_adj : forall N u x r, rect N N u -> m_fin prec emax u x -> m_adj ranges N u = Ok r -> exists s, m_adj fo N x = Ok s /\ m_fin prec emax r s.
  Proof. intros. eapply m_rel_out; [|eassumption]. eapply (rr_m_adj (frange_rel rem Hp He)); ex_args. Qed.
  Theorem C110_m_inv : forall N u x r, rect N N u -> m_fin prec emax u x -> m_inv ranges N u = Ok r -> exists s, m_inv fo N x = Ok s /\ m_fin prec emax r s.
  Proof. intros. eapply m_rel_out; [|eassumption]. eapply (rr_m_inv (frange_rel rem Hp He) (frange_divrel rem Hp He)); ex_args. Qed.
  Theorem C110_c_add : forall u v x y r, c_fin prec emax u x -> c_fin prec emax v y -> c_add ranges u v = Ok r -> exists s, c_add fo x y = Ok s /\ c_fin prec emax r s.
  Proof. intros. eapply c_rel_out; [|eassumption]. eapply (rr_c_add (frange_rel rem Hp He)); ex_args. Qed.
  Theorem C110_c_sub : forall u v x y r, c_fin prec emax u x -> c_fin prec emax v y -> c_sub ranges u v = Ok r -> exists s, c_sub fo x y = Ok s /\ c_fin prec emax r s.
  Proof. intros. eapply c_rel_out; [|eassumption]. eapply (rr_c_sub (frange_rel rem Hp He)); ex_args. Qed.
  Theorem C110_c_mul : forall u v x y r, c_fin prec emax u x -> c_fin prec emax v y -> c_mul ranges u v = Ok r -> exists s, c_mul fo x y = Ok s /\ c_fin prec emax r s.
  Proof. intros. eapply c_rel_out; [|eassumption]. eapply (rr_c_mul (frange_rel rem Hp He)); ex_args. Qed.
  Theorem C110_c_neg : forall u x r, c_fin prec emax u x -> c_neg ranges u = Ok r -> exists s, c_neg fo x = Ok s /\ c_fin prec emax r s.
  Proof. intros. eapply c_rel_out; [|eassumption]. eapply (rr_c_neg (frange_rel rem Hp He)); ex_args. Qed.
  Theorem C110_c_conj : forall u x r, c_fin prec emax u x -> c_conj ranges u = Ok r -> exists s, c_conj fo x = Ok s /\ c_fin prec emax r s.
  Proof. intros. eapply c_rel_out; [|eassumption]. eapply (rr_c_conj (frange_rel rem Hp He)); ex_args. Qed.
  Theorem C110_c_mul_s : forall u v x y r, c_fin prec emax u x -> fin prec emax v y -> c_mul_s ranges u v = Ok r -> exists s, c_mul_s fo x y = Ok s /\ c_fin prec emax r s.
  Proof. intros. eapply c_rel_out; [|eassumption]. eapply (rr_c_mul_s (frange_rel rem Hp He)); ex_args. Qed.
  Theorem C110_c_norm_sqr : forall u x r, c_fin prec emax u x -> c_norm_sqr ranges u = Ok r -> exists s, c_norm_sqr fo x = Ok s /\ fin prec emax r s.
  Proof. intros. eapply s_rel_out; [|eassumption]. eapply (rr_c_norm_sqr (frange_rel rem Hp He)); ex_args. Qed.
  Theorem C110_c_dot : forall u v x y r, c_fin prec emax u x -> c_fin prec emax v y -> c_dot ranges u v = Ok r -> exists s, c_dot fo x y = Ok s /\ fin prec emax r s.
  Proof. intros. eapply s_rel_out; [|eassumption]. eapply (rr_c_dot (frange_rel rem Hp He)); ex_args. Qed.
  Theorem C110_c_inv : forall u x r, c_fin prec emax u x -> c_inv ranges u = Ok r -> exists s, c_inv fo x = Ok s /\ c_fin prec emax r s.
  Proof. intros. eapply c_rel_out; [|eassumption]. eapply (rr_c_inv (frange_rel rem Hp He) (frange_divrel rem Hp He)); ex_args. Qed.
  Theorem C110_c_div : forall u v x y r, c_fin prec emax u x -> c_fin prec emax v y -> c_div ranges u v = Ok r -> exists s, c_div fo x y = Ok s /\ c_fin prec emax r s.
  Proof. intros. eapply c_rel_out; [|eassumption]. eapply (rr_c_div (frange_rel rem Hp He) (frange_divrel rem Hp He)); ex_args. Qed.
  Theorem C110_q_add : forall u v x y r, q_fin prec emax u x -> q_fin prec emax v y -> q_add ranges u v = Ok r -> exists s, q_add fo x y = Ok s /\ q_fin prec emax r s.
  Proof. intros. eapply q_rel_out; [|eassumption]. eapply (rr_q_add (frange_rel rem Hp He)); ex_args. Qed.
  Theorem C110_q_sub : forall u v x y r, q_fin prec emax u x -> q_fin prec emax v y -> q_sub ranges u v = Ok r -> exists s, q_sub fo x y = Ok s /\ q_fin prec emax r s.
  Proof. intros. eapply q_rel_out; [|eassumption]. eapply (rr_q_sub (frange_rel rem Hp He)); ex_args. Qed.
  Theorem C110_q_mul : forall u v x y r, q_fin prec emax u x -> q_fin prec emax v y -> q_mul ranges u v = Ok r -> exists s, q_mul fo x y = Ok s /\ q_fin prec emax r s.
  Proof. intros. eapply q_rel_out; [|eassumption]. eapply (rr_q_mul (frange_rel rem Hp He)); ex_args. Qed.
  Theorem C110_q_neg : forall u x r, q_fin prec emax u x -> q_neg ranges u = Ok r -> exists s, q_neg fo x = Ok s /\ q_fin prec emax r s.
  Proof. intros. eapply q_rel_out; [|eassumption]. eapply (rr_q_neg (frange_rel rem Hp He)); ex_args. Qed.
  Theorem C110_q_conj : forall u x r, q_fin prec emax u x -> q_conj ranges u = Ok r -> exists s, q_conj fo x = Ok s /\ q_fin prec emax r s.
  Proof. intros. eapply q_rel_out; [|eassumption]. eapply (rr_q_conj (frange_rel rem Hp He)); ex_args. Qed.
  Theorem C110_q_mul_s : forall u v x y r, q_fin prec emax u x -> fin prec emax v y -> q_mul_s ranges u v = Ok r -> exists s, q_mul_s fo x y = Ok s /\ q_fin prec emax r s.
  Proof. intros. eapply q_rel_out; [|eassumption]. eapply (rr_q_mul_s (frange_rel rem Hp He)); ex_args. Qed.
  Theorem C110_q_mul_c : forall u v x y r, q_fin prec emax u x -> c_fin prec emax v y -> q_mul_c ranges u v = Ok r -> exists s, q_mul_c fo x y = Ok s /\ q_fin prec emax r s.
  Proof. intros. eapply q_rel_out; [|eassumption]. eapply (rr_q_mul_c (frange_rel rem Hp He)); ex_args. Qed.
  Theorem C110_c_mul_q : forall u v x y r, c_fin prec emax u x -> q_fin prec emax v y -> c_mul_q ranges u v = Ok r -> exists s, c_mul_q fo x y = Ok s /\ q_fin prec emax r s.
  Proof. intros. eapply q_rel_out; [|eassumption]. eapply (rr_c_mul_q (frange_rel rem Hp He)); ex_args. Qed.
  Theorem C110_q_norm_sqr : forall u x r, q_fin prec emax u x -> q_norm_sqr ranges u = Ok r -> exists s, q_norm_sqr fo x = Ok s /\ fin prec emax r s.
  Proof. intros. eapply s_rel_out; [|eassumption]. eapply (rr_q_norm_sqr (frange_rel rem Hp He)); ex_args. Qed.
  Theorem C110_q_dot : forall u v x y r, q_fin prec emax u x -> q_fin prec emax v y -> q_dot ranges u v = Ok r -> exists s, q_dot fo x y = Ok s /\ fin prec emax r s.
  Proof. intros. eapply s_rel_out; [|eassumption]. eapply (rr_q_dot (frange_rel rem Hp He)); ex_args. Qed.
  Theorem C110_q_inv : forall u x r, q_fin prec emax u x -> q_inv ranges u = Ok r -> exists s, q_inv fo x = Ok s /\ q_fin prec emax r s.
  Proof. intros. eapply q_rel_out; [|eassumption]. eapply (rr_q_inv (frange_rel rem Hp He) (frange_divrel rem Hp He)); ex_args. Qed.
  Theorem C110_q_div : forall u v x y r, q_fin prec emax u x -> q_fin prec emax v y -> q_div ranges u v = Ok r -> exists s, q_div fo x y = Ok s /\ q_fin prec emax r s.
  Proof. intros. eapply q_rel_out; [|eassumption]. eapply (rr_q_div (frange_rel rem Hp He) (frange_divrel rem Hp He)); ex_args. Qed.
  Theorem C110_rot2_apply : forall u v x y r, length v = 2 -> c_fin prec emax u x -> v_fin prec emax v y -> rot2_apply ranges u v = Ok r -> exists s, rot2_apply fo x y = Ok s /\ v_fin prec emax r s.
  Proof. intros. eapply v_rel_out; [|eassumption]. eapply (rr_rot2_apply (frange_rel rem Hp He)); ex_args. Qed.
  Theorem C110_rot3_apply : forall u v x y r, length v = 3 -> q_fin prec emax u x -> v_fin prec emax v y -> rot3_apply ranges u v = Ok r -> exists s, rot3_apply fo x y = Ok s /\ v_fin prec emax r s.
  Proof. intros. eapply v_rel_out; [|eassumption]. eapply (rr_rot3_apply (frange_rel rem Hp He)); ex_args. Qed.
  Theorem C110_mo_apply_self : forall u v x y r, rect 2 2 u -> m_fin prec emax u x -> fin prec emax v y -> mo_apply_self ranges u v = Ok r -> exists s, mo_apply_self fo x y = Ok s /\ fin prec emax r s.
  Proof. intros. eapply s_rel_out; [|eassumption]. eapply (rr_mo_apply_self (frange_rel rem Hp He) (frange_divrel rem Hp He)); ex_args. Qed.
End C110.
Local Open Scope R_scope.

(* ------------------------------------------------------------------------- *)
(** * Explicit conditions: how large the numbers may be                        *)
Section FSize.
  Context (prec emax : Z) (rem : spec_float -> spec_float -> spec_float) (Hp : (0 < prec)%Z) (He : (prec < emax)%Z).
  Local Notation fo := (sf_ops prec emax rem).
  Local Notation fexp := (SpecFloat.fexp prec emax).
  Local Notation rnd := (round radix2 fexp ZnearestE).
  Local Notation number := (number_of prec emax).
  Local Notation upto := (upto prec emax).
  Local Notation add := (SFadd prec emax).
  Local Notation sub := (SFsub prec emax).
  Local Notation mul := (SFmul prec emax).
  Local Notation limit := (powerRZ 2 emax).
  (** The exponent of the smallest positive float. *)
  Local Notation emin := (3 - emax - prec)%Z.

  Lemma pw : forall a, powerRZ 2 a = bpow radix2 a.
  Proof. intros. symmetry. apply (bpow_powerRZ radix2). Qed.
  Lemma pw_pos : forall a, 0 < powerRZ 2 a.
  Proof. intros. apply powerRZ_lt. lra. Qed.
  Lemma pw_plus : forall a b, powerRZ 2 (a + b) = powerRZ 2 a * powerRZ 2 b.
  Proof. intros. apply powerRZ_add. lra. Qed.
  Lemma scaled_fmt : forall k a, (0 <= k <= 2 ^ prec)%Z -> (emin <= a)%Z -> generic_format radix2 fexp (IZR k * powerRZ 2 a).
  Proof.
    intros k a H E. rewrite pw. destruct (Z.eq_dec k (2 ^ prec)) as [->|Q].
    - assert (Q : IZR (2 ^ prec) = bpow radix2 prec) by (apply (IZR_Zpower radix2 prec); lia). rewrite Q, <- bpow_plus. apply generic_format_bpow. unfold SpecFloat.fexp, SpecFloat.emin. lia.
    - apply (@generic_format_FLT radix2 (SpecFloat.emin prec emax) prec). exists (Float radix2 k a); cbn.
      + reflexivity.
      + lia.
      + exact E.
  Qed.
  Lemma rnd_upto : forall t k a, (0 <= k <= 2 ^ prec)%Z -> (emin <= a)%Z -> Rabs t <= IZR k * powerRZ 2 a -> Rabs (rnd t) <= IZR k * powerRZ 2 a.
  Proof.
    intros t k a H E B. rewrite <- (@rnd_id prec emax (IZR k * powerRZ 2 a)) by (apply scaled_fmt; auto).
    assert (S : rnd (Rabs t) = Rabs (rnd t)). { apply round_NE_abs. apply (@fexp_correct prec emax Hp). }
    rewrite <- S. apply (@rnd_le prec emax Hp). exact B.
  Qed.
  Lemma add_upto : forall x y k l a, upto (IZR k * powerRZ 2 a) x -> upto (IZR l * powerRZ 2 a) y -> (0 <= k)%Z -> (0 <= l)%Z -> (k + l <= 2 ^ prec)%Z -> (emin <= a)%Z ->
    IZR (k + l) * powerRZ 2 a < limit -> upto (IZR (k + l) * powerRZ 2 a) (add x y).
  Proof.
    intros x y k l a (Nx & Bx) (Ny & By) Hk Hl H E L.
    assert (B : Rabs (rnd (value x + value y)) <= IZR (k + l) * powerRZ 2 a).
    { apply rnd_upto; auto; try lia. eapply Rle_trans; [apply Rabs_triang|]. rewrite plus_IZR. lra. }
    destruct (@add_in prec emax Hp He x y Nx Ny) as (N & V). { rewrite <- pw. lra. } split; auto. rewrite V. exact B.
  Qed.
  Lemma sub_upto : forall x y k l a, upto (IZR k * powerRZ 2 a) x -> upto (IZR l * powerRZ 2 a) y -> (0 <= k)%Z -> (0 <= l)%Z -> (k + l <= 2 ^ prec)%Z -> (emin <= a)%Z ->
    IZR (k + l) * powerRZ 2 a < limit -> upto (IZR (k + l) * powerRZ 2 a) (sub x y).
  Proof.
    intros x y k l a (Nx & Bx) (Ny & By) Hk Hl H E L.
    assert (B : Rabs (rnd (value x - value y)) <= IZR (k + l) * powerRZ 2 a).
    { apply rnd_upto; auto; try lia. unfold Rminus. eapply Rle_trans; [apply Rabs_triang|]. rewrite Rabs_Ropp, plus_IZR. lra. }
    destruct (@sub_in prec emax Hp He x y Nx Ny) as (N & V). { rewrite <- pw. lra. } split; auto. rewrite V. exact B.
  Qed.
  Lemma mul_upto : forall x y k l a b, upto (IZR k * powerRZ 2 a) x -> upto (IZR l * powerRZ 2 b) y -> (0 <= k)%Z -> (0 <= l)%Z -> (k * l <= 2 ^ prec)%Z -> (emin <= a + b)%Z ->
    IZR (k * l) * powerRZ 2 (a + b) < limit -> upto (IZR (k * l) * powerRZ 2 (a + b)) (mul x y).
  Proof.
    intros x y k l a b (Nx & Bx) (Ny & By) Hk Hl H E L.
    assert (B : Rabs (rnd (value x * value y)) <= IZR (k * l) * powerRZ 2 (a + b)).
    { assert (0 <= k * l)%Z by (apply Z.mul_nonneg_nonneg; auto). apply rnd_upto; [lia|exact E|]. rewrite Rabs_mult, mult_IZR, pw_plus.
      replace (IZR k * IZR l * (powerRZ 2 a * powerRZ 2 b)) with ((IZR k * powerRZ 2 a) * (IZR l * powerRZ 2 b)) by ring. apply Rmult_le_compat; auto; apply Rabs_pos. }
    destruct (@mul_in prec emax Hp He x y Nx Ny) as (N & V). { rewrite <- pw. lra. } split; auto. rewrite V. exact B.
  Qed.
  Lemma opp_upto : forall x B, upto B x -> upto B (SFopp x).
  Proof.
    intros x B ((V & F) & H). destruct (opp_value x) as (A1 & A2). split; [split; [apply opp_valid; auto|congruence]|]. rewrite A1, Rabs_Ropp. auto.
  Qed.
  Lemma upto_1 : forall x a, upto (powerRZ 2 a) x -> upto (IZR 1 * powerRZ 2 a) x.
  Proof. intros x a (N & B). split; auto. lra. Qed.
  Lemma fs_upto : forall k f a, (forall i, (i <= k)%nat -> upto (powerRZ 2 a) (f i)) -> (Z.of_nat (S k) <= 2 ^ prec)%Z -> (emin <= a)%Z ->
    INR (S k) * powerRZ 2 a < limit -> upto (INR (S k) * powerRZ 2 a) (fs prec emax k f).
  Proof.
    induction k as [|k IH]; intros f a F H E L. { cbn [fs]. destruct (F 0%nat ltac:(lia)) as (N & B). split; auto. cbn [INR]. lra. }
    pose proof (pw_pos a). assert (L1 : INR (S k) * powerRZ 2 a < limit). { rewrite S_INR in L. lra. }
    pose proof (IH f a ltac:(intros; apply F; lia) ltac:(lia) E L1) as G. cbn [fs]. rewrite !INR_IZR_INZ in *.
    replace (Z.of_nat (S (S k))) with (Z.of_nat (S k) + 1)%Z in * by lia. apply add_upto; auto; try lia. apply upto_1. apply F. lia.
  Qed.

  (** ** Sums, dot products, products of matrices: the number of terms times the bound on one, without a factor for rounding *)
  Theorem C110_sum_size : forall N a x, length x = N -> (0 < N)%nat -> (Z.of_nat N <= 2 ^ prec)%Z -> (emin <= a)%Z ->
    Forall (upto (powerRZ 2 a)) x -> INR N * powerRZ 2 a < limit -> exists s, v_sum fo x = Ok s /\ upto (INR N * powerRZ 2 a) s.
  Proof.
    intros N a x Lx HN H E F L. destruct (vk_ex fo x Lx) as (f & ->). destruct N as [|k]; [lia|]. rewrite v_sum_fs. eexists. split; [reflexivity|].
    apply fs_upto; auto. intros i Hi. apply (proj1 (Forall_vk _ _ _)) with (i := i) in F; auto. lia.
  Qed.
  Lemma fdot_upto : forall k f g a b, (forall i, (i <= k)%nat -> upto (powerRZ 2 a) (f i)) -> (forall i, (i <= k)%nat -> upto (powerRZ 2 b) (g i)) ->
    (Z.of_nat (S k) <= 2 ^ prec)%Z -> (emin <= a + b)%Z -> INR (S k) * powerRZ 2 (a + b) < limit -> upto (INR (S k) * powerRZ 2 (a + b)) (fs prec emax k (fun i => mul (f i) (g i))).
  Proof.
    intros k f g a b Hf Hg H E L. apply fs_upto; auto. intros i Hi. destruct (@mul_upto (f i) (g i) 1 1 a b) as (N & B); try lia; auto using upto_1.
    - change (IZR (1 * 1)) with 1. rewrite S_INR in L. pose proof (pos_INR k). pose proof (pw_pos (a + b)). nra.
    - split; auto. change (IZR (1 * 1)) with 1 in B. lra.
  Qed.
  Theorem C110_dot_size : forall N a b x y, length x = N -> length y = N -> (0 < N)%nat -> (Z.of_nat N <= 2 ^ prec)%Z -> (emin <= a + b)%Z ->
    Forall (upto (powerRZ 2 a)) x -> Forall (upto (powerRZ 2 b)) y -> INR N * powerRZ 2 (a + b) < limit ->
    exists s, v_dot fo N x y = Ok s /\ upto (INR N * powerRZ 2 (a + b)) s.
  Proof.
    intros N a b x y Lx Ly HN H E F G L. destruct (vk_ex fo x Lx) as (f & ->), (vk_ex fo y Ly) as (g & ->). destruct N as [|k]; [lia|].
    rewrite v_dot_fs. eexists. split; [reflexivity|].
    apply fdot_upto; auto; intros i Hi; [apply (proj1 (Forall_vk _ _ _)) with (i := i) in F|apply (proj1 (Forall_vk _ _ _)) with (i := i) in G]; auto; lia.
  Qed.
  Theorem C110_square_length_size : forall N a x, length x = N -> (0 < N)%nat -> (Z.of_nat N <= 2 ^ prec)%Z -> (emin <= a + a)%Z ->
    Forall (upto (powerRZ 2 a)) x -> INR N * powerRZ 2 (a + a) < limit ->
    exists s, v_square_length fo x = Ok s /\ upto (INR N * powerRZ 2 (a + a)) s.
  Proof.
    intros N a x Lx HN H E F L. destruct (vk_ex fo x Lx) as (f & ->). destruct N as [|k]; [lia|].
    rewrite v_sq_fs. eexists. split; [reflexivity|].
    apply fdot_upto; auto; intros i Hi; apply (proj1 (Forall_vk _ _ _)) with (i := i) in F; auto; lia.
  Qed.
  Theorem C110_length_size : forall N a x, length x = N -> (0 < N)%nat -> (Z.of_nat N <= 2 ^ prec)%Z -> (emin <= a + a)%Z ->
    Forall (upto (powerRZ 2 a)) x -> INR N * powerRZ 2 (a + a) < limit ->
    exists s, v_length fo (SFsqrt prec emax) x = Ok s /\ number s /\ 0 <= value s.
  Proof.
    intros N a x Lx HN H E F L. destruct (@C110_square_length_size N a x Lx HN H E F L) as (s & Es & (V & Fs) & B). unfold v_length. rewrite Es. cbn [bind].
    destruct (vk_ex fo x Lx) as (f & ->). destruct N as [|k]; [lia|]. rewrite v_sq_fs in Es. apply Ok_inj in Es. subst s.
    assert (Vf : forall i, (i <= k)%nat -> valid_binary prec emax (f i) = true). { intros i Hi. apply (proj1 (Forall_vk _ _ _)) with (i := i) in F; [apply F|lia]. }
    assert (P : 0 <= value (fs prec emax k (fun i => mul (f i) (f i)))).
    { apply fs_nonneg; auto.
      - intros i Hi. pose proof (@fs_fin prec emax k _ Fs i Hi) as Fi. rewrite (@mul_round prec emax Hp He) by auto. rewrite <- (@rnd_id prec emax 0) by apply generic_format_0. apply (@rnd_le prec emax Hp). nra.
      - intros i Hi. apply mul_valid; auto. }
    destruct (@sqrt_round prec emax Hp He _ V Fs P) as (F1 & V1). eexists. split; [reflexivity|]. split. { split; auto. apply sqrt_valid; auto. }
    rewrite V1. rewrite <- (@rnd_id prec emax 0) by apply generic_format_0. apply (@rnd_le prec emax Hp). apply sqrt_pos.
  Qed.
  Theorem C110_product_size : forall L M N a b x y, rect L M x -> rect M N y -> (0 < M)%nat -> (Z.of_nat M <= 2 ^ prec)%Z -> (emin <= a + b)%Z ->
    Forall (Forall (upto (powerRZ 2 a))) x -> Forall (Forall (upto (powerRZ 2 b))) y -> INR M * powerRZ 2 (a + b) < limit ->
    exists r, m_dot fo L M N x y = Ok r /\ rect L N r /\ Forall (Forall (upto (INR M * powerRZ 2 (a + b)))) r.
  Proof.
    intros L M N a b x y Rx Ry HM H E F G Lm. destruct (mk_ex fo Rx) as (f & ->), (mk_ex fo Ry) as (g & ->). destruct M as [|k]; [lia|].
    exists (mk L N (fun i j => fs prec emax k (fun p => mul (f i p) (g p j)))). split; [|split; [apply rect_mk|]].
    - unfold m_dot. rewrite m_indices_mk. cbn [bind]. apply m_map_mk. intros i j Hi Hj. rewrite m_row_mk, m_col_mk by auto. cbn [bind]. apply v_dot_fs.
    - apply Forall_mk. intros i j Hi Hj. apply (fdot_upto (f i) (fun p => g p j)); auto; intros p Hp'.
      + apply (proj1 (Forall_mk _ _ _ _)) with (i := i) (j := p) in F; auto. lia.
      + apply (proj1 (Forall_mk _ _ _ _)) with (i := p) (j := j) in G; auto. lia.
  Qed.
  Theorem C110_matrix_vector_size : forall M N a b x y, rect M N x -> length y = N -> (0 < N)%nat -> (Z.of_nat N <= 2 ^ prec)%Z -> (emin <= a + b)%Z ->
    Forall (Forall (upto (powerRZ 2 a))) x -> Forall (upto (powerRZ 2 b)) y -> INR N * powerRZ 2 (a + b) < limit ->
    exists r, m_dot_v fo M N x y = Ok r /\ length r = M /\ Forall (upto (INR N * powerRZ 2 (a + b))) r.
  Proof.
    intros M N a b x y Rx Ly HN H E F G L. destruct (mk_ex fo Rx) as (f & ->), (vk_ex fo y Ly) as (g & ->). destruct N as [|k]; [lia|].
    exists (vk M (fun i => fs prec emax k (fun p => mul (f i p) (g p)))). split; [|split; [apply vk_length|]].
    - unfold m_dot_v. rewrite v_indices_seq. cbn [bind]. rewrite <- vk_seq. apply v_map_vk. intros i Hi. rewrite m_row_mk by auto. cbn [bind]. apply v_dot_fs.
    - apply Forall_vk. intros i Hi. apply (fdot_upto (f i) g); auto; intros p Hp'.
      + apply (proj1 (Forall_mk _ _ _ _)) with (i := i) (j := p) in F; auto. lia.
      + apply (proj1 (Forall_vk _ _ _)) with (i := p) in G; auto. lia.
  Qed.

  (** ** Complex numbers, quaternions, cross products *)
  Lemma prod1 : forall x y a b, upto (powerRZ 2 a) x -> upto (powerRZ 2 b) y -> (emin <= a + b)%Z -> powerRZ 2 (a + b) < limit -> upto (IZR 1 * powerRZ 2 (a + b)) (mul x y).
  Proof. intros x y a b X Y E L. apply (@mul_upto x y 1 1 a b); auto using upto_1; try lia. cbn. lra. Qed.
  Theorem C110_complex_mul_size : forall a b x y, (emin <= a + b)%Z -> c_all (upto (powerRZ 2 a)) x -> c_all (upto (powerRZ 2 b)) y -> 2 * powerRZ 2 (a + b) < limit ->
    exists r, c_mul fo x y = Ok r /\ c_all (upto (2 * powerRZ 2 (a + b))) r.
  Proof.
    intros a b [x1 x2] [y1 y2] E (X1 & X2) (Y1 & Y2) L. cbn [re im] in *. eexists. split; [reflexivity|].
    assert (K : (2 ^ 1 <= 2 ^ prec)%Z) by (apply Z.pow_le_mono_r; lia). pose proof (pw_pos (a + b)). split; cbn [re im]; [apply (@sub_upto _ _ 1 1)|apply (@add_upto _ _ 1 1)]; try lia; try (apply prod1; auto; lra); auto.
  Qed.
  Theorem C110_quaternion_mul_size : forall a b x y, (1 < prec)%Z -> (emin <= a + b)%Z -> q_all (upto (powerRZ 2 a)) x -> q_all (upto (powerRZ 2 b)) y -> 4 * powerRZ 2 (a + b) < limit ->
    exists r, q_mul fo x y = Ok r /\ q_all (upto (4 * powerRZ 2 (a + b))) r.
  Proof.
    intros a b [x1 x2 x3 x4] [y1 y2 y3 y4] Hp2 E (X1 & X2 & X3 & X4) (Y1 & Y2 & Y3 & Y4) L. cbn [qw qx qy qz] in *. eexists. split; [reflexivity|].
    pose proof (pw_pos (a + b)) as P. assert (L1 : powerRZ 2 (a + b) < limit) by lra. assert (L2 : 2 * powerRZ 2 (a + b) < limit) by lra. assert (L3 : 3 * powerRZ 2 (a + b) < limit) by lra.
    assert (K : (2 ^ 2 <= 2 ^ prec)%Z) by (apply Z.pow_le_mono_r; lia).
    split; [|split; [|split]]; cbn [qw qx qy qz];
      (first [apply (@sub_upto _ _ 3 1)|apply (@add_upto _ _ 3 1)]; [|apply prod1; assumption|lia|lia|lia|assumption|exact L]);
      (first [apply (@sub_upto _ _ 2 1)|apply (@add_upto _ _ 2 1)]; [|apply prod1; assumption|lia|lia|lia|assumption|exact L3]);
      (first [apply (@sub_upto _ _ 1 1)|apply (@add_upto _ _ 1 1)]; [apply prod1; assumption|apply prod1; assumption|lia|lia|lia|assumption|exact L2]).
  Qed.
  Theorem C110_cross3_size : forall a b x y, length x = 3%nat -> length y = 3%nat -> (emin <= a + b)%Z -> Forall (upto (powerRZ 2 a)) x -> Forall (upto (powerRZ 2 b)) y ->
    2 * powerRZ 2 (a + b) < limit -> exists r, v_cross3 fo x y = Ok r /\ length r = 3%nat /\ Forall (upto (2 * powerRZ 2 (a + b))) r.
  Proof.
    intros a b x y Lx Ly E F G L. destruct x as [|x1 [|x2 [|x3 [|]]]]; try discriminate. destruct y as [|y1 [|y2 [|y3 [|]]]]; try discriminate.
    apply Forall_cons_iff in F as (X1 & F). apply Forall_cons_iff in F as (X2 & F). apply Forall_cons_iff in F as (X3 & _).
    apply Forall_cons_iff in G as (Y1 & G). apply Forall_cons_iff in G as (Y2 & G). apply Forall_cons_iff in G as (Y3 & _).
    eexists. split; [reflexivity|]. split; [reflexivity|]. assert (K : (2 ^ 1 <= 2 ^ prec)%Z) by (apply Z.pow_le_mono_r; lia). pose proof (pw_pos (a + b)).
    repeat apply Forall_cons; try apply Forall_nil; apply (@sub_upto _ _ 1 1); try lia; try (apply prod1; auto; lra); auto.
  Qed.

  (** ** Determinants, cofactors and adjugates: N! 2^(N a) *)
  Definition fdet_size (n : nat) (a : Z) : R := INR (fact n) * powerRZ 2 (Z.of_nat n * a).
  Lemma fact_pos : forall n, (0 < Z.of_nat (fact n))%Z.
  Proof. intros n. pose proof (lt_O_fact n). lia. Qed.
  Lemma fdet_size_mono : forall n a, (0 <= a)%Z -> fdet_size n a <= fdet_size (S n) a.
  Proof.
    intros n a Ha. unfold fdet_size. apply Rmult_le_compat.
    - apply pos_INR.
    - left. apply pw_pos.
    - apply le_INR. apply fact_le. lia.
    - rewrite !pw. apply bpow_le. nia.
  Qed.
  Lemma fact_mono : forall n, (Z.of_nat (fact n) <= Z.of_nat (fact (S n)))%Z.
  Proof. intros n. assert (fact n <= fact (S n))%nat by (apply fact_le; lia). lia. Qed.
  Lemma rneg_upto : forall k c B, upto B c -> exists c1, rneg fo k c = Ok c1 /\ upto B c1.
  Proof. intros k c B H. unfold rneg. destruct (_ =? _)%nat; eauto. cbn [o_neg sf_ops ok1]. eexists. split; [reflexivity|]. apply opp_upto. auto. Qed.
  Lemma rdet_upto : forall N m a, rect N N m -> (0 <= a)%Z -> Forall (Forall (upto (powerRZ 2 a))) m ->
    forall rows cols, length rows = length cols -> (forall x, In x rows -> (x < N)%nat) -> (forall x, In x cols -> (x < N)%nat) ->
    (Z.of_nat (fact (length rows)) <= 2 ^ prec)%Z -> fdet_size (length rows) a < limit ->
    exists d, rdet fo m rows cols = Ok d /\ upto (fdet_size (length rows) a) d.
  Proof.
    intros N m a Rm Ha Fm. induction rows as [|i rows IH]; intros cols L Hr Hc Hf H.
    { exists (SFone prec emax). split; auto. destruct (one_den Hp He) as (V & F & E). split; [split; auto|]. rewrite E. unfold fdet_size. cbn. rewrite Rabs_R1. lra. }
    cbn [rdet]. cbn [length] in H, L, Hf |- *. pose proof (@fdet_size_mono (length rows) a Ha) as Mono. pose proof (fact_mono (length rows)) as FM.
    set (n := length rows) in *. pose proof (fact_pos n) as FP. pose proof (pw_pos (Z.of_nat (S n) * a)) as PP.
    assert (FS : Z.of_nat (fact (S n)) = (Z.of_nat (S n) * Z.of_nat (fact n))%Z) by (change (fact (S n)) with (S n * fact n)%nat; lia).
    assert (G : forall l acc j, (forall k, In k l -> (k < length cols)%nat) -> upto (IZR (Z.of_nat j * Z.of_nat (fact n)) * powerRZ 2 (Z.of_nat (S n) * a)) acc -> (j + length l <= S n)%nat ->
      exists d, fold_res (fun a k =>
          let! x := m_index m (i, nth k cols 0%nat) in
          let! c := rdet fo m rows (remove_at k cols) in
          let! c1 := rneg fo k c in
          let! p := o_mul fo x c1 in
          o_add fo a p) acc l = Ok d /\ upto (IZR (Z.of_nat (j + length l) * Z.of_nat (fact n)) * powerRZ 2 (Z.of_nat (S n) * a)) d).
    { induction l as [|k l IHl]; intros acc j Hl Hacc Hn. { exists acc. split; auto. cbn [length]. replace (j + 0)%nat with j by lia. auto. }
      cbn [fold_res]. assert (Hk : (k < length cols)%nat) by (apply Hl; left; auto).
      assert (Hk2 : (nth k cols 0 < N)%nat) by (apply Hc; apply nth_In; auto).
      destruct (m_index_spec i (nth k cols 0%nat) Rm) as (X & _).
      destruct X as (x & Ex1 & Ex & _); [split; [apply Hr; left; auto|auto]|]. rewrite Ex. cbn [bind].
      assert (Sx : upto (powerRZ 2 a) x).
      { unfold elt in Ex1. destruct (nth_error m i) as [r|] eqn:Er; [|discriminate]. cbn in Ex1.
        apply nth_error_In in Er, Ex1. rewrite Forall_forall in Fm. specialize (Fm r Er). rewrite Forall_forall in Fm. auto. }
      destruct (IH (remove_at k cols)) as (c & Ec & Sc); auto.
      { rewrite remove_at_length by auto. fold n. lia. } { intros. apply Hr. right. auto. }
      { intros y Hy. apply Hc. clear -Hy. revert k Hy. induction cols; intros [|k] Hy; simpl in *; auto. destruct Hy; auto. right. eapply IHcols. eauto. }
      { lia. } { lra. }
      rewrite Ec. cbn [bind]. destruct (@rneg_upto k c _ Sc) as (c1 & E1 & S1). rewrite E1. cbn [bind o_mul o_add sf_ops ok2].
      assert (Below : forall q, (0 <= q <= Z.of_nat (S n))%Z -> IZR (q * Z.of_nat (fact n)) * powerRZ 2 (Z.of_nat (S n) * a) < limit).
      { intros q Hq. eapply Rle_lt_trans; [|exact H]. unfold fdet_size. rewrite INR_IZR_INZ, FS. apply Rmult_le_compat_r; [lra|]. apply IZR_le. nia. }
      assert (P : upto (IZR (1 * Z.of_nat (fact n)) * powerRZ 2 (Z.of_nat (S n) * a)) (mul x c1)).
      { replace (Z.of_nat (S n) * a)%Z with (a + Z.of_nat n * a)%Z by lia. apply mul_upto; try lia; try nia.
        - apply upto_1. auto.
        - unfold fdet_size in S1. rewrite INR_IZR_INZ in S1. exact S1.
        - replace (a + Z.of_nat n * a)%Z with (Z.of_nat (S n) * a)%Z by lia. apply Below. lia. }
      cbn [length] in Hn.
      assert (A1 : upto (IZR (Z.of_nat (S j) * Z.of_nat (fact n)) * powerRZ 2 (Z.of_nat (S n) * a)) (add acc (mul x c1))).
      { replace (Z.of_nat (S j) * Z.of_nat (fact n))%Z with (Z.of_nat j * Z.of_nat (fact n) + 1 * Z.of_nat (fact n))%Z by lia. apply add_upto; auto; try lia; try nia.
        replace (Z.of_nat j * Z.of_nat (fact n) + 1 * Z.of_nat (fact n))%Z with (Z.of_nat (S j) * Z.of_nat (fact n))%Z by lia. apply Below. lia. }
      destruct (IHl _ (S j) ltac:(intros; apply Hl; right; auto) A1 ltac:(lia)) as (d & Ed & Sd).
      exists d. split; auto. cbn [length]. replace (j + S (length l))%nat with (S j + length l)%nat by lia. auto. }
    destruct (G (seq 0 (length cols)) (S754_zero false) 0%nat) as (d & Ed & Sd).
    - intros k Hk. apply in_seq in Hk. lia.
    - split; [split; auto|]. cbn. rewrite Rabs_R0. lra.
    - rewrite seq_length. lia.
    - exists d. split; auto. rewrite seq_length in Sd. unfold fdet_size. rewrite INR_IZR_INZ, FS. replace (0 + length cols)%nat with (S n) in Sd by lia. exact Sd.
  Qed.
  Theorem C110_det_size : forall N m a, rect N N m -> (0 <= a)%Z -> Forall (Forall (upto (powerRZ 2 a))) m -> (Z.of_nat (fact N) <= 2 ^ prec)%Z ->
    INR (fact N) * powerRZ 2 (Z.of_nat N * a) < limit -> exists d, m_det fo N m = Ok d /\ upto (INR (fact N) * powerRZ 2 (Z.of_nat N * a)) d.
  Proof.
    intros N m a Rm Ha Fm Hf H. rewrite m_det_spec. destruct (@rdet_upto N m a Rm Ha Fm (seq 0 N) (seq 0 N)) as (d & Ed & Sd); auto.
    1,2: intros x Hx; apply in_seq in Hx; lia.
    1,2: rewrite seq_length; auto.
    rewrite seq_length in Sd. exists d. auto.
  Qed.
  Theorem C110_adj_size : forall n m a, rect (S n) (S n) m -> (0 <= a)%Z -> Forall (Forall (upto (powerRZ 2 a))) m -> (Z.of_nat (fact n) <= 2 ^ prec)%Z ->
    INR (fact n) * powerRZ 2 (Z.of_nat n * a) < limit ->
    exists r, m_adj fo (S n) m = Ok r /\ rect (S n) (S n) r /\ Forall (Forall (upto (INR (fact n) * powerRZ 2 (Z.of_nat n * a)))) r.
  Proof.
    intros n m a Rm Ha Fm Hf H.
    assert (C : forall i j, (i < S n)%nat -> (j < S n)%nat -> exists c, m_cofactor fo (S n) m i j = Ok c /\ upto (fdet_size n a) c).
    { intros i j Hi Hj. rewrite m_cofactor_spec by auto.
      assert (Q : forall k x, (k < S n)%nat -> In x (remove_at k (seq 0 (S n))) -> (x < S n)%nat).
      { intros k x Hk Hx. rewrite remove_at_seq in Hx by auto. apply in_map_iff in Hx as (y & <- & Hy). apply in_seq in Hy. unfold skip. destruct (y <? k)%nat; lia. }
      assert (LR : forall k, (k < S n)%nat -> length (remove_at k (seq 0 (S n))) = n).
      { intros k Hk. rewrite remove_at_length by (rewrite seq_length; auto). rewrite seq_length. lia. }
      destruct (@rdet_upto (S n) m a Rm Ha Fm (remove_at i (seq 0 (S n))) (remove_at j (seq 0 (S n)))) as (d & Ed & Sd); rewrite ?LR in *; auto; try (intros x; apply Q; auto).
      rewrite Ed. cbn [bind]. apply rneg_upto; auto. }
    set (c := fun i j => match m_cofactor fo (S n) m j i with Ok x => x | _ => S754_nan end).
    exists (mk (S n) (S n) c). split; [|split; [apply rect_mk|]].
    - unfold m_adj. rewrite m_indices_mk. cbn [bind]. apply m_map_mk. intros i j Hi Hj. unfold c. destruct (C j i Hj Hi) as (x & -> & _). reflexivity.
    - apply Forall_mk. intros i j Hi Hj. unfold c. destruct (C j i Hj Hi) as (x & -> & S). exact S.
  Qed.
End FSize.

(** f64: determinants are finite if N <= 18 and the elements are at most 2^a with 53 + N a < 1024: for N = 4 up to 2^242, for N = 18 up to 2^53. *)
Lemma factZ : forall n, Z.of_nat (fact (S n)) = (Z.of_nat (S n) * Z.of_nat (fact n))%Z.
Proof. intros n. change (fact (S n)) with (S n * fact n)%nat. apply Nat2Z.inj_mul. Qed.
Lemma fact18 : (Z.of_nat (fact 18) <= 2 ^ 53)%Z.
Proof. rewrite !factZ. change (fact 0) with 1%nat. vm_compute. discriminate. Qed.
Example C110_ex_f64 : forall rem N m a, (N <= 18)%nat -> (0 <= a)%Z -> (53 + Z.of_nat N * a < 1024)%Z ->
  rect N N m -> Forall (Forall (upto 53 1024 (powerRZ 2 a))) m -> exists d, m_det (sf_ops 53 1024 rem) N m = Ok d /\ number_of 53 1024 d.
Proof.
  intros rem N m a HN Ha H R F. assert (P : (0 < 53)%Z) by lia. assert (E : (53 < 1024)%Z) by lia.
  assert (K : (Z.of_nat (fact N) <= 2 ^ 53)%Z).
  { apply Z.le_trans with (Z.of_nat (fact 18)); [|exact fact18]. apply inj_le. apply fact_le. exact HN. }
  destruct (@C110_det_size 53 1024 rem P E N m a R Ha F K) as (d & D & Nd & _); [|eauto].
  rewrite INR_IZR_INZ, !pw. apply Rle_lt_trans with (bpow radix2 53 * bpow radix2 (Z.of_nat N * a)).
  - apply Rmult_le_compat_r; [apply bpow_ge_0|]. rewrite <- (IZR_Zpower radix2 53) by lia. apply IZR_le. exact K.
  - rewrite <- bpow_plus. apply bpow_lt. lia.
Qed.
(** Ranges computed by the library itself, and what is rejected: [-2, 3] * [3, 5] + [5, 7] * [3, 3] is in [5, 36]; a divisor that may be zero; an overflow. *)
Example C110_ex_ranges :
  v_dot (frange_ops 53 1024) 2 [(f64_m2, f64_3); (f64_5, f64_7)] [(f64_3, f64_5); (f64_3, f64_3)] = Ok (f64_5, SFmul 53 1024 (SFadd 53 1024 f64_7 f64_5) f64_3) /\
  v_div (frange_ops 53 1024) 1 [(f64_3, f64_5)] [(f64_m2, f64_3)] = Panic /\
  v_mul (frange_ops 53 1024) 1 [(f64_3, S754_finite false (2 ^ 52) 900)] [(f64_m2, S754_finite false (2 ^ 52) 900)] = Panic.
Proof. vm_compute. repeat split; reflexivity. Qed.
Example C110_ex_use : forall rem x, number_of 53 1024 x -> -2 <= value x <= 3 ->
  exists s, v_dot (sf_ops 53 1024 rem) 2 [x; f64_5] [f64_3; f64_3] = Ok s /\ fin 53 1024 (f64_5, SFmul 53 1024 (SFadd 53 1024 f64_7 f64_5) f64_3) s.
Proof.
  intros rem x N H. destruct int_3_5_7 as ((V3 & F3 & E3) & (V5 & F5 & E5) & (V7 & F7 & E7) & (V2 & F2 & E2)).
  apply (@C110_v_dot 53 1024 rem ltac:(lia) ltac:(lia) 2 [(f64_m2, f64_3); (f64_5, f64_7)] [(f64_3, f64_5); (f64_3, f64_3)]); auto.
  - unfold v_fin. apply Forall2_cons; [|apply Forall2_cons; [|apply Forall2_nil]]; unfold fin; cbn [fst snd]; (split; [split; assumption|split; [split; assumption|split; [apply N || (split; assumption)|]]]); rewrite ?E2, ?E3, ?E5, ?E7; lra.
  - unfold v_fin. apply Forall2_cons; [|apply Forall2_cons; [|apply Forall2_nil]]; unfold fin; cbn [fst snd]; (split; [split; assumption|split; [split; assumption|split; [split; assumption|]]]); rewrite ?E3, ?E5; lra.
Qed.

Print Assumptions C110_v_add.
Print Assumptions C110_v_sub.
Print Assumptions C110_v_mul.
Print Assumptions C110_v_neg.
Print Assumptions C110_v_smul.
Print Assumptions C110_v_sum.
Print Assumptions C110_v_dot.
Print Assumptions C110_v_square_length.
Print Assumptions C110_v_cross2.
Print Assumptions C110_v_cross3.
Print Assumptions C110_v_cross4.
Print Assumptions C110_v_div.
Print Assumptions C110_v_sdiv.
Print Assumptions C110_m_add.
Print Assumptions C110_m_sub.
Print Assumptions C110_m_mul.
Print Assumptions C110_m_neg.
Print Assumptions C110_m_smul.
Print Assumptions C110_m_sum.
Print Assumptions C110_m_div.
Print Assumptions C110_m_sdiv.
Print Assumptions C110_m_dot.
Print Assumptions C110_m_dot_v.
Print Assumptions C110_v_dot_m.
Print Assumptions C110_m_outer.
Print Assumptions C110_m_det.
Print Assumptions C110_m_cofactor.
Print Assumptions C110_m_adj.
Print Assumptions C110_m_inv.
Print Assumptions C110_c_add.
Print Assumptions C110_c_sub.
Print Assumptions C110_c_mul.
Print Assumptions C110_c_neg.
Print Assumptions C110_c_conj.
Print Assumptions C110_c_mul_s.
Print Assumptions C110_c_norm_sqr.
Print Assumptions C110_c_dot.
Print Assumptions C110_c_inv.
Print Assumptions C110_c_div.
Print Assumptions C110_q_add.
Print Assumptions C110_q_sub.
Print Assumptions C110_q_mul.
Print Assumptions C110_q_neg.
Print Assumptions C110_q_conj.
Print Assumptions C110_q_mul_s.
Print Assumptions C110_q_mul_c.
Print Assumptions C110_c_mul_q.
Print Assumptions C110_q_norm_sqr.
Print Assumptions C110_q_dot.
Print Assumptions C110_q_inv.
Print Assumptions C110_q_div.
Print Assumptions C110_rot2_apply.
Print Assumptions C110_rot3_apply.
Print Assumptions C110_mo_apply_self.
Print Assumptions C110_sum_size.
Print Assumptions C110_dot_size.
Print Assumptions C110_square_length_size.
Print Assumptions C110_length_size.
Print Assumptions C110_product_size.
Print Assumptions C110_matrix_vector_size.
Print Assumptions C110_complex_mul_size.
Print Assumptions C110_quaternion_mul_size.
Print Assumptions C110_cross3_size.
Print Assumptions C110_det_size.
Print Assumptions C110_adj_size.
