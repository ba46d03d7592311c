(** C122: going back and forth in floating point: the first trip may change a number, the next ones do not, except when scaling
    back is done by the rounded reciprocal. *)
From Coq Require Import ZArith Reals Lra Lia Psatz SpecFloat List.
From Flocq Require Import Core BinarySingleNaN Plus_error.
From Verif Require Import SpecFacts VFacts VecProofs MFacts MatProofs AlgFacts ComplexModel TransformModel RealInst FloatInst SpecRound FlocqFacts PropFloat PropRound PropDetErr SpecFRange PropFRange SpecBackward PropBackward SpecDrift DriftFacts.
Import ListNotations.
Set Implicit Arguments.
Local Open Scope list_scope.
Local Open Scope R_scope.

Section Dr.
  Context (prec emax : Z) (rem : spec_float -> spec_float -> spec_float) (Hp : (1 < prec)%Z) (He : (prec < emax)%Z).
  Local Notation fo := (sf_ops prec emax rem).
  Local Notation valid x := (valid_binary prec emax x = true).
  Local Notation add := (SFadd prec emax).
  Local Notation sub := (SFsub prec emax).
  Local Notation mul := (SFmul prec emax).
  Local Notation div := (SFdiv prec emax).
  Local Notation fexp := (SpecFloat.fexp prec emax).
  Local Notation RN := (round radix2 fexp ZnearestE).
  Local Lemma Hp0 : (0 < prec)%Z. Proof. lia. Qed.
  Local Instance prec1 : Prec_gt_0 prec. Proof. red. lia. Qed.
  Local Instance vexp1 : Valid_exp fexp. Proof. apply (@fexp_correct prec emax Hp0). Qed.
  Local Instance mexp1 : Monotone_exp fexp. Proof. apply (@DriftFacts.mexp (SpecFloat.emin prec emax) prec). Qed.

  Definition sg (x : spec_float) : bool := match x with S754_zero s | S754_finite s _ _ | S754_infinity s => s | S754_nan => false end.
  Lemma sg_B : forall a : binary_float prec emax, sg (B2SF a) = Bsign a. Proof. intros [| | |]; reflexivity. Qed.
  Lemma fin_nan : forall a : binary_float prec emax, is_finite a = true -> BinarySingleNaN.is_nan a = false. Proof. intros [| | |]; auto. Qed.
  (* equal numbers with equal signs are equal *)
  Lemma value_sg_inj : forall x y, valid x -> valid y -> finite x = true -> finite y = true -> value x = value y -> sg x = sg y -> x = y.
  Proof.
    intros x y V1 V2. destruct (lift _ _ _ V1) as (a & <-), (lift _ _ _ V2) as (b & <-). rewrite !finite_B, !value_B, !sg_B. intros. f_equal. apply B2R_Bsign_inj; auto.
  Qed.
  Lemma sg_pos : forall x, 0 < value x -> sg x = false.
  Proof. intros [s|s| |s m e] H; cbn in *; try lra. destruct s; auto. pose proof (powerRZ_lt 2 e ltac:(lra)). assert (0 < IZR (Z.pos m)) by (apply IZR_lt; lia). nra. Qed.
  Lemma sg_neg : forall x, value x < 0 -> sg x = true.
  Proof. intros [s|s| |s m e] H; cbn in *; try lra. destruct s; auto. pose proof (powerRZ_lt 2 e ltac:(lra)). assert (0 < IZR (Z.pos m)) by (apply IZR_lt; lia). nra. Qed.
  Lemma value_inj : forall x y, valid x -> valid y -> finite x = true -> finite y = true -> value x = value y -> (value x = 0 -> sg x = sg y) -> x = y.
  Proof.
    intros x y V1 V2 F1 F2 E H. apply value_sg_inj; auto. destruct (total_order_T (value x) 0) as [[L|L]|L]; auto.
    - rewrite !sg_neg; auto. lra.
    - rewrite !sg_pos; auto. lra.
  Qed.
  Lemma RN0 : forall a b, generic_format radix2 fexp a -> generic_format radix2 fexp b -> RN (a + b) = 0 -> a + b = 0.
  Proof. intros a b A B H. destruct (Req_dec (a + b) 0) as [|N]; auto. exfalso. revert H. apply round_plus_neq_0; auto; try typeclasses eauto. Qed.
  Lemma RN0m : forall a b, generic_format radix2 fexp a -> generic_format radix2 fexp b -> RN (a - b) = 0 -> a - b = 0.
  Proof. intros a b A B H. apply (@RN0 a (- b)); auto. apply generic_format_opp. auto. Qed.
  (* the sign of a sum or difference that is zero *)
  Lemma add_sg0 : forall x y, valid x -> valid y -> finite (add x y) = true -> value (add x y) = 0 -> sg (add x y) = (sg x && sg y)%bool.
  Proof.
    intros x y V1 V2 F Z. pose proof (add_round Hp0 He x y V1 V2 F) as R. rewrite Z in R. symmetry in R. apply RN0 in R; [|apply fmt; auto using Hp0|apply fmt; auto using Hp0].
    destruct (add_fin _ _ _ _ F) as (F1 & F2). clear Z. revert R F F1 F2. destruct (lift _ _ _ V1) as (a & <-), (lift _ _ _ V2) as (b & <-). rewrite (@add_B prec emax Hp0 He), !finite_B, !value_B, !sg_B. intros R F F1 F2.
    pose proof (Bplus_correct prec emax Hp0 He mode_NE a b F1 F2) as H. destruct (Rlt_bool _ _); [|exfalso; rewrite <- finite_B, (proj1 H) in F; apply over_inf in F; discriminate].
    destruct H as (_ & _ & ->). rewrite R, Rcompare_Eq by auto. reflexivity.
  Qed.
  Lemma sub_sg0 : forall x y, valid x -> valid y -> finite (sub x y) = true -> value (sub x y) = 0 -> sg (sub x y) = (sg x && negb (sg y))%bool.
  Proof.
    intros x y V1 V2 F Z. pose proof (sub_round Hp0 He x y V1 V2 F) as R. rewrite Z in R. symmetry in R. apply RN0m in R; [|apply fmt; auto using Hp0|apply fmt; auto using Hp0].
    destruct (sub_fin _ _ _ _ F) as (F1 & F2). clear Z. revert R F F1 F2. destruct (lift _ _ _ V1) as (a & <-), (lift _ _ _ V2) as (b & <-). rewrite (@sub_B prec emax Hp0 He), !finite_B, !value_B, !sg_B. intros R F F1 F2.
    pose proof (Bminus_correct prec emax Hp0 He mode_NE a b F1 F2) as H. destruct (Rlt_bool _ _); [|exfalso; rewrite <- finite_B, (proj1 H) in F; apply over_inf in F; discriminate].
    destruct H as (_ & _ & ->). rewrite R, Rcompare_Eq by auto. reflexivity.
  Qed.
  Lemma mul_sg : forall x y, valid x -> valid y -> finite (mul x y) = true -> sg (mul x y) = xorb (sg x) (sg y).
  Proof.
    intros x y V1 V2. destruct (lift _ _ _ V1) as (a & <-), (lift _ _ _ V2) as (b & <-). rewrite (@mul_B prec emax Hp0 He), finite_B, !sg_B. intros F.
    pose proof (Bmult_correct prec emax Hp0 He mode_NE a b) as H. destruct (Rlt_bool _ _); [|exfalso; rewrite <- finite_B, H in F; apply over_inf in F; discriminate].
    destruct H as (_ & _ & ->); auto. apply fin_nan. auto.
  Qed.
  Lemma div_sg : forall x y, valid x -> valid y -> value y <> 0 -> finite (div x y) = true -> sg (div x y) = xorb (sg x) (sg y).
  Proof.
    intros x y V1 V2. destruct (lift _ _ _ V1) as (a & <-), (lift _ _ _ V2) as (b & <-). rewrite (@div_B prec emax Hp0 He), finite_B, !sg_B, value_B. intros N F.
    pose proof (Bdiv_correct prec emax Hp0 He mode_NE a b N) as H. destruct (Rlt_bool _ _); [|exfalso; rewrite <- finite_B, H in F; apply over_inf in F; discriminate].
    destruct H as (_ & _ & ->); auto. apply fin_nan. auto.
  Qed.

  (** * One number *)
  Lemma trip_add_zero : forall x v, valid x -> valid v -> let y := sub (add x v) v in finite y = true -> value y = 0 -> sg y = false.
  Proof.
    intros x v Vx Vv y F Z. unfold y in *. destruct (sub_fin _ _ _ _ F) as (F1 & F2). pose proof (add_valid Hp0 He x v Vx Vv) as Vz. rewrite sub_sg0 by auto. destruct (sg v) eqn:Sv; [apply Bool.andb_false_r|]. rewrite Bool.andb_true_r.
    pose proof (sub_round Hp0 He _ _ Vz Vv F) as R. rewrite Z in R. symmetry in R. apply RN0m in R; try (apply fmt; auto using Hp0).
    destruct (total_order_T (value v) 0) as [[L|L]|L].
    - apply sg_neg in L. congruence.
    - rewrite add_sg0; auto; [rewrite Sv; apply Bool.andb_false_r|lra].
    - apply sg_pos. lra.
  Qed.
  Lemma add_trip : forall x v, valid x -> valid v -> let y := sub (add x v) v in let y' := sub (add y v) v in finite y' = true -> y' = y.
  Proof.
    intros x v Vx Vv y y' F'. unfold y' in F'. destruct (sub_fin _ _ _ _ F') as (F1' & Fv). destruct (add_fin _ _ _ _ F1') as (F & _). fold y' in F'. fold y in F. unfold y in F. destruct (sub_fin _ _ _ _ F) as (F1 & _). fold y in F.
    pose proof (add_valid Hp0 He x v Vx Vv) as Vz. pose proof (sub_valid Hp0 He _ v Vz Vv) as Vy. fold y in Vy. pose proof (add_valid Hp0 He y v Vy Vv) as Vz'. pose proof (sub_valid Hp0 He _ v Vz' Vv) as Vy'. fold y' in Vy'.
    assert (E : value y' = value y).
    { pose proof (@add_drift (SpecFloat.emin prec emax) prec Hp (value x) (value v) (@fmt prec emax x Vx)) as D. cbn zeta in D. change (FLT_exp (SpecFloat.emin prec emax) prec) with fexp in D.
      assert (Ey : value y = RN (RN (value x + value v) - value v)) by (unfold y; rewrite (sub_round Hp0 He) by auto; rewrite (add_round Hp0 He) by auto; reflexivity).
      rewrite <- Ey in D. unfold y'. rewrite (sub_round Hp0 He) by auto. rewrite (add_round Hp0 He) by auto. exact D. }
    apply value_inj; auto. intros Z. transitivity false; [|symmetry].
    - apply (@trip_add_zero y v Vy Vv F' Z).
    - apply (@trip_add_zero x v Vx Vv F). fold y. lra.
  Qed.
  Lemma sub_add_opp : forall x v, sub x (SFopp v) = add x v.
  Proof. intros. rewrite SFsub_opp, SFopp_opp. reflexivity. Qed.
  Lemma sub_trip : forall x v, valid x -> valid v -> let y := add (sub x v) v in let y' := add (sub y v) v in finite y' = true -> y' = y.
  Proof.
    intros x v Vx Vv. pose proof (@add_trip x (SFopp v) Vx ltac:(apply opp_valid; auto)) as H. cbn zeta in *. rewrite !sub_add_opp, <- !SFsub_opp in H. exact H.
  Qed.
  (* a divisor of a finite quotient whose own multiple is finite is a nonzero number *)
  Lemma div_nz : forall z k, valid z -> valid k -> finite z = true -> finite k = true -> finite (div z k) = true -> value k <> 0.
  Proof.
    intros z k Vz Vk Fz Fk F N. destruct k as [s|s| |s m e]; try discriminate.
    - destruct z as [s'|s'| |s' m e]; discriminate.
    - cbn in N. pose proof (powerRZ_lt 2 e ltac:(lra)). assert (0 < IZR (Z.pos m)) by (apply IZR_lt; lia). destruct s; nra.
  Qed.
  Lemma div_finl : forall z k, finite (div z k) = true -> finite z = true.
  Proof. intros [| | |] [| | |]; cbn; auto; try discriminate. Qed.
  Lemma div_fin_mul : forall x k, finite (mul (div x k) k) = true -> finite x = true /\ finite k = true /\ (valid k -> value k <> 0).
  Proof.
    intros x k F. destruct (mul_fin _ _ _ _ F) as (F1 & F2). assert (Fx : finite x = true) by (apply (div_finl x k F1)). split; auto. split; auto. intros Vk N.
    destruct k as [s|s| |s m e]; try discriminate.
    - destruct x as [s'|s'| |s' m e]; discriminate.
    - cbn in N. pose proof (powerRZ_lt 2 e ltac:(lra)). assert (0 < IZR (Z.pos m)) by (apply IZR_lt; lia). destruct s; nra.
  Qed.
  Lemma mul_trip : forall x k, valid x -> valid k -> let y := div (mul x k) k in let y' := div (mul y k) k in finite y' = true -> y' = y.
  Proof.
    intros x k Vx Vk y y' F'. pose proof (div_finl _ _ F') as F1'. destruct (mul_fin _ _ _ _ F1') as (F & Fk). pose proof (div_finl _ _ F) as F1.
    pose proof (mul_valid Hp0 He x k Vx Vk) as Vz. pose proof (div_valid Hp0 He _ k Vz Vk) as Vy. fold y in Vy. pose proof (mul_valid Hp0 He y k Vy Vk) as Vz'. pose proof (div_valid Hp0 He _ k Vz' Vk) as Vy'. fold y' in Vy'.
    pose proof (@div_nz _ _ Vz Vk F1 Fk F) as N.
    assert (E : value y' = value y).
    { pose proof (@mul_drift (SpecFloat.emin prec emax) prec Hp (value x) (value k) (value k) (@fmt prec emax x Vx) N (@fmt prec emax k Vk) (or_introl eq_refl)) as D. cbn zeta in D. change (FLT_exp (SpecFloat.emin prec emax) prec) with fexp in D. rewrite !(Rmult_comm (value k)) in D.
      assert (Ey : value y = RN (RN (value x * value k) / value k)) by (unfold y; rewrite (div_round Hp0 He) by auto; rewrite (mul_round Hp0 He) by auto; reflexivity).
      rewrite <- Ey in D. unfold y'. rewrite (div_round Hp0 He) by auto. rewrite (mul_round Hp0 He) by auto. exact D. }
    apply value_inj; auto. intros _. unfold y' at 1. rewrite div_sg by auto. rewrite mul_sg by auto. destruct (sg y), (sg k); reflexivity.
  Qed.
  Lemma div_trip : forall x k, valid x -> valid k -> let y := mul (div x k) k in let y' := mul (div y k) k in finite y' = true -> y' = y.
  Proof.
    intros x k Vx Vk y y' F'. destruct (div_fin_mul _ _ F') as (F & Fk & N). specialize (N Vk). destruct (div_fin_mul _ _ F) as (Fx & _). destruct (mul_fin _ _ _ _ F) as (F1 & _). destruct (mul_fin _ _ _ _ F') as (F1' & _).
    pose proof (div_valid Hp0 He x k Vx Vk) as Vz. pose proof (mul_valid Hp0 He _ k Vz Vk) as Vy. fold y in Vy. pose proof (div_valid Hp0 He y k Vy Vk) as Vz'. pose proof (mul_valid Hp0 He _ k Vz' Vk) as Vy'. fold y' in Vy'.
    assert (E : value y' = value y).
    { assert (Ni : / value k <> 0) by (apply Rinv_neq_0_compat; auto).
      pose proof (@mul_drift (SpecFloat.emin prec emax) prec Hp (value x) (/ value k) (value k) (@fmt prec emax x Vx) Ni (@fmt prec emax k Vk) (or_intror eq_refl)) as D. cbn zeta in D. change (FLT_exp (SpecFloat.emin prec emax) prec) with fexp in D.
      assert (Q : forall a, a / / value k = a * value k) by (intros; field; auto). rewrite !Q in D. rewrite !(Rmult_comm (/ value k)) in D.
      assert (Ey : value y = RN (RN (value x / value k) * value k)) by (unfold y; rewrite (mul_round Hp0 He) by auto; rewrite (div_round Hp0 He) by auto; reflexivity).
      unfold Rdiv in Ey. rewrite <- Ey in D. unfold y'. rewrite (mul_round Hp0 He) by auto. rewrite (div_round Hp0 He) by auto. exact D. }
    apply value_inj; auto. intros _. unfold y' at 1. rewrite mul_sg by auto. rewrite div_sg by auto. destruct (sg y), (sg k); reflexivity.
  Qed.

  (** * Vectors *)
  Local Notation v_valid v := (Forall (fun a => valid a) v).
  Local Notation m_valid m := (Forall (Forall (fun a => valid a)) m).
  Lemma fv_add : forall N f g, v_add fo N (vk N f) (vk N g) = Ok (vk N (fun i => add (f i) (g i))). Proof. intros. apply v_zip_map_vk. reflexivity. Qed.
  Lemma fv_sub : forall N f g, v_sub fo N (vk N f) (vk N g) = Ok (vk N (fun i => sub (f i) (g i))). Proof. intros. apply v_zip_map_vk. reflexivity. Qed.
  Lemma fv_mul : forall N f g, v_mul fo N (vk N f) (vk N g) = Ok (vk N (fun i => mul (f i) (g i))). Proof. intros. apply v_zip_map_vk. reflexivity. Qed.
  Lemma fv_div : forall N f g, v_div fo N (vk N f) (vk N g) = Ok (vk N (fun i => div (f i) (g i))). Proof. intros. apply v_zip_map_vk. reflexivity. Qed.
  Lemma fv_smul : forall N f a, v_smul fo (vk N f) a = Ok (vk N (fun i => mul (f i) a)). Proof. intros. apply (@v_map_vk _ _ (fun x => Ok (mul x a))). reflexivity. Qed.
  Lemma fv_sdiv : forall N f a, v_sdiv fo (vk N f) a = Ok (vk N (fun i => div (f i) a)). Proof. intros. apply (@v_map_vk _ _ (fun x => Ok (div x a))). reflexivity. Qed.
  Lemma fv_neg : forall N f, v_neg fo (vk N f) = Ok (vk N (fun i => SFopp (f i))). Proof. intros. apply (@v_map_vk _ _ (fun x => Ok (SFopp x))). reflexivity. Qed.
  Lemma fm_add : forall M N f g, m_add fo M N (mk M N f) (mk M N g) = Ok (mk M N (fun i j => add (f i j) (g i j))). Proof. intros. apply m_zip_map_mk. reflexivity. Qed.
  Lemma fm_sub : forall M N f g, m_sub fo M N (mk M N f) (mk M N g) = Ok (mk M N (fun i j => sub (f i j) (g i j))). Proof. intros. apply m_zip_map_mk. reflexivity. Qed.
  Lemma fm_smul : forall M N f a, m_smul fo (mk M N f) a = Ok (mk M N (fun i j => mul (f i j) a)). Proof. intros. apply (@m_map_mk _ _ (fun x => Ok (mul x a))). reflexivity. Qed.
  Lemma fm_sdiv : forall M N f a, m_sdiv fo (mk M N f) a = Ok (mk M N (fun i j => div (f i j) a)). Proof. intros. apply (@m_map_mk _ _ (fun x => Ok (div x a))). reflexivity. Qed.
  Lemma stay_v : forall N g h y', (forall i, (i < N)%nat -> finite (g i) = true -> g i = h i) -> Ok (vk N g) = Ok y' -> v_finite y' -> y' = vk N h.
  Proof. intros N g h y' H E F. apply Ok_inj in E. subst y'. unfold v_finite in F. rewrite Forall_vk in F. apply vk_ext. intros i Hi. auto. Qed.
  Lemma once : forall A (trip : A -> res A) x y y', trip x = Ok y -> trip y = Ok y' -> y' = y -> forall n, again trip (S n) x = Ok y.
  Proof.
    intros A trip x y y' E1 E2 -> n. cbn [again]. rewrite E1. cbn [bind]. induction n as [|n IH]; cbn [again]; auto. rewrite E2. cbn [bind]. exact IH.
  Qed.
  (** Adding a vector and subtracting it again *)
  Theorem C122_add_sub : forall N x v y y', length x = N -> length v = N -> v_valid x -> v_valid v ->
    let trip := fun w => let! z := v_add fo N w v in v_sub fo N z v in trip x = Ok y -> trip y = Ok y' -> v_finite y' -> forall n, again trip (S n) x = Ok y.
  Proof.
    intros N x v y y' Lx Lv Vx Vv trip E1 E2 Fy. apply (once trip x E1 E2). unfold trip in *. destruct (@vk_ex _ fo N x Lx) as (f & ->). destruct (@vk_ex _ fo N v Lv) as (g & ->). rewrite Forall_vk in Vv.
    rewrite Forall_vk in Vx. rewrite fv_add in E1. cbn [bind] in E1. rewrite fv_sub in E1. apply Ok_inj in E1. subst y. rewrite fv_add in E2. cbn [bind] in E2. rewrite fv_sub in E2.
    apply (@stay_v N _ _ y' (fun i Hi => @add_trip (f i) (g i) (Vx i Hi) (Vv i Hi)) E2 Fy).
  Qed.
  (** Subtracting it and adding it back *)
  Theorem C122_sub_add : forall N x v y y', length x = N -> length v = N -> v_valid x -> v_valid v ->
    let trip := fun w => let! z := v_sub fo N w v in v_add fo N z v in trip x = Ok y -> trip y = Ok y' -> v_finite y' -> forall n, again trip (S n) x = Ok y.
  Proof.
    intros N x v y y' Lx Lv Vx Vv trip E1 E2 Fy. apply (once trip x E1 E2). unfold trip in *. destruct (@vk_ex _ fo N x Lx) as (f & ->). destruct (@vk_ex _ fo N v Lv) as (g & ->). rewrite Forall_vk in Vv.
    rewrite Forall_vk in Vx. rewrite fv_sub in E1. cbn [bind] in E1. rewrite fv_add in E1. apply Ok_inj in E1. subst y. rewrite fv_sub in E2. cbn [bind] in E2. rewrite fv_add in E2.
    apply (@stay_v N _ _ y' (fun i Hi => @sub_trip (f i) (g i) (Vx i Hi) (Vv i Hi)) E2 Fy).
  Qed.
  (** Componentwise product, then quotient *)
  Theorem C122_mul_div : forall N x v y y', length x = N -> length v = N -> v_valid x -> v_valid v ->
    let trip := fun w => let! z := v_mul fo N w v in v_div fo N z v in trip x = Ok y -> trip y = Ok y' -> v_finite y' -> forall n, again trip (S n) x = Ok y.
  Proof.
    intros N x v y y' Lx Lv Vx Vv trip E1 E2 Fy. apply (once trip x E1 E2). unfold trip in *. destruct (@vk_ex _ fo N x Lx) as (f & ->). destruct (@vk_ex _ fo N v Lv) as (g & ->). rewrite Forall_vk in Vv.
    rewrite Forall_vk in Vx. rewrite fv_mul in E1. cbn [bind] in E1. rewrite fv_div in E1. apply Ok_inj in E1. subst y. rewrite fv_mul in E2. cbn [bind] in E2. rewrite fv_div in E2.
    apply (@stay_v N _ _ y' (fun i Hi => @mul_trip (f i) (g i) (Vx i Hi) (Vv i Hi)) E2 Fy).
  Qed.
  (** Componentwise quotient, then product *)
  Theorem C122_div_mul : forall N x v y y', length x = N -> length v = N -> v_valid x -> v_valid v ->
    let trip := fun w => let! z := v_div fo N w v in v_mul fo N z v in trip x = Ok y -> trip y = Ok y' -> v_finite y' -> forall n, again trip (S n) x = Ok y.
  Proof.
    intros N x v y y' Lx Lv Vx Vv trip E1 E2 Fy. apply (once trip x E1 E2). unfold trip in *. destruct (@vk_ex _ fo N x Lx) as (f & ->). destruct (@vk_ex _ fo N v Lv) as (g & ->). rewrite Forall_vk in Vv.
    rewrite Forall_vk in Vx. rewrite fv_div in E1. cbn [bind] in E1. rewrite fv_mul in E1. apply Ok_inj in E1. subst y. rewrite fv_div in E2. cbn [bind] in E2. rewrite fv_mul in E2.
    apply (@stay_v N _ _ y' (fun i Hi => @div_trip (f i) (g i) (Vx i Hi) (Vv i Hi)) E2 Fy).
  Qed.
  (** Scaling up, then dividing *)
  Theorem C122_smul_sdiv : forall N x k y y', length x = N -> v_valid x -> valid k ->
    let trip := fun w => let! z := v_smul fo w k in v_sdiv fo z k in trip x = Ok y -> trip y = Ok y' -> v_finite y' -> forall n, again trip (S n) x = Ok y.
  Proof.
    intros N x k y y' Lx Vx Vv trip E1 E2 Fy. apply (once trip x E1 E2). unfold trip in *. destruct (@vk_ex _ fo N x Lx) as (f & ->). 
    rewrite Forall_vk in Vx. rewrite fv_smul in E1. cbn [bind] in E1. rewrite fv_sdiv in E1. apply Ok_inj in E1. subst y. rewrite fv_smul in E2. cbn [bind] in E2. rewrite fv_sdiv in E2.
    apply (@stay_v N _ _ y' (fun i Hi => @mul_trip (f i) k (Vx i Hi) Vv) E2 Fy).
  Qed.
  (** Dividing, then scaling up *)
  Theorem C122_sdiv_smul : forall N x k y y', length x = N -> v_valid x -> valid k ->
    let trip := fun w => let! z := v_sdiv fo w k in v_smul fo z k in trip x = Ok y -> trip y = Ok y' -> v_finite y' -> forall n, again trip (S n) x = Ok y.
  Proof.
    intros N x k y y' Lx Vx Vv trip E1 E2 Fy. apply (once trip x E1 E2). unfold trip in *. destruct (@vk_ex _ fo N x Lx) as (f & ->). 
    rewrite Forall_vk in Vx. rewrite fv_sdiv in E1. cbn [bind] in E1. rewrite fv_smul in E1. apply Ok_inj in E1. subst y. rewrite fv_sdiv in E2. cbn [bind] in E2. rewrite fv_smul in E2.
    apply (@stay_v N _ _ y' (fun i Hi => @div_trip (f i) k (Vx i Hi) Vv) E2 Fy).
  Qed.
  Lemma stay_m : forall M N g h y', (forall i j, (i < M)%nat -> (j < N)%nat -> finite (g i j) = true -> g i j = h i j) -> Ok (mk M N g) = Ok y' -> m_finite y' -> y' = mk M N h.
  Proof. intros M N g h y' H E F. apply Ok_inj in E. subst y'. unfold m_finite, v_finite in F. rewrite Forall_mk in F. apply mk_ext. intros i j Hi Hj. auto. Qed.
  (** * Matrices *)
  (** The same for matrices. *)
  Theorem C122_matrix_add_sub : forall M N x v y y', rect M N x -> rect M N v -> m_valid x -> m_valid v ->
    let trip := fun w => let! z := m_add fo M N w v in m_sub fo M N z v in trip x = Ok y -> trip y = Ok y' -> m_finite y' -> forall n, again trip (S n) x = Ok y.
  Proof.
    intros M N x v y y' Lx Lv Vx Vv trip E1 E2 Fy. apply (once trip x E1 E2). unfold trip in *. destruct (@mk_ex _ fo M N x Lx) as (f & ->). destruct (@mk_ex _ fo M N v Lv) as (g & ->).
    rewrite Forall_mk in Vx, Vv. rewrite fm_add in E1. cbn [bind] in E1. rewrite fm_sub in E1. apply Ok_inj in E1. subst y. rewrite fm_add in E2. cbn [bind] in E2. rewrite fm_sub in E2.
    apply (@stay_m M N _ _ y' (fun i j Hi Hj => @add_trip (f i j) (g i j) (Vx i j Hi Hj) (Vv i j Hi Hj)) E2 Fy).
  Qed.
  (** Subtract, then add. *)
  Theorem C122_matrix_sub_add : forall M N x v y y', rect M N x -> rect M N v -> m_valid x -> m_valid v ->
    let trip := fun w => let! z := m_sub fo M N w v in m_add fo M N z v in trip x = Ok y -> trip y = Ok y' -> m_finite y' -> forall n, again trip (S n) x = Ok y.
  Proof.
    intros M N x v y y' Lx Lv Vx Vv trip E1 E2 Fy. apply (once trip x E1 E2). unfold trip in *. destruct (@mk_ex _ fo M N x Lx) as (f & ->). destruct (@mk_ex _ fo M N v Lv) as (g & ->).
    rewrite Forall_mk in Vx, Vv. rewrite fm_sub in E1. cbn [bind] in E1. rewrite fm_add in E1. apply Ok_inj in E1. subst y. rewrite fm_sub in E2. cbn [bind] in E2. rewrite fm_add in E2.
    apply (@stay_m M N _ _ y' (fun i j Hi Hj => @sub_trip (f i j) (g i j) (Vx i j Hi Hj) (Vv i j Hi Hj)) E2 Fy).
  Qed.
  (** By a scalar. *)
  Theorem C122_matrix_smul_sdiv : forall M N x k y y', rect M N x -> m_valid x -> valid k ->
    let trip := fun w => let! z := m_smul fo w k in m_sdiv fo z k in trip x = Ok y -> trip y = Ok y' -> m_finite y' -> forall n, again trip (S n) x = Ok y.
  Proof.
    intros M N x k y y' Lx Vx Vk trip E1 E2 Fy. apply (once trip x E1 E2). unfold trip in *. destruct (@mk_ex _ fo M N x Lx) as (f & ->).
    rewrite Forall_mk in Vx. rewrite fm_smul in E1. cbn [bind] in E1. rewrite fm_sdiv in E1. apply Ok_inj in E1. subst y. rewrite fm_smul in E2. cbn [bind] in E2. rewrite fm_sdiv in E2.
    apply (@stay_m M N _ _ y' (fun i j Hi Hj => @mul_trip (f i j) k (Vx i j Hi Hj) Vk) E2 Fy).
  Qed.
  (** Divide, then multiply. *)
  Theorem C122_matrix_sdiv_smul : forall M N x k y y', rect M N x -> m_valid x -> valid k ->
    let trip := fun w => let! z := m_sdiv fo w k in m_smul fo z k in trip x = Ok y -> trip y = Ok y' -> m_finite y' -> forall n, again trip (S n) x = Ok y.
  Proof.
    intros M N x k y y' Lx Vx Vk trip E1 E2 Fy. apply (once trip x E1 E2). unfold trip in *. destruct (@mk_ex _ fo M N x Lx) as (f & ->).
    rewrite Forall_mk in Vx. rewrite fm_sdiv in E1. cbn [bind] in E1. rewrite fm_smul in E1. apply Ok_inj in E1. subst y. rewrite fm_sdiv in E2. cbn [bind] in E2. rewrite fm_smul in E2.
    apply (@stay_m M N _ _ y' (fun i j Hi Hj => @div_trip (f i j) k (Vx i j Hi Hj) Vk) E2 Fy).
  Qed.
  (** * Complex numbers and quaternions *)
  Theorem C122_complex : forall (a v y y' : complex spec_float), valid (re a) -> valid (im a) -> valid (re v) -> valid (im v) ->
    let trip := fun w => let! z := c_add fo w v in c_sub fo z v in trip a = Ok y -> trip y = Ok y' -> finite (re y') = true -> finite (im y') = true -> forall n, again trip (S n) a = Ok y.
  Proof.
    intros [a1 a2] [v1 v2] y y' V1 V2 V3 V4 trip E1 E2 F1 F2. apply (once trip _ E1 E2). cbn [re im] in *. apply Ok_inj in E1. subst y. apply Ok_inj in E2. subst y'. cbn [re im] in *. f_equal; apply add_trip; auto.
  Qed.
  Theorem C122_quaternion : forall (a v y y' : quat spec_float), Forall (fun x => valid x) [qw a; qx a; qy a; qz a; qw v; qx v; qy v; qz v] ->
    let trip := fun w => let! z := q_add fo w v in q_sub fo z v in trip a = Ok y -> trip y = Ok y' -> v_finite [qw y'; qx y'; qy y'; qz y'] -> forall n, again trip (S n) a = Ok y.
  Proof.
    intros [a1 a2 a3 a4] [v1 v2 v3 v4] y y' V trip E1 E2 F. apply (once trip _ E1 E2). cbn [qw qx qy qz] in *. apply Ok_inj in E1. subst y. apply Ok_inj in E2. subst y'. cbn [qw qx qy qz] in *.
    repeat match goal with H : Forall _ (_ :: _) |- _ => apply Forall_cons_iff in H as (? & ?) | H : v_finite (_ :: _) |- _ => apply Forall_cons_iff in H as (? & ?) end. f_equal; apply add_trip; auto.
  Qed.
  (** * A shift and its inverse *)
  Theorem C122_shift : forall N s s' x y y', length x = N -> length s = N -> v_valid x -> v_valid s -> let tr := shift_transform fo N in t_inv tr s = Ok s' ->
    let trip := fun w => let! z := t_apply tr s w in t_apply tr s' z in trip x = Ok y -> trip y = Ok y' -> v_finite y' -> forall n, again trip (S n) x = Ok y.
  Proof.
    intros N s s' x y y' Lx Ls Vx Vs tr Es trip E1 E2 Fy. apply (once trip x E1 E2). unfold trip, tr in *. cbn [t_apply t_inv shift_transform] in *. destruct (@vk_ex _ fo N x Lx) as (f & ->). destruct (@vk_ex _ fo N s Ls) as (g & ->).
    rewrite Forall_vk in Vx, Vs. rewrite fv_neg in Es. apply Ok_inj in Es. subst s'. rewrite fv_add in E1. cbn [bind] in E1. rewrite fv_add in E1. apply Ok_inj in E1. subst y. rewrite fv_add in E2. cbn [bind] in E2. rewrite fv_add in E2.
    apply (stay_v (fun i => add (add (add (add (f i) (g i)) (SFopp (g i))) (g i)) (SFopp (g i))) (fun i => add (add (f i) (g i)) (SFopp (g i)))); auto. intros i Hi. rewrite <- !SFsub_opp. apply add_trip; auto.
  Qed.
  (** * Scaling back by the reciprocal *)
  Lemma rn_near : forall t e n, bpow radix2 (e - 1) <= Rabs t < bpow radix2 e -> (SpecFloat.emin prec emax <= e - prec)%Z -> Rabs (t * bpow radix2 (prec - e) - IZR n) < / 2 -> RN t = IZR n * bpow radix2 (e - prec).
  Proof.
    intros t e n M Q H. assert (N : t <> 0). { intros ->. rewrite Rabs_R0 in M. pose proof (bpow_gt_0 radix2 (e - 1)). lra. }
    unfold round, scaled_mantissa, cexp. rewrite (mag_unique radix2 t e M). replace (fexp e) with (e - prec)%Z by (unfold SpecFloat.fexp in *; lia).
    replace (- (e - prec))%Z with (prec - e)%Z by lia. rewrite (@Znearest_imp (fun x => negb (Z.even x)) _ n H). reflexivity.
  Qed.
  Local Notation B := (bpow radix2).
  Lemma drift_bounds : forall p, (3 <= p)%Z -> 8 <= B p /\ B (p - 1) = B p / 2 /\ B (1 - p) = 2 / B p /\ B (- p) = 1 / B p /\ 0 < B p.
  Proof.
    intros p H. assert (P := bpow_gt_0 radix2 p). split; [change 8 with (B 3); apply bpow_le; lia|]. repeat split; auto.
    - unfold Zminus. rewrite bpow_plus. change (B (- (1))) with (/ 2). lra.
    - unfold Zminus. rewrite bpow_plus, bpow_opp. change (B 1) with 2. unfold Rdiv. ring.
    - rewrite bpow_opp. unfold Rdiv. ring.
  Qed.
  Lemma recip_trip : (3 <= prec)%Z -> (2 * prec <= emax)%Z -> forall x k w, is_int prec emax k (2 ^ prec - 1) -> is_int prec emax x w -> (3 * 2 ^ (prec - 2) + 1 < w < 2 ^ prec)%Z ->
    let i := div (SFone prec emax) k in is_int prec emax (mul (mul x k) i) (w + 1) /\ number_of prec emax i.
  Proof.
    intros P3 P2 x k w (Vk & Fk & Ek) (Vx & Fx & Ex) Hw i. destruct (drift_bounds P3) as (b8 & b1 & b2 & b3 & b0). set (b := B prec) in *.
    assert (IB : IZR (2 ^ prec) = b). { change (2 ^ prec)%Z with (radix2 ^ prec)%Z. rewrite IZR_Zpower by lia. reflexivity. }
    assert (IB2 : IZR (2 ^ (prec - 2)) = b / 4). { change (2 ^ (prec - 2))%Z with (radix2 ^ (prec - 2))%Z. rewrite IZR_Zpower by lia. unfold Zminus. rewrite bpow_plus. fold b. change (B (- (2))) with (/ 4). lra. }
    rewrite minus_IZR, IB in Ek. set (r := IZR w) in *.
    assert (W1 : 3 * (b / 4) + 2 <= r). { unfold r. rewrite <- IB2. replace (3 * IZR (2 ^ (prec - 2)) + 2) with (IZR (3 * 2 ^ (prec - 2) + 2)) by (rewrite plus_IZR, mult_IZR; reflexivity). apply IZR_le. lia. }
    assert (W2 : r <= b - 1). { unfold r. rewrite <- IB. rewrite <- minus_IZR. apply IZR_le. lia. }
    assert (em : (SpecFloat.emin prec emax = 3 - emax - prec)%Z) by (unfold SpecFloat.emin; reflexivity).
    (* the product *)
    assert (bb : B (2 * prec) = b * b). { replace (2 * prec)%Z with (prec + prec)%Z by lia. apply bpow_plus. }
    assert (bb1 : B (2 * prec - 1) = b * b / 2). { replace (2 * prec - 1)%Z with (prec + (prec - 1))%Z by lia. rewrite bpow_plus. fold b. rewrite b1. lra. }
    assert (T1 : RN (value x * value k) = (r - 1) * b).
    { rewrite Ex, Ek. rewrite (@rn_near (r * (b - 1)) (2 * prec) (w - 1)).
      - rewrite minus_IZR. fold r. replace (2 * prec - prec)%Z with prec by lia. reflexivity.
      - rewrite Rabs_pos_eq by nra. rewrite bb, bb1. split; nra.
      - lia.
      - replace (prec - 2 * prec)%Z with (- prec)%Z by lia. rewrite b3. rewrite minus_IZR. fold r. replace (r * (b - 1) * (1 / b) - (r - 1)) with (1 - r / b) by (field; lra).
        assert (3 / 4 < r / b) by (apply Rmult_lt_reg_r with b; auto; replace (r / b * b) with r by (field; lra); lra).
        assert (r / b < 1) by (apply Rmult_lt_reg_r with b; auto; replace (r / b * b) with r by (field; lra); lra). rewrite Rabs_pos_eq; lra. }
    assert (Nx : number_of prec emax x) by (split; auto). assert (Nk : number_of prec emax k) by (split; auto).
    destruct (mul_in Hp0 He Nx Nk) as (Nz & Ez).
    { rewrite T1. rewrite Rabs_pos_eq by nra. apply Rlt_le_trans with (B (2 * prec)); [rewrite bb; nra|apply bpow_le; lia]. }
    rewrite T1 in Ez.
    (* the reciprocal *)
    destruct (one_ok Hp0 He) as (V1 & E1). assert (N1 : number_of prec emax (SFone prec emax)). { split; auto. destruct (SFone prec emax); auto; cbn in E1; lra. }
    assert (T2 : RN (value (SFone prec emax) / value k) = (b / 2 + 1) * B (1 - 2 * prec)).
    { rewrite E1, Ek. rewrite (@rn_near (1 / (b - 1)) (1 - prec) (2 ^ (prec - 1) + 1)).
      - rewrite plus_IZR. change (2 ^ (prec - 1))%Z with (radix2 ^ (prec - 1))%Z. rewrite IZR_Zpower by lia. rewrite b1. f_equal. f_equal. lia.
      - rewrite Rabs_pos_eq by (apply Rlt_le, Rdiv_lt_0_compat; lra). rewrite b2. replace (1 - prec - 1)%Z with (- prec)%Z by lia. rewrite b3. split.
        + apply Rmult_le_compat_l; [lra|]. apply Rinv_le_contravar; lra.
        + apply Rmult_lt_reg_r with (b * (b - 1)); [nra|]. replace (1 / (b - 1) * (b * (b - 1))) with b by (field; lra). replace (2 / b * (b * (b - 1))) with (2 * (b - 1)) by (field; lra). lra.
      - lia.
      - replace (prec - (1 - prec))%Z with (2 * prec - 1)%Z by lia. rewrite bb1. rewrite plus_IZR. change (2 ^ (prec - 1))%Z with (radix2 ^ (prec - 1))%Z. rewrite IZR_Zpower by lia. rewrite b1.
        replace (1 / (b - 1) * (b * b / 2) - (b / 2 + 1)) with (/ 2 * (1 / (b - 1)) - / 2) by (field; lra).
        assert (0 < 1 / (b - 1)) by (apply Rdiv_lt_0_compat; lra). assert (1 / (b - 1) < 1). { apply Rmult_lt_reg_r with (b - 1); [lra|]. replace (1 / (b - 1) * (b - 1)) with 1 by (field; lra). lra. }
        rewrite Rabs_left; lra. }
    assert (B12 : B (1 - 2 * prec) = 2 / (b * b)). { replace (1 - 2 * prec)%Z with (1 + - (2 * prec))%Z by lia. rewrite bpow_plus, bpow_opp, bb. change (B 1) with 2. unfold Rdiv. ring. }
    rewrite B12 in T2. destruct (div_in Hp0 He N1 Nk) as (Ni & Ei).
    { rewrite Ek. lra. }
    { rewrite T2. rewrite Rabs_pos_eq. 2:{ apply Rmult_le_pos; [lra|]. apply Rlt_le, Rdiv_lt_0_compat; nra. }
      apply Rlt_le_trans with (B 0); [|apply bpow_le; lia]. change (B 0) with 1. apply Rmult_lt_reg_r with (b * b); [nra|]. replace ((b / 2 + 1) * (2 / (b * b)) * (b * b)) with (b + 2) by (field; lra). nra. }
    fold i in Ni, Ei. rewrite T2 in Ei.
    (* and back *)
    assert (T3 : RN (value (mul x k) * value i) = r + 1).
    { rewrite Ez, Ei. replace ((r - 1) * b * ((b / 2 + 1) * (2 / (b * b)))) with ((r - 1) * (1 + 2 / b)) by (field; lra).
      assert (q1 : 3 / 2 < (r - 1) * (2 / b)). { apply Rmult_lt_reg_r with b; auto. replace ((r - 1) * (2 / b) * b) with (2 * (r - 1)) by (field; lra). lra. }
      assert (q2 : (r - 1) * (2 / b) < 2). { apply Rmult_lt_reg_r with b; auto. replace ((r - 1) * (2 / b) * b) with (2 * (r - 1)) by (field; lra). lra. }
      rewrite (@rn_near ((r - 1) * (1 + 2 / b)) prec (w + 1)).
      - rewrite plus_IZR. fold r. replace (prec - prec)%Z with 0%Z by lia. change (B 0) with 1. ring.
      - rewrite Rabs_pos_eq by lra. rewrite b1. fold b. split; lra.
      - lia.
      - replace (prec - prec)%Z with 0%Z by lia. change (B 0) with 1. rewrite plus_IZR. fold r. rewrite Rmult_1_r. apply Rabs_def1; lra. }
    destruct (mul_in Hp0 He Nz Ni) as (Ny & Ey).
    { rewrite T3. rewrite Rabs_pos_eq by lra. apply Rle_lt_trans with b; [lra|]. apply bpow_lt. lia. }
    split; auto. destruct Ny as (Vy & Fy). split; auto. split; auto. rewrite Ey, T3, plus_IZR. reflexivity.
  Qed.
  (** [Scale] and its inverse: every trip adds one unit in the last place, a third of the number in all. *)
  Theorem C122_scale_drifts : (3 <= prec)%Z -> (2 * prec <= emax)%Z -> forall n x k w, is_int prec emax k (2 ^ prec - 1) -> is_int prec emax x w ->
    (3 * 2 ^ (prec - 2) + 1 < w)%Z -> (w + Z.of_nat n <= 2 ^ prec)%Z ->
    let tr := scale_transform fo (fun k => o_div fo (o_one fo) k) in exists k', t_inv tr k = Ok k' /\ let trip := fun u => let! z := t_apply tr k u in t_apply tr k' z in
    exists y, again trip n [x] = Ok [y] /\ is_int prec emax y (w + Z.of_nat n).
  Proof.
    intros P3 P2 n x k w Hk Hx Hw Hn tr. exists (div (SFone prec emax) k). split; [reflexivity|]. intros trip. revert x w Hx Hw Hn. induction n as [|n IH]; intros x w Hx Hw Hn.
    - exists x. split; [reflexivity|]. rewrite Z.add_0_r. auto.
    - destruct (@recip_trip P3 P2 x k w Hk Hx) as (H & _); [lia|]. destruct (IH _ (w + 1)%Z H) as (y & Ey & Hy); [lia|lia|]. exists y. split.
      + cbn [again]. exact Ey.
      + replace (w + Z.of_nat (S n))%Z with (w + 1 + Z.of_nat n)%Z by lia. auto.
  Qed.
End Dr.

(** * Examples (f64) *)
Definition drift_x : spec_float := S754_finite false 7205759403792794 (-56).   (* 0.1 *)
Definition drift_v : spec_float := S754_finite false 6755399441055744 (-51).   (* 3 *)
(* 0.1 + 3 - 3 is not 0.1, but then it stays *)
Example C122_ex_shift : let f := sf_ops 53 1024 (fun x _ => x) in let trip := fun w => let! z := v_add f 1 w [drift_v] in v_sub f 1 z [drift_v] in
  let y := [S754_finite false 7205759403792800 (-56)] in trip [drift_x] = Ok y /\ y <> [drift_x] /\ trip y = Ok y /\ v_finite y /\ forall n, again trip (S n) [drift_x] = Ok y.
Proof.
  intros f trip y. assert (E1 : trip [drift_x] = Ok y) by (vm_compute; reflexivity). assert (E2 : trip y = Ok y) by (vm_compute; reflexivity). split; [exact E1|]. split; [discriminate|]. split; [exact E2|].
  assert (F : v_finite y) by (repeat constructor). split; [exact F|]. apply (@C122_add_sub 53 1024 (fun x _ => x) ltac:(lia) ltac:(lia) 1 [drift_x] [drift_v] y y eq_refl eq_refl ltac:(repeat constructor) ltac:(repeat constructor) E1 E2 F).
Qed.
(* dividing 1 by 49 and multiplying again *)
Definition drift_one : spec_float := S754_finite false 4503599627370496 (-52).
Definition drift_49 : spec_float := S754_finite false 6896136929411072 (-47).
Example C122_ex_scale : let f := sf_ops 53 1024 (fun x _ => x) in let trip := fun w => let! z := v_sdiv f w drift_49 in v_smul f z drift_49 in
  let y := [S754_finite false 9007199254740991 (-53)] in trip [drift_one] = Ok y /\ y <> [drift_one] /\ forall n, again trip (S n) [drift_one] = Ok y.
Proof.
  intros f trip y. assert (E1 : trip [drift_one] = Ok y) by (vm_compute; reflexivity). assert (E2 : trip y = Ok y) by (vm_compute; reflexivity). split; [exact E1|]. split; [discriminate|].
  assert (F : v_finite y) by (repeat constructor).
  apply (@C122_sdiv_smul 53 1024 (fun x _ => x) ltac:(lia) ltac:(lia) 1 [drift_one] drift_49 y y eq_refl ltac:(repeat constructor) ltac:(reflexivity) E1 E2 F).
Qed.
(* the reciprocal: 1000 trips move this number by 1000 *)
Example C122_ex_reciprocal : let k := S754_finite false 9007199254740991 0 in let x := S754_finite false 7000000000000000 0 in
  let f := sf_ops 53 1024 (fun x _ => x) in let tr := scale_transform f (fun k => o_div f (o_one f) k) in
  exists k', t_inv tr k = Ok k' /\ let trip := fun u => let! z := t_apply tr k u in t_apply tr k' z in exists y, again trip 1000 [x] = Ok [y] /\ is_int 53 1024 y (7000000000000000 + 1000).
Proof.
  intros k x f tr. assert (Hk : is_int 53 1024 k (2 ^ 53 - 1)).
  { split; [reflexivity|]. split; [reflexivity|]. unfold value, k. cbn [powerRZ]. rewrite Rmult_1_l, Rmult_1_r. reflexivity. }
  assert (Hx : is_int 53 1024 x 7000000000000000).
  { split; [reflexivity|]. split; [reflexivity|]. unfold value, x. cbn [powerRZ]. rewrite Rmult_1_l, Rmult_1_r. reflexivity. }
  assert (H1 : (3 * 2 ^ (53 - 2) + 1 < 7000000000000000)%Z) by reflexivity. assert (H2 : (7000000000000000 + Z.of_nat 1000 <= 2 ^ 53)%Z) by (vm_compute; discriminate).
  pose proof (@C122_scale_drifts 53 1024 (fun x _ => x) ltac:(lia) ltac:(lia) ltac:(lia) ltac:(lia) 1000 x k 7000000000000000%Z Hk Hx H1 H2) as H.
  change 1000%Z with (Z.of_nat 1000). exact H.
Qed.

Print Assumptions C122_add_sub.
Print Assumptions C122_sub_add.
Print Assumptions C122_mul_div.
Print Assumptions C122_div_mul.
Print Assumptions C122_smul_sdiv.
Print Assumptions C122_sdiv_smul.
Print Assumptions C122_matrix_add_sub.
Print Assumptions C122_matrix_sub_add.
Print Assumptions C122_matrix_smul_sdiv.
Print Assumptions C122_matrix_sdiv_smul.
Print Assumptions C122_complex.
Print Assumptions C122_quaternion.
Print Assumptions C122_shift.
Print Assumptions C122_scale_drifts.
