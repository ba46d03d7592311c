(** C93: running error bounds.  (The list of theorems, one per operation of the API, was produced by tools/gen_bound.py;
    every statement is spelled out here.) *)
From Coq Require Import ZArith Reals Lra Lia Psatz SpecFloat.
From Flocq Require Import Core BinarySingleNaN.
From Verif Require Import SpecFacts VFacts MFacts AlgFacts MoebiusModel TransformModel SpecMachine RealInst FloatInst SpecRound FlocqFacts PropFloat RelFacts PropRel PropOrder PropRound PropExact.
Set Implicit Arguments.
Local Open Scope list_scope.
Local Open Scope R_scope.

(** * Specification *)
(** A pair of an exact number and a bound on the distance from it; the float [f] lies within. *)
Definition within (prec emax : Z) (a : R * R) (f : spec_float) : Prop :=
  valid_binary prec emax f = true /\ finite f = true /\ Rabs (value f - fst a) <= snd a.
Definition v_within prec emax (u : list (R * R)) (x : list spec_float) : Prop := Forall2 (within prec emax) u x.
Definition m_within prec emax (u : list (list (R * R))) (x : list (list spec_float)) : Prop := Forall2 (v_within prec emax) u x.
Definition c_within prec emax (u : complex (R * R)) (x : complex spec_float) : Prop := within prec emax (re u) (re x) /\ within prec emax (im u) (im x).
Definition q_within prec emax (u : quat (R * R)) (x : quat spec_float) : Prop :=
  within prec emax (qw u) (qw x) /\ within prec emax (qx u) (qx x) /\ within prec emax (qy u) (qy x) /\ within prec emax (qz u) (qz x).
(** Running error analysis: the result of an operation is the exact one [e]; the operands' errors propagate to [b], and rounding a
    number of size at most [|e| + b] adds [roundoff] times that size, and [t] if it may underflow.  The operation fails if the
    bound does not exclude overflow (beyond 2^emax) or, for division, a divisor of zero. *)
Definition step (prec emax : Z) (e b t : R) : res (R * R) :=
  let b' := b + roundoff prec * (Rabs e + b) + t in
  if Rlt_dec (Rabs e + b') (powerRZ 2 emax) then Ok (e, b') else Panic.
Definition bound_ops (prec emax : Z) : Ops (R * R) :=
  let eta := half_tiny prec emax in
  {| o_zero := (0, 0); o_one := (1, 0);
     o_add := fun x y => step prec emax (fst x + fst y) (snd x + snd y) 0;
     o_sub := fun x y => step prec emax (fst x - fst y) (snd x + snd y) 0;
     o_mul := fun x y => step prec emax (fst x * fst y) (Rabs (fst x) * snd y + snd x * Rabs (fst y) + snd x * snd y) eta;
     o_div := fun x y =>
       if Req_EM_T (fst y) 0 then Panic
       else if Rlt_dec (snd y) (Rabs (fst y)) then step prec emax (fst x / fst y) ((snd x + Rabs (fst x / fst y) * snd y) / (Rabs (fst y) - snd y)) eta
       else Panic;
     o_rem := fun _ _ => Panic; o_neg := fun x => Ok (- fst x, snd x);
     o_is_zero := fun _ => false; o_eq := fun _ _ => false; o_lt := fun _ _ => false; o_le := fun _ _ => false |}.

Section Bd.
  Context (prec emax : Z) (rem : spec_float -> spec_float -> spec_float) (Hp : (0 < prec)%Z) (He : (prec < emax)%Z).
  Local Notation fo := (sf_ops prec emax rem).
  Local Notation valid x := (valid_binary prec emax x = true).
  Local Notation fexp := (SpecFloat.fexp prec emax).
  Local Notation win := (within prec emax).
  Local Notation rnd := (round radix2 fexp ZnearestE).
  Local Notation u := (roundoff prec).
  Local Notation eta := (half_tiny prec emax).

  (* what one rounded operation does *)
  Lemma step_sound : forall e b t x f, Rabs (x - e) <= b -> 0 <= t -> valid f -> (exists d h, Rabs d <= u /\ Rabs h <= t /\ rnd x = x * (1 + d) + h) ->
    (Rabs (rnd x) < bpow radix2 emax -> finite f = true /\ value f = rnd x) -> rrel false win (step prec emax e b t) (Ok f).
  Proof.
    intros e b t x f Hb Ht Vf (d & h & Hd & Hh & Hr) Hf. unfold step. destruct (Rlt_dec _ _) as [L|]; cbn; auto.
    assert (M : Rabs x <= Rabs e + b). { replace x with (e + (x - e)) by ring. eapply Rle_trans; [apply Rabs_triang|]. lra. }
    assert (D : Rabs (rnd x - e) <= b + u * (Rabs e + b) + t).
    { rewrite Hr. replace (x * (1 + d) + h - e) with ((x - e) + x * d + h) by ring.
      eapply Rle_trans; [apply Rabs_triang|]. eapply Rle_trans; [apply Rplus_le_compat_r, Rabs_triang|]. rewrite Rabs_mult.
      assert (Rabs x * Rabs d <= (Rabs e + b) * u). { apply Rmult_le_compat; auto; apply Rabs_pos. } lra. }
    assert (S : Rabs (rnd x) < bpow radix2 emax).
    { replace (rnd x) with (e + (rnd x - e)) by ring. eapply Rle_lt_trans; [apply Rabs_triang|]. rewrite bpow_powerRZ. change (IZR radix2) with 2. lra. }
    destruct (Hf S) as (F & V). split; auto. split; auto. cbn [fst snd]. now rewrite V.
  Qed.
  Lemma rnd_ex : forall x, exists d h, Rabs d <= u /\ Rabs h <= eta /\ rnd x = x * (1 + d) + h.
  Proof. intros x. destruct (@rnd_rel prec emax Hp x) as (d & h & A & B & C & _). eauto. Qed.
  Lemma rnd_ex_add : forall f g, valid f -> valid g -> exists d h, Rabs d <= u /\ Rabs h <= 0 /\ rnd (value f + value g) = (value f + value g) * (1 + d) + h.
  Proof.
    intros f g Vf Vg. destruct (@rnd_add_err prec emax Hp (value f) (value g)) as (d & A & B); try (apply fmt; auto). exists d, 0. rewrite Rabs_R0. repeat split; auto; lra.
  Qed.
  Lemma bound_rel : OpsRel false win (bound_ops prec emax) fo.
  Proof.
    assert (Z0 : Rabs (0 - 0) <= 0) by (rewrite Rminus_0_r, Rabs_R0; lra).
    assert (EP : 0 <= eta) by (left; apply eta_pos).
    constructor; cbn [o_zero o_one o_add o_sub o_mul o_neg bound_ops sf_ops ok1 ok2].
    - repeat split; auto.
    - destruct (one_den Hp He) as (V & F & E). split; auto. split; auto. rewrite E. cbn. replace (1 - 1) with 0 by ring. rewrite Rabs_R0. lra.
    - intros [e1 b1] f [e2 b2] g (V1 & F1 & H1) (V2 & F2 & H2). cbn [fst snd] in *. apply step_sound with (x := value f + value g); try lra.
      + replace (value f + value g - (e1 + e2)) with ((value f - e1) + (value g - e2)) by ring. eapply Rle_trans; [apply Rabs_triang|]. lra.
      + apply add_valid; auto.
      + apply rnd_ex_add; auto.
      + intros S. destruct (lift _ _ _ V1) as (a & <-), (lift _ _ _ V2) as (b & <-). rewrite (@add_B prec emax Hp He). rewrite !finite_B, !value_B in *.
        pose proof (Bplus_correct prec emax Hp He mode_NE a b F1 F2) as H. cbn [round_mode] in H. rewrite Rlt_bool_true in H by exact S. tauto.
    - intros [e1 b1] f [e2 b2] g (V1 & F1 & H1) (V2 & F2 & H2). cbn [fst snd] in *. apply step_sound with (x := value f - value g); try lra.
      + replace (value f - value g - (e1 - e2)) with ((value f - e1) + - (value g - e2)) by ring. eapply Rle_trans; [apply Rabs_triang|]. rewrite Rabs_Ropp. lra.
      + apply sub_valid; auto.
      + destruct (@rnd_ex_add f (SFopp g) V1 ltac:(apply opp_valid; exact V2)) as (d & h & A & B & C). rewrite (proj1 (opp_value g)) in C. eauto.
      + intros S. destruct (lift _ _ _ V1) as (a & <-), (lift _ _ _ V2) as (b & <-). rewrite (@sub_B prec emax Hp He). rewrite !finite_B, !value_B in *.
        pose proof (Bminus_correct prec emax Hp He mode_NE a b F1 F2) as H. cbn [round_mode] in H. rewrite Rlt_bool_true in H by exact S. tauto.
    - intros [e1 b1] f [e2 b2] g (V1 & F1 & H1) (V2 & F2 & H2). cbn [fst snd] in *. apply step_sound with (x := value f * value g); try lra.
      + replace (value f * value g - e1 * e2) with (e1 * (value g - e2) + (value f - e1) * e2 + (value f - e1) * (value g - e2)) by ring.
        eapply Rle_trans; [apply Rabs_triang|]. eapply Rle_trans; [apply Rplus_le_compat_r, Rabs_triang|]. rewrite !Rabs_mult.
        pose proof (Rabs_pos e1). pose proof (Rabs_pos e2). pose proof (Rabs_pos (value f - e1)). pose proof (Rabs_pos (value g - e2)).
        apply Rplus_le_compat; [apply Rplus_le_compat|]; apply Rmult_le_compat; lra.
      + apply mul_valid; auto.
      + apply rnd_ex.
      + intros S. destruct (lift _ _ _ V1) as (a & <-), (lift _ _ _ V2) as (b & <-). rewrite (@mul_B prec emax Hp He). rewrite !finite_B, !value_B in *.
        pose proof (Bmult_correct prec emax Hp He mode_NE a b) as H. cbn [round_mode] in H. rewrite Rlt_bool_true in H by exact S. destruct H as (A & B & _). rewrite B, F1, F2. auto.
    - intros [e1 b1] f (V1 & F1 & H1). cbn. destruct (opp_value f) as (A & B). split; [apply opp_valid; auto|]. split; [congruence|]. cbn [fst snd] in *. rewrite A.
      replace (- value f - - e1) with (- (value f - e1)) by ring. now rewrite Rabs_Ropp.
  Qed.
  Lemma quot_err : forall x y e1 e2 b1 b2, e2 <> 0 -> b2 < Rabs e2 -> Rabs (x - e1) <= b1 -> Rabs (y - e2) <= b2 ->
    y <> 0 /\ Rabs (x / y - e1 / e2) <= (b1 + Rabs (e1 / e2) * b2) / (Rabs e2 - b2).
  Proof.
    intros x y e1 e2 b1 b2 N L H1 H2.
    assert (Y : Rabs e2 - b2 <= Rabs y). { pose proof (Rabs_triang y (e2 - y)). replace (y + (e2 - y)) with e2 in H by ring. rewrite <- Rabs_Ropp in H2. replace (- (y - e2)) with (e2 - y) in H2 by ring. lra. }
    assert (Ny : y <> 0). { intros ->. rewrite Rabs_R0 in Y. lra. }
    split; auto. replace (x / y - e1 / e2) with (((x - e1) + - (e1 / e2) * (y - e2)) / y) by (field; auto).
    unfold Rdiv at 1. rewrite Rabs_mult, Rabs_inv.
    assert (T : Rabs (x - e1 + - (e1 / e2) * (y - e2)) <= b1 + Rabs (e1 / e2) * b2).
    { eapply Rle_trans; [apply Rabs_triang|]. rewrite Rabs_mult, Rabs_Ropp. apply Rplus_le_compat; auto. apply Rmult_le_compat_l; auto. apply Rabs_pos. }
    unfold Rdiv at 2. apply Rmult_le_compat; auto; try apply Rabs_pos. { left. apply Rinv_0_lt_compat. now apply Rabs_pos_lt. } apply Rinv_le_contravar; lra.
  Qed.
  Lemma bound_divrel : DivRel false win (bound_ops prec emax) fo.
  Proof.
    intros [e1 b1] f [e2 b2] g (V1 & F1 & H1) (V2 & F2 & H2). cbn [o_div bound_ops sf_ops ok2 fst snd] in *.
    destruct (Req_EM_T e2 0) as [|N]; cbn; auto. destruct (Rlt_dec b2 (Rabs e2)) as [L|]; cbn; auto.
    destruct (@quot_err (value f) (value g) e1 e2 b1 b2 N L H1 H2) as (Ny & Q). apply step_sound with (x := value f / value g); auto.
    - left. apply eta_pos.
    - apply div_valid; auto.
    - apply rnd_ex.
    - intros S. destruct (lift _ _ _ V1) as (a & <-), (lift _ _ _ V2) as (b & <-). rewrite (@div_B prec emax Hp He). rewrite !finite_B, !value_B in *.
      pose proof (Bdiv_correct prec emax Hp He mode_NE a b Ny) as H. cbn [round_mode] in H. rewrite Rlt_bool_true in H by exact S. destruct H as (A & B & _). rewrite B, F1. auto.
  Qed.
  (* the first components are the real computation *)
  Local Notation isfst := (fun (a : R * R) (x : R) => x = fst a).
  Lemma step_lax : forall e b t, rrel false isfst (step prec emax e b t) (Ok e).
  Proof. intros. unfold step. destruct (Rlt_dec _ _); cbn; auto. Qed.
  Lemma bound_real : OpsRel false isfst (bound_ops prec emax) r_ops.
  Proof. constructor; intros; subst; cbn [o_zero o_one o_add o_sub o_mul o_neg bound_ops r_ops ok1 ok2]; auto; try apply step_lax; try reflexivity. Qed.
  Lemma bound_real_div : DivRel false isfst (bound_ops prec emax) r_ops.
  Proof. intros x x' y y' -> ->. cbn. destruct (Req_EM_T (fst y) 0); cbn; auto. destruct (Rlt_dec _ _); cbn; auto. apply step_lax. Qed.
End Bd.

Section LaxHom.
  Context {T U : Type} (h : T -> U).
  Let Rh : T -> U -> Prop := fun x y => y = h x.
  Lemma s_lax_hom : forall a b r, rrel false Rh a b -> a = Ok r -> b = Ok (h r).
  Proof. intros a b r H ->. destruct b; cbn in H; try contradiction. now rewrite H. Qed.
  Lemma v_lax_hom : forall N a b r, rrel false (vrel N Rh) a b -> a = Ok r -> b = Ok (map h r).
  Proof. intros N a b r H ->. destruct b; cbn in H; try contradiction. destruct H as (_ & F). f_equal. now apply (forall2_map h). Qed.
  Lemma m_lax_hom : forall M N a b r, rrel false (mrel M N Rh) a b -> a = Ok r -> b = Ok (map (map h) r).
  Proof.
    intros M N a b r H ->. destruct b; cbn in H; try contradiction. destruct H as (_ & F). f_equal. induction F as [|u v x y (_ & Huv) F IH]; cbn; auto. f_equal; auto. now apply (forall2_map h).
  Qed.
  Lemma c_lax_hom : forall a b r, rrel false (RelFacts.crel Rh) a b -> a = Ok r -> b = Ok (c_map h r).
  Proof. intros a b r H ->. destruct b as [[]| | |]; cbn in H; try contradiction. destruct H as (E & F). cbv in E, F. now subst. Qed.
  Lemma q_lax_hom : forall a b r, rrel false (RelFacts.qrel Rh) a b -> a = Ok r -> b = Ok (q_map h r).
  Proof. intros a b r H ->. destruct b as [[]| | |]; cbn in H; try contradiction. destruct H as (E & F & G & K). cbv in E, F, G, K. now subst. Qed.
End LaxHom.
Ltac bd_args := first [eapply vrel_map; eassumption | eapply mrel_map; eassumption | apply crel_map | apply qrel_map | apply srel_map].
Local Open Scope nat_scope.
