(** C93: running error bounds.  (The list of theorems, one per operation of the API, was produced by tools/gen_bound.py;
    every statement is spelled out here.) *)
From Coq Require Import ZArith Reals Lra Lia Psatz SpecFloat.
From Flocq Require Import Core BinarySingleNaN.
From Verif Require Import SpecFacts VFacts MFacts AlgFacts MoebiusModel TransformModel SpecMachine RealInst FloatInst SpecRound FlocqFacts PropFloat RelFacts PropRel PropOrder PropRound PropExact.
Set Implicit Arguments.
Local Open Scope list_scope.
Local Open Scope R_scope.

(** * Specification *)
(** A pair of an exact number and a bound on the distance from it; the float [f] lies within. *)
Definition within (prec emax : Z) (a : R * R) (f : spec_float) : Prop :=
  valid_binary prec emax f = true /\ finite f = true /\ Rabs (value f - fst a) <= snd a.
Definition v_within prec emax (u : list (R * R)) (x : list spec_float) : Prop := Forall2 (within prec emax) u x.
Definition m_within prec emax (u : list (list (R * R))) (x : list (list spec_float)) : Prop := Forall2 (v_within prec emax) u x.
Definition c_within prec emax (u : complex (R * R)) (x : complex spec_float) : Prop := within prec emax (re u) (re x) /\ within prec emax (im u) (im x).
Definition q_within prec emax (u : quat (R * R)) (x : quat spec_float) : Prop :=
  within prec emax (qw u) (qw x) /\ within prec emax (qx u) (qx x) /\ within prec emax (qy u) (qy x) /\ within prec emax (qz u) (qz x).
(** Running error analysis: the result of an operation is the exact one [e]; the operands' errors propagate to [b], and rounding a
    number of size at most [|e| + b] adds [roundoff] times that size, and [t] if it may underflow.  The operation fails if the
    bound does not exclude overflow (beyond 2^emax) or, for division, a divisor of zero. *)
Definition step (prec emax : Z) (e b t : R) : res (R * R) :=
  let b' := b + roundoff prec * (Rabs e + b) + t in
  if Rlt_dec (Rabs e + b') (powerRZ 2 emax) then Ok (e, b') else Panic.
Definition bound_ops (prec emax : Z) : Ops (R * R) :=
  let eta := half_tiny prec emax in
  {| o_zero := (0, 0); o_one := (1, 0);
     o_add := fun x y => step prec emax (fst x + fst y) (snd x + snd y) 0;
     o_sub := fun x y => step prec emax (fst x - fst y) (snd x + snd y) 0;
     o_mul := fun x y => step prec emax (fst x * fst y) (Rabs (fst x) * snd y + snd x * Rabs (fst y) + snd x * snd y) eta;
     o_div := fun x y =>
       if Req_EM_T (fst y) 0 then Panic
       else if Rlt_dec (snd y) (Rabs (fst y)) then step prec emax (fst x / fst y) ((snd x + Rabs (fst x / fst y) * snd y) / (Rabs (fst y) - snd y)) eta
       else Panic;
     o_rem := fun _ _ => Panic; o_neg := fun x => Ok (- fst x, snd x);
     o_is_zero := fun _ => false; o_eq := fun _ _ => false; o_lt := fun _ _ => false; o_le := fun _ _ => false |}.

Section Bd.
  Context (prec emax : Z) (rem : spec_float -> spec_float -> spec_float) (Hp : (0 < prec)%Z) (He : (prec < emax)%Z).
  Local Notation fo := (sf_ops prec emax rem).
  Local Notation valid x := (valid_binary prec emax x = true).
  Local Notation fexp := (SpecFloat.fexp prec emax).
  Local Notation win := (within prec emax).
  Local Notation rnd := (round radix2 fexp ZnearestE).
  Local Notation u := (roundoff prec).
  Local Notation eta := (half_tiny prec emax).

  (* what one rounded operation does *)
  Lemma step_sound : forall e b t x f, Rabs (x - e) <= b -> 0 <= t -> valid f -> (exists d h, Rabs d <= u /\ Rabs h <= t /\ rnd x = x * (1 + d) + h) ->
    (Rabs (rnd x) < bpow radix2 emax -> finite f = true /\ value f = rnd x) -> rrel false win (step prec emax e b t) (Ok f).
  Proof.
    intros e b t x f Hb Ht Vf (d & h & Hd & Hh & Hr) Hf. unfold step. destruct (Rlt_dec _ _) as [L|]; cbn; auto.
    assert (M : Rabs x <= Rabs e + b). { replace x with (e + (x - e)) by ring. eapply Rle_trans; [apply Rabs_triang|]. lra. }
    assert (D : Rabs (rnd x - e) <= b + u * (Rabs e + b) + t).
    { rewrite Hr. replace (x * (1 + d) + h - e) with ((x - e) + x * d + h) by ring.
      eapply Rle_trans; [apply Rabs_triang|]. eapply Rle_trans; [apply Rplus_le_compat_r, Rabs_triang|]. rewrite Rabs_mult.
      assert (Rabs x * Rabs d <= (Rabs e + b) * u). { apply Rmult_le_compat; auto; apply Rabs_pos. } lra. }
    assert (S : Rabs (rnd x) < bpow radix2 emax).
    { replace (rnd x) with (e + (rnd x - e)) by ring. eapply Rle_lt_trans; [apply Rabs_triang|]. rewrite bpow_powerRZ. change (IZR radix2) with 2. lra. }
    destruct (Hf S) as (F & V). split; auto. split; auto. cbn [fst snd]. now rewrite V.
  Qed.
  Lemma rnd_ex : forall x, exists d h, Rabs d <= u /\ Rabs h <= eta /\ rnd x = x * (1 + d) + h.
  Proof. intros x. destruct (@rnd_rel prec emax Hp x) as (d & h & A & B & C & _). eauto. Qed.
  Lemma rnd_ex_add : forall f g, valid f -> valid g -> exists d h, Rabs d <= u /\ Rabs h <= 0 /\ rnd (value f + value g) = (value f + value g) * (1 + d) + h.
  Proof.
    intros f g Vf Vg. destruct (@rnd_add_err prec emax Hp (value f) (value g)) as (d & A & B); try (apply fmt; auto). exists d, 0. rewrite Rabs_R0. repeat split; auto; lra.
  Qed.
  Lemma bound_rel : OpsRel false win (bound_ops prec emax) fo.
  Proof.
    assert (Z0 : Rabs (0 - 0) <= 0) by (rewrite Rminus_0_r, Rabs_R0; lra).
    assert (EP : 0 <= eta) by (left; apply eta_pos).
    constructor; cbn [o_zero o_one o_add o_sub o_mul o_neg bound_ops sf_ops ok1 ok2].
    - repeat split; auto.
    - destruct (one_den Hp He) as (V & F & E). split; auto. split; auto. rewrite E. cbn. replace (1 - 1) with 0 by ring. rewrite Rabs_R0. lra.
    - intros [e1 b1] f [e2 b2] g (V1 & F1 & H1) (V2 & F2 & H2). cbn [fst snd] in *. apply step_sound with (x := value f + value g); try lra.
      + replace (value f + value g - (e1 + e2)) with ((value f - e1) + (value g - e2)) by ring. eapply Rle_trans; [apply Rabs_triang|]. lra.
      + apply add_valid; auto.
      + apply rnd_ex_add; auto.
      + intros S. destruct (lift _ _ _ V1) as (a & <-), (lift _ _ _ V2) as (b & <-). rewrite (@add_B prec emax Hp He). rewrite !finite_B, !value_B in *.
        pose proof (Bplus_correct prec emax Hp He mode_NE a b F1 F2) as H. cbn [round_mode] in H. rewrite Rlt_bool_true in H by exact S. tauto.
    - intros [e1 b1] f [e2 b2] g (V1 & F1 & H1) (V2 & F2 & H2). cbn [fst snd] in *. apply step_sound with (x := value f - value g); try lra.
      + replace (value f - value g - (e1 - e2)) with ((value f - e1) + - (value g - e2)) by ring. eapply Rle_trans; [apply Rabs_triang|]. rewrite Rabs_Ropp. lra.
      + apply sub_valid; auto.
      + destruct (@rnd_ex_add f (SFopp g) V1 ltac:(apply opp_valid; exact V2)) as (d & h & A & B & C). rewrite (proj1 (opp_value g)) in C. eauto.
      + intros S. destruct (lift _ _ _ V1) as (a & <-), (lift _ _ _ V2) as (b & <-). rewrite (@sub_B prec emax Hp He). rewrite !finite_B, !value_B in *.
        pose proof (Bminus_correct prec emax Hp He mode_NE a b F1 F2) as H. cbn [round_mode] in H. rewrite Rlt_bool_true in H by exact S. tauto.
    - intros [e1 b1] f [e2 b2] g (V1 & F1 & H1) (V2 & F2 & H2). cbn [fst snd] in *. apply step_sound with (x := value f * value g); try lra.
      + replace (value f * value g - e1 * e2) with (e1 * (value g - e2) + (value f - e1) * e2 + (value f - e1) * (value g - e2)) by ring.
        eapply Rle_trans; [apply Rabs_triang|]. eapply Rle_trans; [apply Rplus_le_compat_r, Rabs_triang|]. rewrite !Rabs_mult.
        pose proof (Rabs_pos e1). pose proof (Rabs_pos e2). pose proof (Rabs_pos (value f - e1)). pose proof (Rabs_pos (value g - e2)).
        apply Rplus_le_compat; [apply Rplus_le_compat|]; apply Rmult_le_compat; lra.
      + apply mul_valid; auto.
      + apply rnd_ex.
      + intros S. destruct (lift _ _ _ V1) as (a & <-), (lift _ _ _ V2) as (b & <-). rewrite (@mul_B prec emax Hp He). rewrite !finite_B, !value_B in *.
        pose proof (Bmult_correct prec emax Hp He mode_NE a b) as H. cbn [round_mode] in H. rewrite Rlt_bool_true in H by exact S. destruct H as (A & B & _). rewrite B, F1, F2. auto.
    - intros [e1 b1] f (V1 & F1 & H1). cbn. destruct (opp_value f) as (A & B). split; [apply opp_valid; auto|]. split; [congruence|]. cbn [fst snd] in *. rewrite A.
      replace (- value f - - e1) with (- (value f - e1)) by ring. now rewrite Rabs_Ropp.
  Qed.
  Lemma quot_err : forall x y e1 e2 b1 b2, e2 <> 0 -> b2 < Rabs e2 -> Rabs (x - e1) <= b1 -> Rabs (y - e2) <= b2 ->
    y <> 0 /\ Rabs (x / y - e1 / e2) <= (b1 + Rabs (e1 / e2) * b2) / (Rabs e2 - b2).
  Proof.
    intros x y e1 e2 b1 b2 N L H1 H2.
    assert (Y : Rabs e2 - b2 <= Rabs y). { pose proof (Rabs_triang y (e2 - y)). replace (y + (e2 - y)) with e2 in H by ring. rewrite <- Rabs_Ropp in H2. replace (- (y - e2)) with (e2 - y) in H2 by ring. lra. }
    assert (Ny : y <> 0). { intros ->. rewrite Rabs_R0 in Y. lra. }
    split; auto. replace (x / y - e1 / e2) with (((x - e1) + - (e1 / e2) * (y - e2)) / y) by (field; auto).
    unfold Rdiv at 1. rewrite Rabs_mult, Rabs_inv.
    assert (T : Rabs (x - e1 + - (e1 / e2) * (y - e2)) <= b1 + Rabs (e1 / e2) * b2).
    { eapply Rle_trans; [apply Rabs_triang|]. rewrite Rabs_mult, Rabs_Ropp. apply Rplus_le_compat; auto. apply Rmult_le_compat_l; auto. apply Rabs_pos. }
    unfold Rdiv at 2. apply Rmult_le_compat; auto; try apply Rabs_pos. { left. apply Rinv_0_lt_compat. now apply Rabs_pos_lt. } apply Rinv_le_contravar; lra.
  Qed.
  Lemma bound_divrel : DivRel false win (bound_ops prec emax) fo.
  Proof.
    intros [e1 b1] f [e2 b2] g (V1 & F1 & H1) (V2 & F2 & H2). cbn [o_div bound_ops sf_ops ok2 fst snd] in *.
    destruct (Req_EM_T e2 0) as [|N]; cbn; auto. destruct (Rlt_dec b2 (Rabs e2)) as [L|]; cbn; auto.
    destruct (@quot_err (value f) (value g) e1 e2 b1 b2 N L H1 H2) as (Ny & Q). apply step_sound with (x := value f / value g); auto.
    - left. apply eta_pos.
    - apply div_valid; auto.
    - apply rnd_ex.
    - intros S. destruct (lift _ _ _ V1) as (a & <-), (lift _ _ _ V2) as (b & <-). rewrite (@div_B prec emax Hp He). rewrite !finite_B, !value_B in *.
      pose proof (Bdiv_correct prec emax Hp He mode_NE a b Ny) as H. cbn [round_mode] in H. rewrite Rlt_bool_true in H by exact S. destruct H as (A & B & _). rewrite B, F1. auto.
  Qed.
  (* the first components are the real computation *)
  Local Notation isfst := (fun (a : R * R) (x : R) => x = fst a).
  Lemma step_lax : forall e b t, rrel false isfst (step prec emax e b t) (Ok e).
  Proof. intros. unfold step. destruct (Rlt_dec _ _); cbn; auto. Qed.
  Lemma bound_real : OpsRel false isfst (bound_ops prec emax) r_ops.
  Proof. constructor; intros; subst; cbn [o_zero o_one o_add o_sub o_mul o_neg bound_ops r_ops ok1 ok2]; auto; try apply step_lax; try reflexivity. Qed.
  Lemma bound_real_div : DivRel false isfst (bound_ops prec emax) r_ops.
  Proof. intros x x' y y' -> ->. cbn. destruct (Req_EM_T (fst y) 0); cbn; auto. destruct (Rlt_dec _ _); cbn; auto. apply step_lax. Qed.
End Bd.

Section LaxHom.
  Context {T U : Type} (h : T -> U).
  Let Rh : T -> U -> Prop := fun x y => y = h x.
  Lemma s_lax_hom : forall a b r, rrel false Rh a b -> a = Ok r -> b = Ok (h r).
  Proof. intros a b r H ->. destruct b; cbn in H; try contradiction. now rewrite H. Qed.
  Lemma v_lax_hom : forall N a b r, rrel false (vrel N Rh) a b -> a = Ok r -> b = Ok (map h r).
  Proof. intros N a b r H ->. destruct b; cbn in H; try contradiction. destruct H as (_ & F). f_equal. now apply (forall2_map h). Qed.
  Lemma m_lax_hom : forall M N a b r, rrel false (mrel M N Rh) a b -> a = Ok r -> b = Ok (map (map h) r).
  Proof.
    intros M N a b r H ->. destruct b; cbn in H; try contradiction. destruct H as (_ & F). f_equal. induction F as [|u v x y (_ & Huv) F IH]; cbn; auto. f_equal; auto. now apply (forall2_map h).
  Qed.
  Lemma c_lax_hom : forall a b r, rrel false (RelFacts.crel Rh) a b -> a = Ok r -> b = Ok (c_map h r).
  Proof. intros a b r H ->. destruct b as [[]| | |]; cbn in H; try contradiction. destruct H as (E & F). cbv in E, F. now subst. Qed.
  Lemma q_lax_hom : forall a b r, rrel false (RelFacts.qrel Rh) a b -> a = Ok r -> b = Ok (q_map h r).
  Proof. intros a b r H ->. destruct b as [[]| | |]; cbn in H; try contradiction. destruct H as (E & F & G & K). cbv in E, F, G, K. now subst. Qed.
End LaxHom.
Ltac bd_args := first [eapply vrel_map; eassumption | eapply mrel_map; eassumption | apply crel_map | apply qrel_map | apply srel_map].
Local Open Scope nat_scope.

(* ------------------------------------------------------------------------- *)
(** * C93: the running error bound holds                                       *)
Section C93.
  Context (prec emax : Z) (rem : spec_float -> spec_float -> spec_float) (Hp : (0 < prec)%Z) (He : (prec < emax)%Z).
  Local Notation fo := (sf_ops prec emax rem).
  Local Notation bound := (bound_ops prec emax).

  Theorem C93_v_add : forall N u v x y r, length u = N -> length v = N -> v_within prec emax u x -> v_within prec emax v y -> v_add bound N u v = Ok r -> v_add r_ops N (map fst u) (map fst v) = Ok (map fst r) /\ exists s, v_add fo N x y = Ok s /\ v_within prec emax r s.
  Proof. intros. split. { eapply v_lax_hom; [|eassumption]. eapply (rr_v_add (@bound_real prec emax)); bd_args. } eapply v_rel_out; [|eassumption]. eapply (rr_v_add (bound_rel rem Hp He)); ex_args. Qed.
  Theorem C93_v_sub : forall N u v x y r, length u = N -> length v = N -> v_within prec emax u x -> v_within prec emax v y -> v_sub bound N u v = Ok r -> v_sub r_ops N (map fst u) (map fst v) = Ok (map fst r) /\ exists s, v_sub fo N x y = Ok s /\ v_within prec emax r s.
  Proof. intros. split. { eapply v_lax_hom; [|eassumption]. eapply (rr_v_sub (@bound_real prec emax)); bd_args. } eapply v_rel_out; [|eassumption]. eapply (rr_v_sub (bound_rel rem Hp He)); ex_args. Qed.
  Theorem C93_v_mul : forall N u v x y r, length u = N -> length v = N -> v_within prec emax u x -> v_within prec emax v y -> v_mul bound N u v = Ok r -> v_mul r_ops N (map fst u) (map fst v) = Ok (map fst r) /\ exists s, v_mul fo N x y = Ok s /\ v_within prec emax r s.
  Proof. intros. split. { eapply v_lax_hom; [|eassumption]. eapply (rr_v_mul (@bound_real prec emax)); bd_args. } eapply v_rel_out; [|eassumption]. eapply (rr_v_mul (bound_rel rem Hp He)); ex_args. Qed.
  Theorem C93_v_neg : forall N u x r, length u = N -> v_within prec emax u x -> v_neg bound u = Ok r -> v_neg r_ops (map fst u) = Ok (map fst r) /\ exists s, v_neg fo x = Ok s /\ v_within prec emax r s.
  Proof. intros. split. { eapply v_lax_hom; [|eassumption]. eapply (rr_v_neg (@bound_real prec emax)); bd_args. } eapply v_rel_out; [|eassumption]. eapply (rr_v_neg (bound_rel rem Hp He)); ex_args. Qed.
  Theorem C93_v_smul : forall N u v x y r, length u = N -> v_within prec emax u x -> within prec emax v y -> v_smul bound u v = Ok r -> v_smul r_ops (map fst u) (fst v) = Ok (map fst r) /\ exists s, v_smul fo x y = Ok s /\ v_within prec emax r s.
  Proof. intros. split. { eapply v_lax_hom; [|eassumption]. eapply (rr_v_smul (@bound_real prec emax)); bd_args. } eapply v_rel_out; [|eassumption]. eapply (rr_v_smul (bound_rel rem Hp He)); ex_args. Qed.
  Theorem C93_v_sum : forall N u x r, length u = N -> v_within prec emax u x -> v_sum bound u = Ok r -> v_sum r_ops (map fst u) = Ok (fst r) /\ exists s, v_sum fo x = Ok s /\ within prec emax r s.
  Proof. intros. split. { eapply s_lax_hom; [|eassumption]. eapply (rr_v_sum (@bound_real prec emax)); bd_args. } eapply s_rel_out; [|eassumption]. eapply (rr_v_sum (bound_rel rem Hp He)); ex_args. Qed.
  Theorem C93_v_dot : forall N u v x y r, length u = N -> length v = N -> v_within prec emax u x -> v_within prec emax v y -> v_dot bound N u v = Ok r -> v_dot r_ops N (map fst u) (map fst v) = Ok (fst r) /\ exists s, v_dot fo N x y = Ok s /\ within prec emax r s.
  Proof. intros. split. { eapply s_lax_hom; [|eassumption]. eapply (rr_v_dot (@bound_real prec emax)); bd_args. } eapply s_rel_out; [|eassumption]. eapply (rr_v_dot (bound_rel rem Hp He)); ex_args. Qed.
  Theorem C93_v_square_length : forall N u x r, length u = N -> v_within prec emax u x -> v_square_length bound u = Ok r -> v_square_length r_ops (map fst u) = Ok (fst r) /\ exists s, v_square_length fo x = Ok s /\ within prec emax r s.
  Proof. intros. split. { eapply s_lax_hom; [|eassumption]. eapply (rr_v_square_length (@bound_real prec emax)); bd_args. } eapply s_rel_out; [|eassumption]. eapply (rr_v_square_length (bound_rel rem Hp He)); ex_args. Qed.
  Theorem C93_v_cross2 : forall u v x y r, length u = 2 -> length v = 2 -> v_within prec emax u x -> v_within prec emax v y -> v_cross2 bound u v = Ok r -> v_cross2 r_ops (map fst u) (map fst v) = Ok (fst r) /\ exists s, v_cross2 fo x y = Ok s /\ within prec emax r s.
  Proof. intros. split. { eapply s_lax_hom; [|eassumption]. eapply (rr_v_cross2 (@bound_real prec emax)); bd_args. } eapply s_rel_out; [|eassumption]. eapply (rr_v_cross2 (bound_rel rem Hp He)); ex_args. Qed.
  Theorem C93_v_cross3 : forall u v x y r, length u = 3 -> length v = 3 -> v_within prec emax u x -> v_within prec emax v y -> v_cross3 bound u v = Ok r -> v_cross3 r_ops (map fst u) (map fst v) = Ok (map fst r) /\ exists s, v_cross3 fo x y = Ok s /\ v_within prec emax r s.
  Proof. intros. split. { eapply v_lax_hom; [|eassumption]. eapply (rr_v_cross3 (@bound_real prec emax)); bd_args. } eapply v_rel_out; [|eassumption]. eapply (rr_v_cross3 (bound_rel rem Hp He)); ex_args. Qed.
  Theorem C93_v_cross4 : forall u v x y r, length u = 4 -> length v = 4 -> v_within prec emax u x -> v_within prec emax v y -> v_cross4 bound u v = Ok r -> v_cross4 r_ops (map fst u) (map fst v) = Ok (map fst r) /\ exists s, v_cross4 fo x y = Ok s /\ v_within prec emax r s.
  Proof. intros. split. { eapply v_lax_hom; [|eassumption]. eapply (rr_v_cross4 (@bound_real prec emax)); bd_args. } eapply v_rel_out; [|eassumption]. eapply (rr_v_cross4 (bound_rel rem Hp He)); ex_args. Qed.
  Theorem C93_v_div : forall N u v x y r, length u = N -> length v = N -> v_within prec emax u x -> v_within prec emax v y -> v_div bound N u v = Ok r -> v_div r_ops N (map fst u) (map fst v) = Ok (map fst r) /\ exists s, v_div fo N x y = Ok s /\ v_within prec emax r s.
  Proof. intros. split. { eapply v_lax_hom; [|eassumption]. eapply (rr_v_div (@bound_real_div prec emax)); bd_args. } eapply v_rel_out; [|eassumption]. eapply (rr_v_div (bound_divrel rem Hp He)); ex_args. Qed.
  Theorem C93_v_sdiv : forall N u v x y r, length u = N -> v_within prec emax u x -> within prec emax v y -> v_sdiv bound u v = Ok r -> v_sdiv r_ops (map fst u) (fst v) = Ok (map fst r) /\ exists s, v_sdiv fo x y = Ok s /\ v_within prec emax r s.
  Proof. intros. split. { eapply v_lax_hom; [|eassumption]. eapply (rr_v_sdiv (@bound_real_div prec emax)); bd_args. } eapply v_rel_out; [|eassumption]. eapply (rr_v_sdiv (bound_divrel rem Hp He)); ex_args. Qed.
  Theorem C93_m_add : forall M N u v x y r, rect M N u -> rect M N v -> m_within prec emax u x -> m_within prec emax v y -> m_add bound M N u v = Ok r -> m_add r_ops M N (map (map fst) u) (map (map fst) v) = Ok (map (map fst) r) /\ exists s, m_add fo M N x y = Ok s /\ m_within prec emax r s.
  Proof. intros. split. { eapply m_lax_hom; [|eassumption]. eapply (rr_m_add (@bound_real prec emax)); bd_args. } eapply m_rel_out; [|eassumption]. eapply (rr_m_add (bound_rel rem Hp He)); ex_args. Qed.
  Theorem C93_m_sub : forall M N u v x y r, rect M N u -> rect M N v -> m_within prec emax u x -> m_within prec emax v y -> m_sub bound M N u v = Ok r -> m_sub r_ops M N (map (map fst) u) (map (map fst) v) = Ok (map (map fst) r) /\ exists s, m_sub fo M N x y = Ok s /\ m_within prec emax r s.
  Proof. intros. split. { eapply m_lax_hom; [|eassumption]. eapply (rr_m_sub (@bound_real prec emax)); bd_args. } eapply m_rel_out; [|eassumption]. eapply (rr_m_sub (bound_rel rem Hp He)); ex_args. Qed.
  Theorem C93_m_mul : forall M N u v x y r, rect M N u -> rect M N v -> m_within prec emax u x -> m_within prec emax v y -> m_mul bound M N u v = Ok r -> m_mul r_ops M N (map (map fst) u) (map (map fst) v) = Ok (map (map fst) r) /\ exists s, m_mul fo M N x y = Ok s /\ m_within prec emax r s.
  Proof. intros. split. { eapply m_lax_hom; [|eassumption]. eapply (rr_m_mul (@bound_real prec emax)); bd_args. } eapply m_rel_out; [|eassumption]. eapply (rr_m_mul (bound_rel rem Hp He)); ex_args. Qed.
  Theorem C93_m_neg : forall M N u x r, rect M N u -> m_within prec emax u x -> m_neg bound u = Ok r -> m_neg r_ops (map (map fst) u) = Ok (map (map fst) r) /\ exists s, m_neg fo x = Ok s /\ m_within prec emax r s.
  Proof. intros. split. { eapply m_lax_hom; [|eassumption]. eapply (rr_m_neg (@bound_real prec emax)); bd_args. } eapply m_rel_out; [|eassumption]. eapply (rr_m_neg (bound_rel rem Hp He)); ex_args. Qed.
  Theorem C93_m_smul : forall M N u v x y r, rect M N u -> m_within prec emax u x -> within prec emax v y -> m_smul bound u v = Ok r -> m_smul r_ops (map (map fst) u) (fst v) = Ok (map (map fst) r) /\ exists s, m_smul fo x y = Ok s /\ m_within prec emax r s.
  Proof. intros. split. { eapply m_lax_hom; [|eassumption]. eapply (rr_m_smul (@bound_real prec emax)); bd_args. } eapply m_rel_out; [|eassumption]. eapply (rr_m_smul (bound_rel rem Hp He)); ex_args. Qed.
  Theorem C93_m_sum : forall M N u x r, rect M N u -> m_within prec emax u x -> m_sum bound u = Ok r -> m_sum r_ops (map (map fst) u) = Ok (fst r) /\ exists s, m_sum fo x = Ok s /\ within prec emax r s.
  Proof. intros. split. { eapply s_lax_hom; [|eassumption]. eapply (rr_m_sum (@bound_real prec emax)); bd_args. } eapply s_rel_out; [|eassumption]. eapply (rr_m_sum (bound_rel rem Hp He)); ex_args. Qed.
  Theorem C93_m_div : forall M N u v x y r, rect M N u -> rect M N v -> m_within prec emax u x -> m_within prec emax v y -> m_div bound M N u v = Ok r -> m_div r_ops M N (map (map fst) u) (map (map fst) v) = Ok (map (map fst) r) /\ exists s, m_div fo M N x y = Ok s /\ m_within prec emax r s.
  Proof. intros. split. { eapply m_lax_hom; [|eassumption]. eapply (rr_m_div (@bound_real_div prec emax)); bd_args. } eapply m_rel_out; [|eassumption]. eapply (rr_m_div (bound_divrel rem Hp He)); ex_args. Qed.
  Theorem C93_m_sdiv : forall M N u v x y r, rect M N u -> m_within prec emax u x -> within prec emax v y -> m_sdiv bound u v = Ok r -> m_sdiv r_ops (map (map fst) u) (fst v) = Ok (map (map fst) r) /\ exists s, m_sdiv fo x y = Ok s /\ m_within prec emax r s.
  Proof. intros. split. { eapply m_lax_hom; [|eassumption]. eapply (rr_m_sdiv (@bound_real_div prec emax)); bd_args. } eapply m_rel_out; [|eassumption]. eapply (rr_m_sdiv (bound_divrel rem Hp He)); ex_args. Qed.
  Theorem C93_m_dot : forall L M N u v x y r, rect L M u -> rect M N v -> m_within prec emax u x -> m_within prec emax v y -> m_dot bound L M N u v = Ok r -> m_dot r_ops L M N (map (map fst) u) (map (map fst) v) = Ok (map (map fst) r) /\ exists s, m_dot fo L M N x y = Ok s /\ m_within prec emax r s.
  Proof. intros. split. { eapply m_lax_hom; [|eassumption]. eapply (rr_m_dot (@bound_real prec emax)); bd_args. } eapply m_rel_out; [|eassumption]. eapply (rr_m_dot (bound_rel rem Hp He)); ex_args. Qed.
  Theorem C93_m_dot_v : forall M N u v x y r, rect M N u -> length v = N -> m_within prec emax u x -> v_within prec emax v y -> m_dot_v bound M N u v = Ok r -> m_dot_v r_ops M N (map (map fst) u) (map fst v) = Ok (map fst r) /\ exists s, m_dot_v fo M N x y = Ok s /\ v_within prec emax r s.
  Proof. intros. split. { eapply v_lax_hom; [|eassumption]. eapply (rr_m_dot_v (@bound_real prec emax)); bd_args. } eapply v_rel_out; [|eassumption]. eapply (rr_m_dot_v (bound_rel rem Hp He)); ex_args. Qed.
  Theorem C93_v_dot_m : forall M N u v x y r, length u = M -> rect M N v -> v_within prec emax u x -> m_within prec emax v y -> v_dot_m bound M N u v = Ok r -> v_dot_m r_ops M N (map fst u) (map (map fst) v) = Ok (map fst r) /\ exists s, v_dot_m fo M N x y = Ok s /\ v_within prec emax r s.
  Proof. intros. split. { eapply v_lax_hom; [|eassumption]. eapply (rr_v_dot_m (@bound_real prec emax)); bd_args. } eapply v_rel_out; [|eassumption]. eapply (rr_v_dot_m (bound_rel rem Hp He)); ex_args. Qed.
  Theorem C93_m_outer : forall M N u v x y r, length u = M -> length v = N -> v_within prec emax u x -> v_within prec emax v y -> m_outer bound M N u v = Ok r -> m_outer r_ops M N (map fst u) (map fst v) = Ok (map (map fst) r) /\ exists s, m_outer fo M N x y = Ok s /\ m_within prec emax r s.
  Proof. intros. split. { eapply m_lax_hom; [|eassumption]. eapply (rr_m_outer (@bound_real prec emax)); bd_args. } eapply m_rel_out; [|eassumption]. eapply (rr_m_outer (bound_rel rem Hp He)); ex_args. Qed.
  Theorem C93_m_det : forall N u x r, rect N N u -> m_within prec emax u x -> m_det bound N u = Ok r -> m_det r_ops N (map (map fst) u) = Ok (fst r) /\ exists s, m_det fo N x = Ok s /\ within prec emax r s.
  Proof. intros. split. { eapply s_lax_hom; [|eassumption]. eapply (rr_m_det (@bound_real prec emax)); bd_args. } eapply s_rel_out; [|eassumption]. eapply (rr_m_det (bound_rel rem Hp He)); ex_args. Qed.
  Theorem C93_m_cofactor : forall N i j u x r, rect N N u -> m_within prec emax u x -> m_cofactor bound N u i j = Ok r -> m_cofactor r_ops N (map (map fst) u) i j = Ok (fst r) /\ exists s, m_cofactor fo N x i j = Ok s /\ within prec emax r s.
  Proof. intros. split. { eapply s_lax_hom; [|eassumption]. eapply (rr_m_cofactor (@bound_real prec emax)); bd_args. } eapply s_rel_out; [|eassumption]. eapply (rr_m_cofactor (bound_rel rem Hp He)); ex_args. Qed.
  Theorem C93_m_adj : forall N u x r, rect N N u -> m_within prec emax u x -> m_adj bound N u = Ok r -> m_adj r_ops N (map (map fst) u) = Ok (map (map fst) r) /\ exists s, m_adj fo N x = Ok s /\ m_within prec emax r s.
  Proof. intros. split. { eapply m_lax_hom; [|eassumption]. eapply (rr_m_adj (@bound_real prec emax)); bd_args. } eapply m_rel_out; [|eassumption]. eapply (rr_m_adj (bound_rel rem Hp He)); ex_args. Qed.
  Theorem C93_m_inv : forall N u x r, rect N N u -> m_within prec emax u x -> m_inv bound N u = Ok r -> m_inv r_ops N (map (map fst) u) = Ok (map (map fst) r) /\ exists s, m_inv fo N x = Ok s /\ m_within prec emax r s.
  Proof. intros. split. { eapply m_lax_hom; [|eassumption]. eapply (rr_m_inv (@bound_real prec emax) (@bound_real_div prec emax)); bd_args. } eapply m_rel_out; [|eassumption]. eapply (rr_m_inv (bound_rel rem Hp He) (bound_divrel rem Hp He)); ex_args. Qed.
  Theorem C93_c_add : forall u v x y r, c_within prec emax u x -> c_within prec emax v y -> c_add bound u v = Ok r -> c_add r_ops (c_map fst u) (c_map fst v) = Ok (c_map fst r) /\ exists s, c_add fo x y = Ok s /\ c_within prec emax r s.
  Proof. intros. split. { eapply c_lax_hom; [|eassumption]. eapply (rr_c_add (@bound_real prec emax)); bd_args. } eapply c_rel_out; [|eassumption]. eapply (rr_c_add (bound_rel rem Hp He)); ex_args. Qed.
  Theorem C93_c_sub : forall u v x y r, c_within prec emax u x -> c_within prec emax v y -> c_sub bound u v = Ok r -> c_sub r_ops (c_map fst u) (c_map fst v) = Ok (c_map fst r) /\ exists s, c_sub fo x y = Ok s /\ c_within prec emax r s.
  Proof. intros. split. { eapply c_lax_hom; [|eassumption]. eapply (rr_c_sub (@bound_real prec emax)); bd_args. } eapply c_rel_out; [|eassumption]. eapply (rr_c_sub (bound_rel rem Hp He)); ex_args. Qed.
  Theorem C93_c_mul : forall u v x y r, c_within prec emax u x -> c_within prec emax v y -> c_mul bound u v = Ok r -> c_mul r_ops (c_map fst u) (c_map fst v) = Ok (c_map fst r) /\ exists s, c_mul fo x y = Ok s /\ c_within prec emax r s.
  Proof. intros. split. { eapply c_lax_hom; [|eassumption]. eapply (rr_c_mul (@bound_real prec emax)); bd_args. } eapply c_rel_out; [|eassumption]. eapply (rr_c_mul (bound_rel rem Hp He)); ex_args. Qed.
  Theorem C93_c_neg : forall u x r, c_within prec emax u x -> c_neg bound u = Ok r -> c_neg r_ops (c_map fst u) = Ok (c_map fst r) /\ exists s, c_neg fo x = Ok s /\ c_within prec emax r s.
  Proof. intros. split. { eapply c_lax_hom; [|eassumption]. eapply (rr_c_neg (@bound_real prec emax)); bd_args. } eapply c_rel_out; [|eassumption]. eapply (rr_c_neg (bound_rel rem Hp He)); ex_args. Qed.
  Theorem C93_c_conj : forall u x r, c_within prec emax u x -> c_conj bound u = Ok r -> c_conj r_ops (c_map fst u) = Ok (c_map fst r) /\ exists s, c_conj fo x = Ok s /\ c_within prec emax r s.
  Proof. intros. split. { eapply c_lax_hom; [|eassumption]. eapply (rr_c_conj (@bound_real prec emax)); bd_args. } eapply c_rel_out; [|eassumption]. eapply (rr_c_conj (bound_rel rem Hp He)); ex_args. Qed.
  Theorem C93_c_mul_s : forall u v x y r, c_within prec emax u x -> within prec emax v y -> c_mul_s bound u v = Ok r -> c_mul_s r_ops (c_map fst u) (fst v) = Ok (c_map fst r) /\ exists s, c_mul_s fo x y = Ok s /\ c_within prec emax r s.
  Proof. intros. split. { eapply c_lax_hom; [|eassumption]. eapply (rr_c_mul_s (@bound_real prec emax)); bd_args. } eapply c_rel_out; [|eassumption]. eapply (rr_c_mul_s (bound_rel rem Hp He)); ex_args. Qed.
  Theorem C93_c_norm_sqr : forall u x r, c_within prec emax u x -> c_norm_sqr bound u = Ok r -> c_norm_sqr r_ops (c_map fst u) = Ok (fst r) /\ exists s, c_norm_sqr fo x = Ok s /\ within prec emax r s.
  Proof. intros. split. { eapply s_lax_hom; [|eassumption]. eapply (rr_c_norm_sqr (@bound_real prec emax)); bd_args. } eapply s_rel_out; [|eassumption]. eapply (rr_c_norm_sqr (bound_rel rem Hp He)); ex_args. Qed.
  Theorem C93_c_dot : forall u v x y r, c_within prec emax u x -> c_within prec emax v y -> c_dot bound u v = Ok r -> c_dot r_ops (c_map fst u) (c_map fst v) = Ok (fst r) /\ exists s, c_dot fo x y = Ok s /\ within prec emax r s.
  Proof. intros. split. { eapply s_lax_hom; [|eassumption]. eapply (rr_c_dot (@bound_real prec emax)); bd_args. } eapply s_rel_out; [|eassumption]. eapply (rr_c_dot (bound_rel rem Hp He)); ex_args. Qed.
  Theorem C93_c_inv : forall u x r, c_within prec emax u x -> c_inv bound u = Ok r -> c_inv r_ops (c_map fst u) = Ok (c_map fst r) /\ exists s, c_inv fo x = Ok s /\ c_within prec emax r s.
  Proof. intros. split. { eapply c_lax_hom; [|eassumption]. eapply (rr_c_inv (@bound_real prec emax) (@bound_real_div prec emax)); bd_args. } eapply c_rel_out; [|eassumption]. eapply (rr_c_inv (bound_rel rem Hp He) (bound_divrel rem Hp He)); ex_args. Qed.
  Theorem C93_c_div : forall u v x y r, c_within prec emax u x -> c_within prec emax v y -> c_div bound u v = Ok r -> c_div r_ops (c_map fst u) (c_map fst v) = Ok (c_map fst r) /\ exists s, c_div fo x y = Ok s /\ c_within prec emax r s.
  Proof. intros. split. { eapply c_lax_hom; [|eassumption]. eapply (rr_c_div (@bound_real prec emax) (@bound_real_div prec emax)); bd_args. } eapply c_rel_out; [|eassumption]. eapply (rr_c_div (bound_rel rem Hp He) (bound_divrel rem Hp He)); ex_args. Qed.
  Theorem C93_q_add : forall u v x y r, q_within prec emax u x -> q_within prec emax v y -> q_add bound u v = Ok r -> q_add r_ops (q_map fst u) (q_map fst v) = Ok (q_map fst r) /\ exists s, q_add fo x y = Ok s /\ q_within prec emax r s.
  Proof. intros. split. { eapply q_lax_hom; [|eassumption]. eapply (rr_q_add (@bound_real prec emax)); bd_args. } eapply q_rel_out; [|eassumption]. eapply (rr_q_add (bound_rel rem Hp He)); ex_args. Qed.
  Theorem C93_q_sub : forall u v x y r, q_within prec emax u x -> q_within prec emax v y -> q_sub bound u v = Ok r -> q_sub r_ops (q_map fst u) (q_map fst v) = Ok (q_map fst r) /\ exists s, q_sub fo x y = Ok s /\ q_within prec emax r s.
  Proof. intros. split. { eapply q_lax_hom; [|eassumption]. eapply (rr_q_sub (@bound_real prec emax)); bd_args. } eapply q_rel_out; [|eassumption]. eapply (rr_q_sub (bound_rel rem Hp He)); ex_args. Qed.
  Theorem C93_q_mul : forall u v x y r, q_within prec emax u x -> q_within prec emax v y -> q_mul bound u v = Ok r -> q_mul r_ops (q_map fst u) (q_map fst v) = Ok (q_map fst r) /\ exists s, q_mul fo x y = Ok s /\ q_within prec emax r s.
  Proof. intros. split. { eapply q_lax_hom; [|eassumption]. eapply (rr_q_mul (@bound_real prec emax)); bd_args. } eapply q_rel_out; [|eassumption]. eapply (rr_q_mul (bound_rel rem Hp He)); ex_args. Qed.
  Theorem C93_q_neg : forall u x r, q_within prec emax u x -> q_neg bound u = Ok r -> q_neg r_ops (q_map fst u) = Ok (q_map fst r) /\ exists s, q_neg fo x = Ok s /\ q_within prec emax r s.
  Proof. intros. split. { eapply q_lax_hom; [|eassumption]. eapply (rr_q_neg (@bound_real prec emax)); bd_args. } eapply q_rel_out; [|eassumption]. eapply (rr_q_neg (bound_rel rem Hp He)); ex_args. Qed.
  Theorem C93_q_conj : forall u x r, q_within prec emax u x -> q_conj bound u = Ok r -> q_conj r_ops (q_map fst u) = Ok (q_map fst r) /\ exists s, q_conj fo x = Ok s /\ q_within prec emax r s.
  Proof. intros. split. { eapply q_lax_hom; [|eassumption]. eapply (rr_q_conj (@bound_real prec emax)); bd_args. } eapply q_rel_out; [|eassumption]. eapply (rr_q_conj (bound_rel rem Hp He)); ex_args. Qed.
  Theorem C93_q_mul_s : forall u v x y r, q_within prec emax u x -> within prec emax v y -> q_mul_s bound u v = Ok r -> q_mul_s r_ops (q_map fst u) (fst v) = Ok (q_map fst r) /\ exists s, q_mul_s fo x y = Ok s /\ q_within prec emax r s.
  Proof. intros. split. { eapply q_lax_hom; [|eassumption]. eapply (rr_q_mul_s (@bound_real prec emax)); bd_args. } eapply q_rel_out; [|eassumption]. eapply (rr_q_mul_s (bound_rel rem Hp He)); ex_args. Qed.
  Theorem C93_q_mul_c : forall u v x y r, q_within prec emax u x -> c_within prec emax v y -> q_mul_c bound u v = Ok r -> q_mul_c r_ops (q_map fst u) (c_map fst v) = Ok (q_map fst r) /\ exists s, q_mul_c fo x y = Ok s /\ q_within prec emax r s.
  Proof. intros. split. { eapply q_lax_hom; [|eassumption]. eapply (rr_q_mul_c (@bound_real prec emax)); bd_args. } eapply q_rel_out; [|eassumption]. eapply (rr_q_mul_c (bound_rel rem Hp He)); ex_args. Qed.
  Theorem C93_c_mul_q : forall u v x y r, c_within prec emax u x -> q_within prec emax v y -> c_mul_q bound u v = Ok r -> c_mul_q r_ops (c_map fst u) (q_map fst v) = Ok (q_map fst r) /\ exists s, c_mul_q fo x y = Ok s /\ q_within prec emax r s.
  Proof. intros. split. { eapply q_lax_hom; [|eassumption]. eapply (rr_c_mul_q (@bound_real prec emax)); bd_args. } eapply q_rel_out; [|eassumption]. eapply (rr_c_mul_q (bound_rel rem Hp He)); ex_args. Qed.
  Theorem C93_q_norm_sqr : forall u x r, q_within prec emax u x -> q_norm_sqr bound u = Ok r -> q_norm_sqr r_ops (q_map fst u) = Ok (fst r) /\ exists s, q_norm_sqr fo x = Ok s /\ within prec emax r s.
  Proof. intros. split. { eapply s_lax_hom; [|eassumption]. eapply (rr_q_norm_sqr (@bound_real prec emax)); bd_args. } eapply s_rel_out; [|eassumption]. eapply (rr_q_norm_sqr (bound_rel rem Hp He)); ex_args. Qed.
  Theorem C93_q_dot : forall u v x y r, q_within prec emax u x -> q_within prec emax v y -> q_dot bound u v = Ok r -> q_dot r_ops (q_map fst u) (q_map fst v) = Ok (fst r) /\ exists s, q_dot fo x y = Ok s /\ within prec emax r s.
  Proof. intros. split. { eapply s_lax_hom; [|eassumption]. eapply (rr_q_dot (@bound_real prec emax)); bd_args. } eapply s_rel_out; [|eassumption]. eapply (rr_q_dot (bound_rel rem Hp He)); ex_args. Qed.
  Theorem C93_q_inv : forall u x r, q_within prec emax u x -> q_inv bound u = Ok r -> q_inv r_ops (q_map fst u) = Ok (q_map fst r) /\ exists s, q_inv fo x = Ok s /\ q_within prec emax r s.
  Proof. intros. split. { eapply q_lax_hom; [|eassumption]. eapply (rr_q_inv (@bound_real prec emax) (@bound_real_div prec emax)); bd_args. } eapply q_rel_out; [|eassumption]. eapply (rr_q_inv (bound_rel rem Hp He) (bound_divrel rem Hp He)); ex_args. Qed.
  Theorem C93_q_div : forall u v x y r, q_within prec emax u x -> q_within prec emax v y -> q_div bound u v = Ok r -> q_div r_ops (q_map fst u) (q_map fst v) = Ok (q_map fst r) /\ exists s, q_div fo x y = Ok s /\ q_within prec emax r s.
  Proof. intros. split. { eapply q_lax_hom; [|eassumption]. eapply (rr_q_div (@bound_real prec emax) (@bound_real_div prec emax)); bd_args. } eapply q_rel_out; [|eassumption]. eapply (rr_q_div (bound_rel rem Hp He) (bound_divrel rem Hp He)); ex_args. Qed.
  Theorem C93_rot2_apply : forall u v x y r, length v = 2 -> c_within prec emax u x -> v_within prec emax v y -> rot2_apply bound u v = Ok r -> rot2_apply r_ops (c_map fst u) (map fst v) = Ok (map fst r) /\ exists s, rot2_apply fo x y = Ok s /\ v_within prec emax r s.
  Proof. intros. split. { eapply v_lax_hom; [|eassumption]. eapply (rr_rot2_apply (@bound_real prec emax)); bd_args. } eapply v_rel_out; [|eassumption]. eapply (rr_rot2_apply (bound_rel rem Hp He)); ex_args. Qed.
  Theorem C93_rot3_apply : forall u v x y r, length v = 3 -> q_within prec emax u x -> v_within prec emax v y -> rot3_apply bound u v = Ok r -> rot3_apply r_ops (q_map fst u) (map fst v) = Ok (map fst r) /\ exists s, rot3_apply fo x y = Ok s /\ v_within prec emax r s.
  Proof. intros. split. { eapply v_lax_hom; [|eassumption]. eapply (rr_rot3_apply (@bound_real prec emax)); bd_args. } eapply v_rel_out; [|eassumption]. eapply (rr_rot3_apply (bound_rel rem Hp He)); ex_args. Qed.
  Theorem C93_mo_apply_self : forall u v x y r, rect 2 2 u -> m_within prec emax u x -> within prec emax v y -> mo_apply_self bound u v = Ok r -> mo_apply_self r_ops (map (map fst) u) (fst v) = Ok (fst r) /\ exists s, mo_apply_self fo x y = Ok s /\ within prec emax r s.
  Proof. intros. split. { eapply s_lax_hom; [|eassumption]. eapply (rr_mo_apply_self (@bound_real prec emax) (@bound_real_div prec emax)); bd_args. } eapply s_rel_out; [|eassumption]. eapply (rr_mo_apply_self (bound_rel rem Hp He) (bound_divrel rem Hp He)); ex_args. Qed.
End C93.

(** Non-trivial case: for [f64] vectors of two components in [0, 1] the running bound exists, so the theorem applies to their
    dot product; here 0.1 * 0.1 + 0.2 * 0.3. *)
Local Open Scope R_scope.
Lemma step_ok : forall e b t, Rabs e + (b + roundoff 53 * (Rabs e + b) + t) < 4 -> step 53 1024 e b t = Ok (e, b + roundoff 53 * (Rabs e + b) + t).
Proof.
  intros e b t H. unfold step. destruct (Rlt_dec _ _) as [|N]; auto. exfalso. apply N. eapply Rlt_le_trans; [exact H|].
  change (powerRZ 2 1024) with (2 ^ Pos.to_nat 1024). replace 4 with (2 ^ 2) by (cbn; lra). apply Rle_pow; [lra|]. apply Nat.leb_le. vm_compute. reflexivity.
Qed.
Lemma small64 : roundoff 53 <= / 4 /\ half_tiny 53 1024 <= / 4.
Proof.
  assert (H : forall n, (2 <= n)%nat -> / 2 ^ n <= / 4). { intros n Hn. apply Rinv_le_contravar; [lra|]. replace 4 with (2 ^ 2) by (cbn; lra). apply Rle_pow; [lra|auto]. }
  split; [apply (H 53%nat); lia|]. unfold half_tiny. change (powerRZ 2 (2 - 1024 - 53)) with (/ 2 ^ Pos.to_nat 1075). apply H. apply Nat.leb_le. vm_compute. reflexivity.
Qed.
Lemma dot_bounded : forall a b c d, 0 <= a <= 1 -> 0 <= b <= 1 -> 0 <= c <= 1 -> 0 <= d <= 1 ->
  exists r, v_dot (bound_ops 53 1024) 2 [(a, 0); (b, 0)] [(c, 0); (d, 0)] = Ok r.
Proof.
  intros a b c d Ha Hb Hc Hd. destruct small64 as (U & E). pose proof (u_pos 53) as UP. pose proof (eta_pos 53 1024) as EP.
  assert (M : forall x y, 0 <= x <= 1 -> 0 <= y <= 1 -> exists t, o_mul (bound_ops 53 1024) (x, 0) (y, 0) = Ok (x * y, t) /\ 0 <= t <= / 2).
  { intros x y Hx Hy. cbn [o_mul bound_ops fst snd]. assert (P : 0 <= x * y <= 1) by nra. 
    replace (Rabs x * 0 + 0 * Rabs y + 0 * 0) with 0 by ring. assert (Q : 0 <= roundoff 53 * (x * y) <= / 4) by nra.
    eexists. split; [apply step_ok|]; rewrite (Rabs_pos_eq (x * y)) by lra; rewrite Rplus_0_r, Rplus_0_l; lra. }
  destruct (M a c Ha Hc) as (t & E1 & T1). destruct (M b d Hb Hd) as (t' & E2 & T2).
  assert (P1 : 0 <= a * c <= 1) by nra. assert (P2 : 0 <= b * d <= 1) by nra.
  assert (S : exists r, o_add (bound_ops 53 1024) (a * c, t) (b * d, t') = Ok r).
  { cbn [o_add bound_ops fst snd]. eexists. apply step_ok. rewrite Rabs_pos_eq by lra. assert (0 <= roundoff 53 * (a * c + b * d + (t + t')) <= 3 / 4) by nra. lra. }
  destruct S as (r & Er). exists r. unfold v_dot. cbn [v_zip_map]. unfold v_zip_map. 
  assert (Z : v_zip 2 [(a, 0); (b, 0)] [(c, 0); (d, 0)] = Ok [((a, 0), (c, 0)); ((b, 0), (d, 0))]) by reflexivity.
  rewrite Z. cbn [bind]. rewrite v_map_res. cbn [map_res]. rewrite E1, E2. cbn [bind].
  change (v_sum (bound_ops 53 1024) [(a * c, t); (b * d, t')]) with (let! y := o_add (bound_ops 53 1024) (a * c, t) (b * d, t') in Ok y). rewrite Er. reflexivity.
Qed.
Example C93_ex : exists r s, v_dot (bound_ops 53 1024) 2 [(value f64_01, 0); (value f64_02, 0)] [(value f64_01, 0); (value f64_03, 0)] = Ok r /\
  v_dot f64 2 [f64_01; f64_02] [f64_01; f64_03] = Ok s /\ within 53 1024 r s.
Proof.
  assert (V : forall m e k, Z.pos k = (2 ^ (- e))%Z -> (e < 0)%Z -> (Z.pos m <= Z.pos k)%Z -> 0 <= value (S754_finite false m e) <= 1).
  { intros m e k Hk Hneg Hm. unfold value. assert (E : powerRZ 2 e = / IZR (Z.pos k)). { rewrite Hk. replace e with (- (- e))%Z at 1 by lia. rewrite powerRZ_neg'. f_equal. change 2 with (IZR radix2). rewrite <- bpow_powerRZ. symmetry. apply (IZR_Zpower radix2). lia. }
    rewrite E. assert (0 < IZR (Z.pos k)) by (apply IZR_lt; lia). assert (IZR (Z.pos m) <= IZR (Z.pos k)) by (apply IZR_le; lia). assert (0 <= IZR (Z.pos m)) by (apply IZR_le; lia).
    rewrite Rmult_1_l. split. { apply Rmult_le_pos; auto. left. now apply Rinv_0_lt_compat. } apply Rmult_le_reg_r with (IZR (Z.pos k)); auto. rewrite Rmult_assoc, Rinv_l by lra. lra. }
  destruct (@dot_bounded (value f64_01) (value f64_02) (value f64_01) (value f64_03)) as (r & Er); try (eapply V; [vm_compute; reflexivity|lia|vm_compute; discriminate]).
  exists r. destruct (@C93_v_dot 53 1024 (fun x _ => x) eq_refl eq_refl 2 [(value f64_01, 0); (value f64_02, 0)] [(value f64_01, 0); (value f64_03, 0)] [f64_01; f64_02] [f64_01; f64_03] r) as (_ & s & Es & Ws); auto.
  - repeat (apply Forall2_cons || apply Forall2_nil); (split; [vm_compute; reflexivity|split; [reflexivity|cbn [fst snd]; rewrite Rminus_diag_eq, Rabs_R0; auto; lra]]).
  - repeat (apply Forall2_cons || apply Forall2_nil); (split; [vm_compute; reflexivity|split; [reflexivity|cbn [fst snd]; rewrite Rminus_diag_eq, Rabs_R0; auto; lra]]).
  - exists s. auto.
Qed.

Print Assumptions C93_v_add.
Print Assumptions C93_v_sub.
Print Assumptions C93_v_mul.
Print Assumptions C93_v_neg.
Print Assumptions C93_v_smul.
Print Assumptions C93_v_sum.
Print Assumptions C93_v_dot.
Print Assumptions C93_v_square_length.
Print Assumptions C93_v_cross2.
Print Assumptions C93_v_cross3.
Print Assumptions C93_v_cross4.
Print Assumptions C93_v_div.
Print Assumptions C93_v_sdiv.
Print Assumptions C93_m_add.
Print Assumptions C93_m_sub.
Print Assumptions C93_m_mul.
Print Assumptions C93_m_neg.
Print Assumptions C93_m_smul.
Print Assumptions C93_m_sum.
Print Assumptions C93_m_div.
Print Assumptions C93_m_sdiv.
Print Assumptions C93_m_dot.
Print Assumptions C93_m_dot_v.
Print Assumptions C93_v_dot_m.
Print Assumptions C93_m_outer.
Print Assumptions C93_m_det.
Print Assumptions C93_m_cofactor.
Print Assumptions C93_m_adj.
Print Assumptions C93_m_inv.
Print Assumptions C93_c_add.
Print Assumptions C93_c_sub.
Print Assumptions C93_c_mul.
Print Assumptions C93_c_neg.
Print Assumptions C93_c_conj.
Print Assumptions C93_c_mul_s.
Print Assumptions C93_c_norm_sqr.
Print Assumptions C93_c_dot.
Print Assumptions C93_c_inv.
Print Assumptions C93_c_div.
Print Assumptions C93_q_add.
Print Assumptions C93_q_sub.
Print Assumptions C93_q_mul.
Print Assumptions C93_q_neg.
Print Assumptions C93_q_conj.
Print Assumptions C93_q_mul_s.
Print Assumptions C93_q_mul_c.
Print Assumptions C93_c_mul_q.
Print Assumptions C93_q_norm_sqr.
Print Assumptions C93_q_dot.
Print Assumptions C93_q_inv.
Print Assumptions C93_q_div.
Print Assumptions C93_rot2_apply.
Print Assumptions C93_rot3_apply.
Print Assumptions C93_mo_apply_self.
