(** Concrete scalar types: unbounded integers and canonical rationals.  Nothing here models crate code;
    the instances show that the algebraic hypotheses of the theorems are met, and are used in examples. *)
From Coq Require Import ZArith QArith Qcanon.
From Verif Require Import SpecRing.
Set Implicit Arguments.
Local Open Scope Z_scope.

(** Unbounded integers; division truncates and panics on a zero divisor, like Rust's [/]. *)
Definition z_ops : Ops Z :=
  {| o_zero := 0; o_one := 1; o_add := ok2 Z.add; o_sub := ok2 Z.sub; o_mul := ok2 Z.mul;
     o_div := fun x y => if Z.eqb y 0 then Panic else Ok (Z.quot x y);
     o_rem := fun x y => if Z.eqb y 0 then Panic else Ok (Z.rem x y);
     o_neg := ok1 Z.opp; o_is_zero := Z.eqb 0; o_eq := Z.eqb; o_lt := Z.ltb; o_le := Z.leb |}.

Lemma z_ring_theory : ring_theory (o_zero z_ops) (o_one z_ops) Z.add Z.mul Z.sub Z.opp eq.
Proof. exact (mk_rt _ _ _ _ _ _ _ Z.add_0_l Z.add_comm Z.add_assoc Z.mul_1_l Z.mul_comm Z.mul_assoc
  Z.mul_add_distr_r (fun x y => eq_sym (Z.add_opp_r x y)) Z.add_opp_diag_r). Qed.

Definition z_ring : CRing z_ops :=
  @CRing_of_theory Z z_ops Z.add Z.mul Z.sub Z.opp (fun _ _ => eq_refl) (fun _ _ => eq_refl)
    (fun _ _ => eq_refl) (fun _ => eq_refl) z_ring_theory.

(** Exact rationals (canonical fractions). *)
Local Open Scope Qc_scope.
Definition qc_eqb (x y : Qc) : bool := if Qc_eq_dec x y then true else false.
Definition qc_ltb (x y : Qc) : bool := match x ?= y with Lt => true | _ => false end.
Definition qc_leb (x y : Qc) : bool := match x ?= y with Gt => false | _ => true end.
Definition qc_ops : Ops Qc :=
  {| o_zero := 0; o_one := 1; o_add := ok2 Qcplus; o_sub := ok2 Qcminus; o_mul := ok2 Qcmult;
     o_div := fun x y => if Qc_eq_dec y 0 then Panic else Ok (x / y);
     o_rem := fun x y => Panic;
     o_neg := ok1 Qcopp; o_is_zero := qc_eqb 0; o_eq := qc_eqb; o_lt := qc_ltb; o_le := qc_leb |}.
Definition qc_ring : CRing qc_ops :=
  @CRing_of_theory Qc qc_ops Qcplus Qcmult Qcminus Qcopp (fun _ _ => eq_refl) (fun _ _ => eq_refl)
    (fun _ _ => eq_refl) (fun _ => eq_refl) Qcrt.
Definition qc_field : Field qc_ops.
Proof.
  refine (@mkField Qc qc_ops qc_ring Qcinv _ _ _).
  - discriminate.
  - intros. apply Qcmult_inv_l. exact H.
  - intros x y H. cbn. destruct (Qc_eq_dec y 0); [contradiction|reflexivity].
Defined.
(** The integer [z] as a rational. *)
Definition qcz (z : Z) : Qc := Q2Qc (inject_Z z).

(** The rationals are formally real. *)
Lemma qc_sq_nonneg : forall x : Qc, 0 <= x * x.
Proof.
  intros [x Hx]. unfold Qcle, Qcmult. cbn [this Q2Qc]. rewrite !Qred_correct. unfold Qle. cbn [Qnum Qden Qmult].
  rewrite Z.mul_0_l, Z.mul_1_r. apply Z.square_nonneg.
Qed.
Lemma qc_sum_zero : forall x y : Qc, 0 <= x -> 0 <= y -> x + y = 0 -> x = 0 /\ y = 0.
Proof.
  intros x y Hx Hy E. assert (Ex : x = 0).
  { apply Qcle_antisym; auto. rewrite <- E. rewrite <- (Qcplus_0_r x) at 1. apply Qcplus_le_compat; auto. apply Qcle_refl. }
  split; auto. subst x. rewrite Qcplus_0_l in E. auto.
Qed.
Lemma qc_real4 : real4 qc_field.
Proof.
  intros a b c d H. cbn in *.
  assert (P2 : forall x y : Qc, 0 <= x -> 0 <= y -> 0 <= x + y).
  { intros. rewrite <- (Qcplus_0_l 0). apply Qcplus_le_compat; auto. }
  pose proof qc_sq_nonneg as S.
  assert (I : forall x, x * x = 0 -> x = 0). { intros x Hx. apply Qcmult_integral in Hx. tauto. }
  apply qc_sum_zero in H as (H & Hd); auto. apply qc_sum_zero in H as (H & Hc); auto. apply qc_sum_zero in H as (Ha & Hb); auto.
Qed.
Lemma qc_real2 : real2 qc_field.
Proof.
  intros a b H. destruct (@qc_real4 a b 0 0) as (A & B & _); [|auto]. cbn in *. rewrite H. reflexivity.
Qed.
