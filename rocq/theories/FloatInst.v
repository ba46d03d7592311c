(** IEEE-754 scalars: [f32] and [f64] as the standard library's specification of binary floating point
    (Coq.Floats.SpecFloat: signed zeros, infinities, one NaN, round to nearest even), for any precision and
    exponent range.  Nothing here models crate code; the instance is what the crate's generic code receives
    when [T] is [f32] (24, 128) or [f64] (53, 1024). *)
From Coq Require Import ZArith SpecFloat Lia.
From Verif Require Import Res Spec.
Set Implicit Arguments.

(** [rem] is Rust's [%] (C's fmod), which SpecFloat does not define: any function. *)
Definition sf_ops (prec emax : Z) (rem : spec_float -> spec_float -> spec_float) : Ops spec_float :=
  {| o_zero := S754_zero false; o_one := SFone prec emax;
     o_add := ok2 (SFadd prec emax); o_sub := ok2 (SFsub prec emax); o_mul := ok2 (SFmul prec emax);
     o_div := ok2 (SFdiv prec emax); o_rem := ok2 rem; o_neg := ok1 SFopp;
     o_is_zero := fun x => SFeqb x (S754_zero false);
     o_eq := SFeqb; o_lt := SFltb; o_le := SFleb |}.

Definition is_nan (x : spec_float) : bool := match x with S754_nan => true | _ => false end.

Lemma cond_Zopp_negb : forall b m, cond_Zopp (negb b) m = (- cond_Zopp b m)%Z.
Proof. intros [] m; cbn; lia. Qed.
Lemma eqb_comm : forall a b, Bool.eqb a b = Bool.eqb b a.
Proof. intros [] []; reflexivity. Qed.

Lemma SFadd_comm : forall p e x y, SFadd p e x y = SFadd p e y x.
Proof.
  intros p e [[]|[]| |s m k] [[]|[]| |s' m' k']; cbn [SFadd]; try reflexivity.
  rewrite Z.min_comm, Z.add_comm. reflexivity.
Qed.
Lemma SFmul_comm : forall p e x y, SFmul p e x y = SFmul p e y x.
Proof.
  intros p e [[]|[]| |s m k] [[]|[]| |s' m' k']; cbn [SFmul]; try reflexivity; try (destruct s'; reflexivity); try (destruct s; reflexivity).
  rewrite Pos.mul_comm, Z.add_comm, Bool.xorb_comm. reflexivity.
Qed.
Lemma SFopp_opp : forall x, SFopp (SFopp x) = x.
Proof. intros [[]|[]| |[] m k]; reflexivity. Qed.
Lemma SFmul_opp : forall p e x y, SFmul p e (SFopp x) (SFopp y) = SFmul p e x y.
Proof. intros p e [[]|[]| |[] m k] [[]|[]| |[] m' k']; reflexivity. Qed.
Lemma SFsub_opp : forall p e x y, SFsub p e x y = SFadd p e x (SFopp y).
Proof. intros p e [[]|[]| |s m k] [[]|[]| |s' m' k']; try reflexivity. cbn [SFsub SFadd SFopp]. rewrite cond_Zopp_negb. reflexivity. Qed.

(** Comparison: NaN is incomparable with everything, the rest is totally ordered (with -0 = +0). *)
Lemma SFcompare_nan : forall x y, SFcompare x y = None <-> is_nan x = true \/ is_nan y = true.
Proof.
  intros [[]|[]| |[] m k] [[]|[]| |[] m' k']; cbn; split; intros H; try discriminate; try tauto;
    destruct H; discriminate.
Qed.
Lemma SFltb_nan_l : forall y, SFltb S754_nan y = false. Proof. reflexivity. Qed.
Lemma SFltb_nan_r : forall x, SFltb x S754_nan = false. Proof. intros [[]|[]| |[] m k]; reflexivity. Qed.

(* an order-preserving code of the non-NaN values in (Z * Z * Z) under the lexicographic order *)
Definition code (x : spec_float) : Z * Z * Z :=
  match x with
  | S754_nan | S754_zero _ => (0, 0, 0)%Z
  | S754_infinity true => (-2, 0, 0)%Z
  | S754_infinity false => (2, 0, 0)%Z
  | S754_finite false m e => (1, e, Z.pos m)%Z
  | S754_finite true m e => (-1, - e, Z.neg m)%Z
  end.
Definition clt (a b : Z * Z * Z) : Prop :=
  let '(x, y, z) := a in let '(x', y', z') := b in (x < x' \/ (x = x' /\ (y < y' \/ (y = y' /\ z < z'))))%Z.
Lemma SFltb_code : forall x y, is_nan x = false -> is_nan y = false -> SFltb x y = true <-> clt (code x) (code y).
Proof.
  intros [[]|[]| |[] m k] [[]|[]| |[] m' k'] Hx Hy; try discriminate Hx; try discriminate Hy; unfold SFltb, SFcompare, clt, code;
    try (split; intros H; (reflexivity || discriminate H || lia)).
  - change (Pos.compare_cont Eq m m') with (m ?= m')%positive. destruct (Z.compare_spec k k') as [->|L|L]; [|split; intros; (discriminate || lia)|split; intros; (reflexivity || lia)].
    destruct (Pos.compare_spec m m') as [->|L|L]; cbn [CompOpp]; split; intros H; try discriminate; try reflexivity; lia.
  - change (Pos.compare_cont Eq m m') with (m ?= m')%positive. destruct (Z.compare_spec k k') as [->|L|L]; [|split; intros; (reflexivity || lia)|split; intros; (discriminate || lia)].
    destruct (Pos.compare_spec m m') as [->|L|L]; split; intros H; try discriminate; try reflexivity; lia.
Qed.
Lemma SFltb_code_false : forall x y, is_nan x = false -> is_nan y = false -> SFltb x y = false <-> ~ clt (code x) (code y).
Proof. intros. rewrite <- SFltb_code by auto. destruct (SFltb x y); split; intros; congruence. Qed.
