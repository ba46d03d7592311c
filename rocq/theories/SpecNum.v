(** Specification for C83: the complex functions of mathematics on Coquelicot's [C] = R * R, and the contract of
    [num_complex] over the reals: its functions compute them (the formulas are those in its documentation).
    Nothing here refers to the model of the crate's own code except the record of delegated functions. *)
From Coq Require Import Reals ZArith.
From Coquelicot Require Import Complex.
From Verif Require Import RealInst NumModel.
Set Implicit Arguments.
Local Open Scope C_scope.

Definition two_i : C := (0, 2)%R.
(** exp (x + iy) = e^x (cos y + i sin y). *)
Definition Cexp (z : C) : C := (exp (fst z) * cos (snd z), exp (fst z) * sin (snd z))%R.
(** Principal logarithm: ln |z| + i arg z, arg in (-pi, pi]. *)
Definition Cln (z : C) : C := (ln (Cmod z), atan2 (snd z) (fst z)).
(** Principal roots: n-th root of the modulus, n-th part of the argument. *)
Definition Csqrt (z : C) : C := let r := sqrt (Cmod z) in let t := (atan2 (snd z) (fst z) / 2)%R in (r * cos t, r * sin t)%R.
Definition Csin (z : C) : C := (Cexp (Ci * z) - Cexp (- (Ci * z))) / two_i.
Definition Ccos (z : C) : C := (Cexp (Ci * z) + Cexp (- (Ci * z))) / RtoC 2.
Definition Csinh (z : C) : C := (Cexp z - Cexp (- z)) / RtoC 2.
Definition Ccosh (z : C) : C := (Cexp z + Cexp (- z)) / RtoC 2.
Fixpoint Cpow (z : C) (n : nat) : C := match n with O => RtoC 1 | S k => z * Cpow z k end.

(** The contract.  Functions with poles or branch points are specified away from them only. *)
Record textbook {Str : Type} (N : num_complex R Str) : Prop := mkTextbook {
  tb_powu : forall z n, n_powu N z n = Ok (Cpow z n);
  tb_powi : forall z k, z <> RtoC 0 -> n_powi N z k = Ok (if (0 <=? k)%Z then Cpow z (Z.to_nat k) else Cpow (/ z) (Z.to_nat (- k)));
  tb_exp : forall z, n_exp N z = Ok (Cexp z);
  tb_ln : forall z, z <> RtoC 0 -> n_ln N z = Ok (Cln z);
  tb_sqrt : forall z, n_sqrt N z = Ok (Csqrt z);
  tb_cbrt : forall z, z <> RtoC 0 -> n_cbrt N z = Ok (Cexp (Cln z / RtoC 3));
  tb_powf : forall z t, z <> RtoC 0 -> n_powf N z t = Ok (Cexp (RtoC t * Cln z));
  tb_log : forall z b, z <> RtoC 0 -> (0 < b)%R -> b <> 1%R -> n_log N z b = Ok (Cln z / RtoC (ln b));
  tb_powc : forall z w, z <> RtoC 0 -> n_powc N z w = Ok (Cexp (w * Cln z));
  tb_expf : forall z b, (0 < b)%R -> n_expf N z b = Ok (Cexp (z * RtoC (ln b)));
  tb_sin : forall z, n_sin N z = Ok (Csin z);
  tb_cos : forall z, n_cos N z = Ok (Ccos z);
  tb_tan : forall z, Ccos z <> RtoC 0 -> n_tan N z = Ok (Csin z / Ccos z);
  tb_asin : forall z, n_asin N z = Ok (- Ci * Cln (Csqrt (RtoC 1 - z * z) + Ci * z));
  tb_acos : forall z, n_acos N z = Ok (- Ci * Cln (Ci * Csqrt (RtoC 1 - z * z) + z));
  tb_atan : forall z, z <> Ci -> z <> - Ci -> n_atan N z = Ok ((Cln (RtoC 1 + Ci * z) - Cln (RtoC 1 - Ci * z)) / two_i);
  tb_sinh : forall z, n_sinh N z = Ok (Csinh z);
  tb_cosh : forall z, n_cosh N z = Ok (Ccosh z);
  tb_tanh : forall z, Ccosh z <> RtoC 0 -> n_tanh N z = Ok (Csinh z / Ccosh z);
  tb_asinh : forall z, n_asinh N z = Ok (Cln (z + Csqrt (RtoC 1 + z * z)));
  tb_acosh : forall z, n_acosh N z = Ok (RtoC 2 * Cln (Csqrt ((z + RtoC 1) / RtoC 2) + Csqrt ((z - RtoC 1) / RtoC 2)));
  tb_atanh : forall z, z <> RtoC 1 -> z <> - RtoC 1 -> n_atanh N z = Ok ((Cln (RtoC 1 + z) - Cln (RtoC 1 - z)) / RtoC 2);
  tb_finv : forall z, z <> RtoC 0 -> n_finv N z = Ok (/ z);
  tb_fdiv : forall z w, w <> RtoC 0 -> n_fdiv N z w = Ok (z / w);
  tb_rem : forall z w, w <> RtoC 0 -> exists p q : Z, n_rem N z w = Ok (z - w * (IZR p, IZR q)) /\
    (Rabs (fst (z / w)%C - IZR p) < 1 /\ Rabs (snd (z / w)%C - IZR q) < 1)%R
}.
