(** Dual numbers and differentiable curves, for C116. *)
From Coq Require Import Reals List.
From Verif Require Import Res ComplexModel SpecMachine RealInst.
Import ListNotations.
Set Implicit Arguments.
Local Open Scope R_scope.

(** A dual number x + x'e with e*e = 0, the scalar type of forward mode automatic differentiation: a number and its derivative. *)
Definition dual : Type := R * R.
Definition dual_ops : Ops dual :=
  {| o_zero := (0, 0); o_one := (1, 0);
     o_add := fun x y => Ok (fst x + fst y, snd x + snd y);
     o_sub := fun x y => Ok (fst x - fst y, snd x - snd y);
     o_mul := fun x y => Ok (fst x * fst y, snd x * fst y + fst x * snd y);
     o_div := fun x y => if Req_EM_T (fst y) 0 then Panic else Ok (fst x / fst y, (snd x * fst y - fst x * snd y) / (fst y * fst y));
     o_rem := fun _ _ => Panic; o_neg := fun x => Ok (- fst x, - snd x);
     o_is_zero := fun x => r_eqb 0 (fst x); o_eq := fun x y => r_eqb (fst x) (fst y);
     o_lt := fun x y => r_ltb (fst x) (fst y); o_le := fun x y => r_leb (fst x) (fst y) |}.

(** At time [t0] the number [c] that depends on time has the value and the derivative that [d] tells. *)
Definition moves (t0 : R) (c : R -> R) (d : dual) : Prop := c t0 = fst d /\ derivable_pt_lim c t0 (snd d).
Definition v_moves (t0 : R) : list (R -> R) -> list dual -> Prop := Forall2 (moves t0).
Definition m_moves (t0 : R) : list (list (R -> R)) -> list (list dual) -> Prop := Forall2 (v_moves t0).
Definition c_moves (t0 : R) (z : complex (R -> R)) (d : complex dual) : Prop := moves t0 (re z) (re d) /\ moves t0 (im z) (im d).
Definition q_moves (t0 : R) (z : quat (R -> R)) (d : quat dual) : Prop :=
  moves t0 (qw z) (qw d) /\ moves t0 (qx z) (qx d) /\ moves t0 (qy z) (qy d) /\ moves t0 (qz z) (qz d).
(** Where a vector, a matrix, ... whose components depend on time is at time [t]. *)
Definition v_at (t : R) (v : list (R -> R)) : list R := map (fun c => c t) v.
Definition m_at (t : R) (m : list (list (R -> R))) : list (list R) := map (v_at t) m.
Definition c_at (t : R) (z : complex (R -> R)) : complex R := c_map (fun c => c t) z.
Definition q_at (t : R) (z : quat (R -> R)) : quat R := q_map (fun c => c t) z.
(** At all times close to [t0]. *)
Definition near (t0 : R) (P : R -> Prop) : Prop := exists d, 0 < d /\ forall t, Rabs (t - t0) < d -> P t.
(** Value and derivative of a vector or matrix of dual numbers. *)
Definition v_value : list dual -> list R := map fst.
Definition v_rate : list dual -> list R := map snd.
Definition m_value : list (list dual) -> list (list R) := map v_value.
Definition m_rate : list (list dual) -> list (list R) := map v_rate.
