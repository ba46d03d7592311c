(** Specification vocabulary for C123: polynomials over the scalars, as scalars. *)
From Verif Require Export SpecRing SquareModel.
Set Implicit Arguments.
Local Open Scope nat_scope.
Local Open Scope list_scope.

Section Poly.
  Context {T : Type} {o : Ops T} (R : Ring o).
  (** A polynomial, or power series, is the sequence of its coefficients. *)
  Definition cauchy (a b : nat -> T) (k : nat) : T := bigsum R (S k) (fun i => r_mul R (a i) (b (k - i))).
  Definition constant (c : T) : nat -> T := fun k => match k with O => c | S _ => o_zero o end.
  Definition unknown : nat -> T := fun k => if k =? 1 then o_one o else o_zero o.
  (** The scalars on which the crate's code works with polynomials; no division. *)
  Definition poly_ops : Ops (nat -> T) :=
    {| o_zero := constant (o_zero o); o_one := constant (o_one o);
       o_add := fun a b => Ok (fun k => r_add R (a k) (b k)); o_sub := fun a b => Ok (fun k => r_sub R (a k) (b k));
       o_mul := fun a b => Ok (cauchy a b); o_div := fun _ _ => Panic; o_rem := fun _ _ => Panic;
       o_neg := fun a => Ok (fun k => r_opp R (a k));
       o_is_zero := fun _ => false; o_eq := fun _ _ => false; o_lt := fun _ _ => false; o_le := fun _ _ => false |}.
  (** det(x 1 - A), computed by the crate's own code on polynomials. *)
  Definition char_poly (N : nat) (a : list (list T)) : res (nat -> T) :=
    let! i := m_one poly_ops N in let! xi := m_smul poly_ops i unknown in
    let! c := m_sub poly_ops N N xi (map (map constant) a) in m_det poly_ops N c.
  (** c^k and the value of the first K coefficients at c. *)
  Fixpoint power (c : T) (k : nat) : T := match k with O => o_one o | S j => r_mul R c (power c j) end.
  Definition poly_value (p : nat -> T) (K : nat) (c : T) : T := bigsum R K (fun k => r_mul R (p k) (power c k)).
End Poly.

Section Powers.
  Context {T : Type} (o : Ops T).
  (** A^k, and p_0 1 + p_1 A + ... + p_(K-1) A^(K-1). *)
  Fixpoint m_power (N : nat) (a : list (list T)) (k : nat) : res (list (list T)) :=
    match k with O => m_one o N | S j => let! b := m_power N a j in m_dot o N N N a b end.
  Fixpoint m_poly (N : nat) (p : nat -> T) (a : list (list T)) (K : nat) : res (list (list T)) :=
    match K with
    | O => m_zero o N N
    | S k => let! s := m_poly N p a k in let! b := m_power N a k in let! t := m_smul o b (p k) in m_add o N N s t
    end.
End Powers.
