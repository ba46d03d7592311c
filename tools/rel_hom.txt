(** Homomorphisms in use.  The integers inside the rationals: *)
Theorem C72_integers_in_rationals : hom qcz z_ops qc_ops.
Proof.
  constructor; intros; cbn [o_zero o_one o_add o_sub o_mul o_neg z_ops qc_ops ok1 ok2 rmap bind]; try reflexivity; unfold ok1, ok2; f_equal; apply Qc_is_canon;
    unfold qcz, Qcminus, Qcplus, Qcmult, Qcopp, Q2Qc; cbn [this]; rewrite ?Qred_correct; unfold Qeq; cbn [Qplus Qmult Qopp Qnum Qden inject_Z]; lia.
Qed.
(** so the determinant of an integer matrix is the same computed over the rationals; *)
Corollary C72_rational_det : forall N m, rect N N m -> m_det qc_ops N (map (map qcz) m) = rmap qcz (m_det z_ops N m).
Proof. intros. apply (C72_m_det C72_integers_in_rationals). auto. Qed.

(** scalars inside the complex numbers, complex numbers inside the quaternions, conjugation: *)
Section Extensions.
  Context {T : Type} {o : Ops T} (R : CRing o) (rem : complex T -> complex T -> res (complex T)).
  Local Notation co := (c_ops o rem).
  Add Ring TR : (CRing_theory R).
  Local Ltac go := intros; cbn [o_zero o_one o_add o_sub o_mul o_neg c_ops q_ops re im qw qx qy qz];
    rewrite ?(c_add_v R), ?(c_sub_v R), ?(c_mul_v R), ?(c_neg_v R), ?(q_add_v R), ?(q_sub_v R), ?(q_mul_v R), ?(q_neg_v R),
      ?(r_add_ok R), ?(r_sub_ok R), ?(r_mul_ok R), ?(r_neg_ok R);
    cbn [rmap bind re im qw qx qy qz]; try apply f_equal; try (apply f_equal2; ring); try (apply f_equal4; ring); try reflexivity; try ring.
  Theorem C72_scalars_in_complex : hom (fun x => Cx x (o_zero o)) o co.
  Proof.
    constructor; go.
  Qed.
  Theorem C72_complex_in_quaternions : hom (fun z : complex T => Qt (re z) (im z) (o_zero o) (o_zero o)) co (q_ops o).
  Proof. constructor; go. Qed.
  Theorem C72_conjugation : hom (fun z : complex T => Cx (re z) (r_opp R (im z))) co co.
  Proof. constructor; go. Qed.
  (** The determinant of the conjugated matrix is the conjugate of the determinant. *)
  Corollary C72_conj_det : forall N m, rect N N m ->
    (let! mc := m_map (c_conj o) m in m_det co N mc) =! (let! d := m_det co N m in c_conj o d).
  Proof.
    intros N m Hm. assert (E : m_map (c_conj o) m = Ok (map (map (fun z => Cx (re z) (r_opp R (im z)))) m)).
    { rewrite m_map_res. clear Hm. induction m as [|r m IH]; cbn [map_res map]; auto.
      assert (Er : map_res (c_conj o) r = Ok (map (fun z => Cx (re z) (r_opp R (im z))) r)).
      { clear IH. induction r as [|z r IHr]; cbn [map_res map]; auto. rewrite (c_conj_v R), IHr. reflexivity. }
      rewrite Er, IH. reflexivity. }
    rewrite E. cbn [bind]. pose proof (C72_m_det C72_conjugation Hm) as X. cbn beta in X. rewrite X.
    rewrite (C30_leibniz (c_ring_inst R rem) Hm). cbn [rmap bind]. rewrite (c_conj_v R). eexists. split; reflexivity.
  Qed.
End Extensions.
