(** Properties C53 (closed form) and C67 (chain rule) for Moebius transformations, over any formally real
    field. *)
From Coq Require Import ZArith QArith Ring Field.
From Verif Require Import SpecTransform SpecFacts MFacts MoFacts CxFacts PropMoebius PropComplex Instances.
Set Implicit Arguments.
Local Open Scope list_scope.


(** The algebra of the chain rule, in a ring that need not be commutative. *)
Section Algebra.
  Context {T : Type} {o : Ops T} (D : DivRing o).
  Local Notation "0" := (o_zero o).
  Local Notation "x + y" := (r_add D x y).
  Local Notation "x * y" := (r_mul D x y).
  Local Notation "x - y" := (r_sub D x y).
  Local Notation "- x" := (r_opp D x).
  Local Notation "/ x" := (d_inv D x).

  (** The derivative of [x -> (a x + b) (c x + d)^-1] along [v], where [y] is the value and [w] the denominator. *)
  Definition dform (a c y w v : T) : T := (a * v - y * (c * v)) * / w.

  Lemma sub_distr_l : forall x y z, (x - y) * z = x * z - y * z.
  Proof. intros. rewrite !(r_sub_def D), (r_distr_l D), (r_opp_mul_l D). auto. Qed.
  Lemma sub_distr_r : forall x y z, z * (x - y) = z * x - z * y.
  Proof. intros. rewrite !(r_sub_def D), (r_distr_r D), (r_opp_mul_r D). auto. Qed.
  Lemma abel : forall t u s q, ((t + u) + s) + (q + - u) = s + (q + t).
  Proof.
    intros. replace ((t + u) + s) with ((t + s) + u).
    - rewrite (r_add_swap D), (r_opp_def D), (r_add_0_r D), (r_add_comm D t s), <- (r_add_assoc D). f_equal. apply (r_add_comm D).
    - rewrite <- !(r_add_assoc D). f_equal. apply (r_add_comm D).
  Qed.
  Lemma chain_num : forall A B C E l k y z, A * y + B = z * (C * y + E) ->
    (A * l + B * k) - z * (C * l + E * k) = A * (l - y * k) - z * (C * (l - y * k)).
  Proof.
    intros A B C E l k y z H.
    assert (K : A * (y * k) + B * k = z * (C * (y * k)) + z * (E * k)).
    { rewrite !(r_mul_assoc D), <- (r_distr_l D), H, (r_distr_r D), (r_distr_l D), !(r_mul_assoc D). auto. }
    assert (L : B * k = z * (C * (y * k)) + z * (E * k) - A * (y * k)).
    { rewrite <- K, (r_sub_def D), (r_add_comm D (A * (y * k))), <- (r_add_assoc D), (r_opp_def D). symmetry. apply (r_add_0_r D). }
    rewrite L, (r_distr_r D), !sub_distr_r, !(r_sub_def D), !(r_opp_add D), !(r_opp_opp D).
    set (p := A * l). set (q := z * (C * l)). set (s := A * (y * k)). set (t := z * (C * (y * k))). set (u := z * (E * k)).
    rewrite <- !(r_add_assoc D). f_equal. rewrite !(r_add_assoc D). rewrite <- (r_add_assoc D (- s)). rewrite <- (r_add_assoc D _ (- q) (- u)).
    apply abel.
  Qed.
  (** Chain rule. *)
  Lemma chain_dform : forall A B C E a b c d p v,
    let w := c * p + d in let y := (a * p + b) * / w in let W := C * y + E in let z := (A * y + B) * / W in
    w <> 0 -> W <> 0 ->
    dform (A * a + B * c) (C * a + E * c) z ((C * a + E * c) * p + (C * b + E * d)) v =
    dform A C z W (dform a c y w v).
  Proof.
    intros A B C E a b c d p v w y W z Hw HW. unfold dform.
    assert (Ew : (C * a + E * c) * p + (C * b + E * d) = W * w).
    { rewrite <- (mo_lin D). unfold W, y. fold w. rewrite (r_distr_l D), <- !(r_mul_assoc D), (d_inv_l D Hw), (r_mul_1_r D). auto. }
    rewrite Ew. assert (I : / (W * w) = / w * / W).
    { symmetry. apply (d_inv_unique D). { apply (d_mul_nz D); auto. }
      rewrite (r_mul_assoc D), <- (r_mul_assoc D W), (d_inv_r D Hw), (r_mul_1_r D). apply (d_inv_r D HW). }
    rewrite I.
    assert (Hz : A * y + B = z * (C * y + E)).
    { unfold z. fold W. rewrite <- (r_mul_assoc D), (d_inv_l D HW), (r_mul_1_r D). auto. }
    set (k := a * v - y * (c * v)).
    assert (R1 : A * (k * / w) - z * (C * (k * / w)) = (A * k - z * (C * k)) * / w).
    { rewrite sub_distr_l, !(r_mul_assoc D). auto. }
    rewrite R1, (r_mul_assoc D _ (/ w) (/ W)). f_equal. f_equal. unfold k.
    rewrite !(r_distr_l D), <- !(r_mul_assoc D). apply chain_num. exact Hz.
  Qed.
End Algebra.

Section FieldForm.
  Context {T : Type} {o : Ops T} (F : Field o).
  Add Field Fff : (Field_theory F).
  Local Notation "x + y" := (r_add F x y).
  Local Notation "x * y" := (r_mul F x y).
  Local Notation "x - y" := (r_sub F x y).
  Local Notation "/ x" := (f_inv F x).
  Lemma dform_field : forall a c u w v, w <> o_zero o ->
    (a * w - u * c) * / (w * w) * v = dform (field_div F) a c (u * / w) w v.
  Proof. intros. unfold dform. cbn [d_ring d_inv field_div]. field. assumption. Qed.
End FieldForm.

(** The second term of [deriv_dir]: [(conj e - conj w * 2 <w, e> / |w|^2) / |w|^2 = - w^-1 e w^-1]. *)
Section QForm.
  Context {T : Type} {o : Ops T} (F : Field o) (H4 : real4 F).
  Add Field Fqf : (Field_theory F).
  Local Notation "x + y" := (r_add F x y).
  Local Notation "x * y" := (r_mul F x y).
  Local Notation "x - y" := (r_sub F x y).
  Local Notation "- x" := (r_opp F x).
  Local Notation "x / y" := (r_mul F x (f_inv F y)).
  Local Notation Q := (q_div_inst H4).
  Lemma qform : forall two w e, two = o_one o + o_one o -> q_nrm F w <> o_zero o ->
    let k := (qw w * qw e + qx w * qx e + qy w * qy e + qz w * qz e) * two / q_nrm F w in
    Qt ((qw e - qw w * k) / q_nrm F w) ((- qx e - (- qx w) * k) / q_nrm F w)
       ((- qy e - (- qy w) * k) / q_nrm F w) ((- qz e - (- qz w) * k) / q_nrm F w) =
    r_opp Q (r_mul Q (d_inv Q w) (r_mul Q e (d_inv Q w))).
  Proof.
    intros two [w0 w1 w2 w3] [e0 e1 e2 e3] -> H k. unfold k, q_nrm in *. cbn [qw qx qy qz] in *.
    cbn. unfold q_finv, q_nrm. cbn. f_equal; field; exact H.
  Qed.
End QForm.

Section MoebiusQ.
  Context {T : Type} {o : Ops T} (F : Field o) (rem : complex T -> complex T -> res (complex T)) (H4 : real4 F).
  Context (two : T) (Htwo : o_add o (o_one o) (o_one o) = Ok two).
  Local Notation Q := (q_div_inst H4).
  Local Notation co := (c_ops o rem).
  Local Notation z4 := (Qt (o_zero o) (o_zero o) (o_zero o) (o_zero o)).

  Lemma two_v : two = r_add F (o_one o) (o_one o).
  Proof. rewrite (r_add_ok F) in Htwo. apply Ok_inj in Htwo. auto. Qed.

  Lemma mo_deriv_dir_v : forall a b c d p v, let w := r_add Q (r_mul Q (cq o c) p) (cq o d) in w <> z4 ->
    mo_deriv_dir o two [[a; b]; [c; d]] p v =
    Ok (dform Q (cq o a) (cq o c) (r_mul Q (r_add Q (r_mul Q (cq o a) p) (cq o b)) (d_inv Q w)) w v).
  Proof.
    intros a b c d p v w Hw. unfold mo_deriv_dir, lift1, lift2.
    change (mo_a [[a; b]; [c; d]]) with (Ok a). change (mo_b [[a; b]; [c; d]]) with (Ok b).
    change (mo_c [[a; b]; [c; d]]) with (Ok c). change (mo_d [[a; b]; [c; d]]) with (Ok d). cbn [bind].
    rewrite !(cq_mul_q F). cbn [bind]. rewrite !(cq_add_q F). cbn [bind].
    change (r_add (q_ring_inst F) (r_mul (q_ring_inst F) (cq o c) p) (cq o d)) with w.
    pose proof (q_nrm_neq H4 Hw) as Hn.
    change (r_add (q_ring_inst F) (r_mul (q_ring_inst F) (cq o a) p) (cq o b)) with (r_add Q (r_mul Q (cq o a) p) (cq o b)).
    set (u := r_add Q (r_mul Q (cq o a) p) (cq o b)).
    change (r_mul (q_ring_inst F) (cq o a) v) with (r_mul Q (cq o a) v).
    change (r_mul (q_ring_inst F) (cq o c) v) with (r_mul Q (cq o c) v).
    set (e := r_mul Q (cq o c) v). set (l := r_mul Q (cq o a) v).
    rewrite (q_norm_sqr_v F). cbn [bind].
    match goal with |- context [Ok ?n] => change n with (q_nrm F w) end || idtac.
    assert (DV : forall x, q_div o x w = Ok (r_mul Q x (d_inv Q w))) by (intros; exact (d_div_ok Q x Hw)).
    rewrite DV. cbn [bind]. rewrite !(q_conj_v F). cbn [bind]. rewrite (q_dot_v F). cbn [bind]. rewrite (r_mul_ok F). cbn [bind].
    rewrite (f_div_ok F) by exact Hn. cbn [bind]. rewrite (q_mul_s_v F). cbn [bind]. rewrite (q_sub_v F). cbn [bind].
    rewrite (q_div_s_v F) by exact Hn. cbn [bind].
    cbn [qw qx qy qz].
    pose proof (@qform _ _ F H4 two w e two_v Hn) as QF. cbv zeta in QF.
    match goal with |- context [q_mul o u ?X] => change X with
      (let k := r_mul F (r_mul F (r_add F (r_add F (r_add F (r_mul F (qw w) (qw e)) (r_mul F (qx w) (qx e))) (r_mul F (qy w) (qy e))) (r_mul F (qz w) (qz e))) two) (f_inv F (q_nrm F w)) in
       Qt (r_mul F (r_sub F (qw e) (r_mul F (qw w) k)) (f_inv F (q_nrm F w)))
          (r_mul F (r_sub F (r_opp F (qx e)) (r_mul F (r_opp F (qx w)) k)) (f_inv F (q_nrm F w)))
          (r_mul F (r_sub F (r_opp F (qy e)) (r_mul F (r_opp F (qy w)) k)) (f_inv F (q_nrm F w)))
          (r_mul F (r_sub F (r_opp F (qz e)) (r_mul F (r_opp F (qz w)) k)) (f_inv F (q_nrm F w)))) end.
    cbv zeta. rewrite QF.
    rewrite (r_mul_ok Q : forall x y, q_mul o x y = _). cbn [bind]. rewrite (r_add_ok Q : forall x y, q_add o x y = _).
    f_equal. unfold dform. fold e l. rewrite sub_distr_l, (r_sub_def Q). f_equal.
    rewrite (r_opp_mul_r Q), !(r_mul_assoc Q). reflexivity.
  Qed.

  (** [deriv_dir(p, v) = (a v - y (c v)) / (c p + d)] where [y = apply(p)]. *)
  Theorem C53_closed_form : forall m p v, rect 2 2 m -> off_pole_q o rem m p ->
    mo_deriv_dir o two m p v =!
    (let! y := mo_apply_q o m p in
     let! av := c_mul_q o (mget co m 0 0) v in
     let! cv := c_mul_q o (mget co m 1 0) v in
     let! n := lift2 (q_sub o) (Ok av) (q_mul o y cv) in
     let! cp := c_mul_q o (mget co m 1 0) p in
     let! w := q_add_c o cp (mget co m 1 1) in
     q_div o n w).
  Proof.
    intros m p v Rm Hp. destruct (rect22 Rm) as (a & b & c & d & ->).
    rewrite (off_pole_q_iff rem H4), (off_pole_D Q) in Hp.
    change (r_add Q (r_mul Q (cq o c) p) (cq o d) <> z4) in Hp.
    rewrite (@mo_deriv_dir_v _ _ _ _ _ _ Hp).
    rewrite (mo_apply_q_cq F), (mo_apply_v Q) by exact Hp. cbn [bind].
    change (mget co [[a; b]; [c; d]] 0 0) with a. change (mget co [[a; b]; [c; d]] 1 0) with c. change (mget co [[a; b]; [c; d]] 1 1) with d.
    rewrite !(cq_mul_q F). cbn [bind]. unfold lift2. rewrite (r_mul_ok Q : forall x y, q_mul o x y = _). cbn [bind].
    rewrite (r_sub_ok Q : forall x y, q_sub o x y = _). cbn [bind]. rewrite (cq_add_q F). cbn [bind].
    match goal with |- context [q_div o ?x ?y] => rewrite (d_div_ok Q x Hp : q_div o x y = _) end.
    eexists. split; reflexivity.
  Qed.

  (** The chain rule for quaternion points. *)
  Theorem C67_moebius_q_chain_rule : forall fo m n c p v y, f_two fo = two -> rect 2 2 m -> rect 2 2 n ->
    off_pole_q o rem n p -> mo_apply_q o n p = Ok y -> off_pole_q o rem m y -> mo_chain co m n = Ok c ->
    let t := moebius_q_transform o rem fo in
    t_deriv t c p v =! (let! y := t_apply t n p in let! e := t_deriv t n p v in t_deriv t m y e).
  Proof.
    intros fo m n c0 p v y0 E2 Rm Rn Hp Hy Hm Hc t. subst t. cbn [t_deriv t_apply moebius_q_transform]. rewrite E2.
    destruct (rect22 Rm) as (A & B & C & D & ->). destruct (rect22 Rn) as (a & b & c & d & ->).
    rewrite (off_pole_q_iff rem H4), (off_pole_D Q) in Hp.
    change (r_add Q (r_mul Q (cq o c) p) (cq o d) <> z4) in Hp.
    rewrite (mo_apply_q_cq F), (mo_apply_v Q) in Hy by exact Hp. apply Ok_inj in Hy.
    rewrite (off_pole_q_iff rem H4), (off_pole_D Q) in Hm. rewrite <- Hy in Hm.
    rewrite (mo_apply_q_cq F), (mo_apply_v Q) by exact Hp. cbn [bind].
    rewrite (@mo_deriv_dir_v _ _ _ _ _ _ Hp). cbn [bind]. rewrite (@mo_deriv_dir_v _ _ _ _ _ _ Hm).
    unfold mo_chain in Hc. rewrite (m_dot_22 (c_ring_inst F rem)) in Hc. apply Ok_inj in Hc. subst c0.
    pose proof (@chain_dform _ _ Q (cq o A) (cq o B) (cq o C) (cq o D) (cq o a) (cq o b) (cq o c) (cq o d) p v Hp Hm) as CD.
    cbv zeta in CD.
    assert (W : r_add Q (r_mul Q (r_add Q (r_mul Q (cq o C) (cq o a)) (r_mul Q (cq o D) (cq o c))) p)
                 (r_add Q (r_mul Q (cq o C) (cq o b)) (r_mul Q (cq o D) (cq o d))) <> z4).
    { rewrite <- (mo_lin Q). exact (mo_quot_nz Q _ _ _ Hp Hm). }
    eexists. split; [|reflexivity]. rewrite <- CD.
    rewrite mo_deriv_dir_v.
    - rewrite !(cq_add F rem), !(cq_mul F rem). f_equal. f_equal.
      pose proof (mo_quot_nz Q _ _ _ Hp Hm) as Hq.
      destruct (mo_quot Q (cq o A) (cq o B) _ _ _ Hp Hq) as (_ & QQ).
      etransitivity; [|symmetry; exact QQ]. rewrite !(mo_lin Q). reflexivity.
    - rewrite !(cq_add F rem), !(cq_mul F rem). exact W.
  Qed.
End MoebiusQ.

Section MoebiusC.
  Context {T : Type} {o : Ops T} (F : Field o) (rem : complex T -> complex T -> res (complex T)) (H2 : real2 F).
  Local Notation co := (c_ops o rem).
  Local Notation K := (c_field_inst (F:=F) rem H2).
  Local Notation D := (field_div K).

  Lemma mo_deriv_v : forall a b c d p v, let w := r_add K (r_mul K c p) d in w <> o_zero co ->
    (let! e := mo_deriv o [[a; b]; [c; d]] p in c_mul o e v) =
    Ok (dform D a c (r_mul K (r_add K (r_mul K a p) b) (f_inv K w)) w v).
  Proof.
    intros a b c d p v w Hw. rewrite <- (dform_field K) by exact Hw.
    unfold mo_deriv, lift2.
    change (mo_a [[a; b]; [c; d]]) with (Ok a). change (mo_b [[a; b]; [c; d]]) with (Ok b).
    change (mo_c [[a; b]; [c; d]]) with (Ok c). change (mo_d [[a; b]; [c; d]]) with (Ok d). cbn [bind].
    assert (M : forall x y, c_mul o x y = Ok (r_mul K x y)) by exact (r_mul_ok K).
    assert (A : forall x y, c_add o x y = Ok (r_add K x y)) by exact (r_add_ok K).
    assert (S : forall x y, c_sub o x y = Ok (r_sub K x y)) by exact (r_sub_ok K).
    rewrite !M. cbn [bind]. rewrite !A. cbn [bind]. fold w. rewrite !M. cbn [bind]. rewrite S. cbn [bind].
    assert (NZ : r_mul K w w <> o_zero co) by exact (@d_mul_nz _ _ D _ _ Hw Hw).
    assert (V : forall x, c_div o x (r_mul K w w) = Ok (r_mul K x (f_inv K (r_mul K w w)))) by (intros; exact (f_div_ok K _ NZ)).
    rewrite V. cbn [bind]. rewrite M. reflexivity.
  Qed.

  (** The chain rule for complex points. *)
  Theorem C67_moebius_c_chain_rule : forall m n c p v y, rect 2 2 m -> rect 2 2 n ->
    off_pole co n p -> mo_apply_self co n p = Ok y -> off_pole co m y -> mo_chain co m n = Ok c ->
    let t := moebius_c_transform o rem in
    t_deriv t c p v =! (let! y := t_apply t n p in let! e := t_deriv t n p v in t_deriv t m y e).
  Proof.
    intros m n c0 p v y0 Rm Rn Hp Hy Hm Hc t. subst t. cbn [t_deriv t_apply moebius_c_transform].
    destruct (rect22 Rm) as (A & B & C & E & ->). destruct (rect22 Rn) as (a & b & c & d & ->).
    rewrite (off_pole_D D) in Hp. change (r_add K (r_mul K c p) d <> o_zero co) in Hp.
    rewrite (mo_apply_v D) in Hy by exact Hp. apply Ok_inj in Hy.
    rewrite (off_pole_D D) in Hm. rewrite <- Hy in Hm.
    rewrite (mo_apply_v D) by exact Hp. cbn [bind].
    rewrite (@mo_deriv_v a b c d p v Hp). cbn [bind]. rewrite (@mo_deriv_v A B C E _ _ Hm).
    unfold mo_chain in Hc. rewrite (m_dot_22 K) in Hc. apply Ok_inj in Hc. subst c0.
    pose proof (@chain_dform _ _ D A B C E a b c d p v Hp Hm) as CD. cbv zeta in CD.
    pose proof (mo_quot_nz D _ _ _ Hp Hm) as Hq.
    assert (W : r_add D (r_mul D (r_add D (r_mul D C a) (r_mul D E c)) p) (r_add D (r_mul D C b) (r_mul D E d)) <> o_zero co).
    { rewrite <- (mo_lin D). exact Hq. }
    eexists. split; [|reflexivity]. rewrite (@mo_deriv_v _ _ _ _ p v W). f_equal.
    etransitivity; [|exact CD]. unfold dform.
    destruct (mo_quot D A B _ _ _ Hp Hq) as (_ & QQ).
    f_equal. f_equal. f_equal. etransitivity; [|symmetry; exact QQ]. rewrite !(mo_lin D). reflexivity.
  Qed.
End MoebiusC.

(** [n(x) = (x + 1)/x], [m(x) = 1/x] at [2 + i] and at [1 + j]: the denominators [c p + d] at [p] and at
    [n(p)], and the derivative of the composition along [1 + i] resp. [i + k]. *)
Local Open Scope Z_scope.
Definition qc_fo : FloatOps Qcanon.Qc :=
  {| f_sqrt := fun x => x; f_sin := fun x => x; f_cos := fun x => x; f_atan2 := fun x y => x; f_abs := fun x => x;
     f_pi := qcz 3; f_two := qcz 2; f_half := qcz 0; f_epsilon := qcz 0 |}.
Example C67_moebius_ex :
  let n := [[cz 1 0; cz 1 0]; [cz 1 0; cz 0 0]] in let m := [[cz 0 0; cz 1 0]; [cz 1 0; cz 0 0]] in
  let den m x := let! cx := c_mul qc_ops (mget (c_ops qc_ops norem) m 1 0) x in c_add qc_ops cx (mget (c_ops qc_ops norem) m 1 1) in
  let denq m x := let! cx := c_mul_q qc_ops (mget (c_ops qc_ops norem) m 1 0) x in q_add_c qc_ops cx (mget (c_ops qc_ops norem) m 1 1) in
  let tc := moebius_c_transform qc_ops norem in let tq := moebius_q_transform qc_ops norem qc_fo in
  rmap cval (den n (cz 2 1)) = Ok (2 # 1, 1 # 1)%Q /\
  rmap cval (let! y := t_apply tc n (cz 2 1) in den m y) = Ok (7 # 5, -1 # 5)%Q /\
  rmap cval (let! c := t_chain tc m n in t_deriv tc c (cz 2 1) (cz 1 1)) = Ok (7 # 50, 1 # 50)%Q /\
  rmap qval (denq n (qz4 1 0 1 0)) = Ok (1 # 1, 0 # 1, 1 # 1, 0 # 1)%Q /\
  rmap qval (let! y := t_apply tq n (qz4 1 0 1 0) in denq m y) = Ok (3 # 2, 0 # 1, -1 # 2, 0 # 1)%Q /\
  rmap qval (let! c := t_chain tq m n in t_deriv tq c (qz4 1 0 1 0) (qz4 0 1 0 1)) =
  rmap qval (let! y := t_apply tq n (qz4 1 0 1 0) in let! e := t_deriv tq n (qz4 1 0 1 0) (qz4 0 1 0 1) in t_deriv tq m y e).
Proof. repeat split; vm_compute; reflexivity. Qed.

Print Assumptions C53_closed_form.
Print Assumptions C67_moebius_q_chain_rule.
Print Assumptions C67_moebius_c_chain_rule.
