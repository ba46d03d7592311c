(** Properties C52 and C53: derivatives of Moebius transformations with complex coefficients, over the
    real numbers. *)
From Coq Require Import Reals Lra Psatz Field.
From Coquelicot Require Import Hierarchy Derive AutoDerive.
From Verif Require Import SpecFacts MFacts MoFacts CxFacts RealInst PropReal PropMoebius PropComplex.
Set Implicit Arguments.
Local Open Scope R_scope.
Local Open Scope list_scope.

(* ------------------------------------------------------------------------- *)
(** * Absolute values of complex numbers                                       *)

Definition cabs (z : complex R) : R := sqrt (re z * re z + im z * im z).

Section Cx.
  Context (rem : complex R -> complex R -> res (complex R)).
  Definition CF : Field (c_ops r_ops rem) := c_field_inst (F:=r_field) rem r_real2.

  Lemma cabs_mul : forall x y, cabs (r_mul CF x y) = cabs x * cabs y.
  Proof.
    intros [a b] [c d]. unfold cabs. cbn. rewrite <- sqrt_mult_alt by nra. f_equal. ring.
  Qed.
  Lemma cabs_pos : forall x, 0 <= cabs x.
  Proof. intros. apply sqrt_pos. Qed.
  Lemma cabs_opp : forall x, cabs (r_opp CF x) = cabs x.
  Proof. intros [a b]. unfold cabs. cbn. f_equal. ring. Qed.
  Lemma cabs_triang : forall x y, cabs (r_add CF x y) <= cabs x + cabs y.
  Proof.
    intros x y. destruct (C39_norm_real 0 x y) as (a & b & c & Ea & Eb & _ & _ & _ & _ & Ec & T & _).
    rewrite c_norm_v in Ea, Eb. rewrite (c_add_v r_ring) in Ec. cbn [bind] in Ec. rewrite c_norm_v in Ec.
    apply Ok_inj in Ea, Eb, Ec. subst. exact T.
  Qed.
  Lemma cabs_nz : forall x, x <> Cx 0 0 -> 0 < cabs x.
  Proof.
    intros [a b] H. apply sqrt_lt_R0. cbn.
    destruct (Req_dec a 0) as [->|]; [|nra]. destruct (Req_dec b 0) as [->|]; [contradiction H; auto|nra].
  Qed.
  Lemma cabs_0 : cabs (Cx 0 0) = 0.
  Proof. unfold cabs. cbn. replace (0 * 0 + 0 * 0) with 0 by ring. apply sqrt_0. Qed.
  Lemma cabs_inv : forall x, x <> Cx 0 0 -> cabs (f_inv CF x) = / cabs x.
  Proof.
    intros x H. pose proof (cabs_nz H). apply Rmult_eq_reg_r with (cabs x); [|lra].
    rewrite <- cabs_mul, (f_inv_l CF H). rewrite Rinv_l by lra. unfold cabs. cbn.
    replace (1 * 1 + 0 * 0) with 1 by ring. apply sqrt_1.
  Qed.
End Cx.

(** The difference quotient minus the derivative, in any field. *)
Section Quotient.
  Context {T : Type} {o : Ops T} (F : Field o).
  Add Field Fq : (Field_theory F).
  Local Notation "x + y" := (r_add F x y).
  Local Notation "x * y" := (r_mul F x y).
  Local Notation "x - y" := (r_sub F x y).
  Local Notation "- x" := (r_opp F x).
  Local Notation "/ x" := (f_inv F x).
  Lemma quotient_diff : forall a b c d p h, h <> o_zero o -> c * p + d <> o_zero o -> c * (p + h) + d <> o_zero o ->
    ((a * (p + h) + b) * / (c * (p + h) + d) - (a * p + b) * / (c * p + d)) * / h -
      (a * d - b * c) * / ((c * p + d) * (c * p + d)) =
    - ((a * d - b * c) * c * h) * / ((c * p + d) * (c * p + d) * (c * p + d + c * h)).
  Proof.
    intros. assert (E : c * p + d + c * h = c * (p + h) + d) by ring. rewrite E. field. repeat split; auto.
  Qed.
End Quotient.

(* ------------------------------------------------------------------------- *)
(** * C52                                                                      *)

(** [deriv(p)] is the limit of [(apply(p + h) - apply(p)) / h] as [h] tends to zero. *)
Theorem C52_derivative : forall rem eps m p, let co := c_ops r_ops rem in let F := r_float eps in
  rect 2 2 m -> off_pole co m p ->
  exists D, mo_deriv r_ops m p = Ok D /\
  forall e, 0 < e -> exists delta, 0 < delta /\
    forall h n, h <> Cx 0 0 -> c_norm r_ops F h = Ok n -> n < delta ->
    exists q x,
      (let! y1 := (let! ph := c_add r_ops p h in mo_apply_self co m ph) in
       let! y0 := mo_apply_self co m p in
       let! dy := c_sub r_ops y1 y0 in c_div r_ops dy h) = Ok q /\
      (let! t := c_sub r_ops q D in c_norm r_ops F t) = Ok x /\ x < e.
Proof.
  intros rem eps m p CO FF Rm Hp. subst CO FF.
  assert (G : returns (mo_deriv r_ops m p)).
  { assert (W : exists w, (let! cp := c_mul r_ops (mget (c_ops r_ops rem) m 1 0) p in c_add r_ops cp (mget (c_ops r_ops rem) m 1 1)) = Ok w).
    { destruct Hp as (w & E & _). exists w. exact E. }
    destruct W as (w & W). destruct (C52_det_over_square r_real2 Rm Hp W) as (D & E & _). exists D. exact E. }
  destruct (rect22 Rm) as (a & b & c & d & ->).
  set (K := CF rem). pose proof Hp as Hp'. rewrite (off_pole_D (field_div K)) in Hp'.
  change (r_add K (r_mul K c p) d <> o_zero (c_ops r_ops rem)) in Hp'.
  set (w := r_add K (r_mul K c p) d) in *. set (det := r_sub K (r_mul K a d) (r_mul K b c)).
  destruct G as (D & HD). exists D. split; [exact HD|].
  assert (VD : D = r_mul K det (f_inv K (r_mul K w w))).
  { assert (W : (let! cp := c_mul r_ops (mget (c_ops r_ops rem) [[a; b]; [c; d]] 1 0) p in c_add r_ops cp (mget (c_ops r_ops rem) [[a; b]; [c; d]] 1 1)) = Ok w).
    { change (mget (c_ops r_ops rem) [[a; b]; [c; d]] 1 0) with c. change (mget (c_ops r_ops rem) [[a; b]; [c; d]] 1 1) with d.
      rewrite (r_mul_ok K : forall x y, c_mul r_ops x y = _). cbn [bind]. apply (r_add_ok K). }
    destruct (C52_det_over_square r_real2 Rm Hp W) as (D' & E & E'). rewrite HD in E. apply Ok_inj in E. subst D'.
    unfold mo_det in E'. rewrite (m_det_22 K) in E'. cbn [bind] in E'. rewrite (r_mul_ok K : forall x y, c_mul r_ops x y = _) in E'.
    cbn [bind] in E'. rewrite (f_div_ok K : forall x y, y <> o_zero (c_ops r_ops rem) -> c_div r_ops x y = _) in E'.
    - apply Ok_inj in E'. symmetry. exact E'.
    - exact (@d_mul_nz _ _ (field_div K) _ _ Hp' Hp'). }
  assert (Aw : 0 < cabs w) by (apply cabs_nz; exact Hp').
  pose proof (cabs_pos c) as Ac. pose proof (cabs_pos det) as Ad.
  intros e He.
  exists (Rmin (cabs w / (2 * (cabs c + 1))) (e * (cabs w * cabs w * cabs w) / (2 * (cabs det + 1) * (cabs c + 1)))).
  assert (Q1 : 0 < cabs w / (2 * (cabs c + 1))) by (apply Rdiv_lt_0_compat; lra).
  assert (W3 : 0 < cabs w * cabs w * cabs w) by (repeat apply Rmult_lt_0_compat; auto).
  assert (Q2 : 0 < e * (cabs w * cabs w * cabs w) / (2 * (cabs det + 1) * (cabs c + 1))).
  { apply Rdiv_lt_0_compat; repeat apply Rmult_lt_0_compat; lra. }
  split. { apply Rmin_pos; auto. }
  intros h n Hh Hn Hd. rewrite c_norm_v in Hn. apply Ok_inj in Hn. fold (cabs h) in Hn. subst n.
  pose proof (cabs_nz Hh) as Ah.
  assert (D1 : cabs h < cabs w / (2 * (cabs c + 1))) by (eapply Rlt_le_trans; [exact Hd|apply Rmin_l]).
  assert (D2 : cabs h < e * (cabs w * cabs w * cabs w) / (2 * (cabs det + 1) * (cabs c + 1)))
    by (eapply Rlt_le_trans; [exact Hd|apply Rmin_r]).
  assert (B1 : cabs c * cabs h <= cabs w / 2).
  { apply Rle_trans with ((cabs c + 1) * cabs h). { nra. }
    apply Rle_trans with ((cabs c + 1) * (cabs w / (2 * (cabs c + 1)))). { apply Rmult_le_compat_l; lra. }
    right. field. lra. }
  set (w' := r_add K w (r_mul K c h)).
  assert (B2 : cabs w / 2 <= cabs w').
  { assert (T : cabs w <= cabs w' + cabs c * cabs h).
    { rewrite <- (cabs_mul rem). fold K. rewrite <- (cabs_opp rem (r_mul K c h)). fold K.
      replace w with (r_add K w' (r_opp K (r_mul K c h))) at 1. { apply cabs_triang. }
      unfold w'. rewrite <- (r_add_assoc K), (r_opp_def K). apply (r_add_0_r K). }
    lra. }
  assert (Hw' : w' <> Cx 0 0). { intros Z. rewrite Z, cabs_0 in B2. lra. }
  assert (Ew' : r_add K (r_mul K c (r_add K p h)) d = w').
  { unfold w', w. rewrite (r_distr_r K), <- !(r_add_assoc K). f_equal. apply (r_add_comm K). }
  rewrite (r_add_ok K : forall x y, c_add r_ops x y = _). cbn [bind].
  rewrite (@mo_apply_v _ _ (field_div K) a b c d (r_add K p h)) by (cbn [d_ring field_div]; rewrite Ew'; exact Hw').
  rewrite (@mo_apply_v _ _ (field_div K) a b c d p) by exact Hp'. cbn [bind].
  rewrite (r_sub_ok K : forall x y, c_sub r_ops x y = _). cbn [bind].
  rewrite (f_div_ok K Hh : forall x, _ -> c_div r_ops x h = _) || rewrite (fun x => f_div_ok K x Hh : c_div r_ops x h = _).
  do 2 eexists. split; [reflexivity|].
  rewrite (r_sub_ok K : forall x y, c_sub r_ops x y = _). cbn [bind]. rewrite c_norm_v. split; [reflexivity|].
  match goal with |- sqrt (re ?z * re ?z + im ?z * im ?z) < e => change (cabs z < e) end.
  rewrite VD.
  match goal with |- cabs ?z < e => assert (Z : z = r_mul K (r_opp K (r_mul K (r_mul K det c) h)) (f_inv K (r_mul K (r_mul K w w) w'))) end.
  { assert (H3 : r_add K (r_mul K c (r_add K p h)) d <> o_zero (c_ops r_ops rem)) by (rewrite Ew'; exact Hw').
    exact (@quotient_diff _ _ K a b c d p h Hh Hp' H3). }
  rewrite Z. clear Z.
  assert (NZ : r_mul K (r_mul K w w) w' <> Cx 0 0).
  { apply (@d_mul_nz _ _ (field_div K)); [|exact Hw']. apply (@d_mul_nz _ _ (field_div K)); exact Hp'. }
  unfold K. rewrite (cabs_mul rem), (cabs_inv rem) by exact NZ. rewrite cabs_opp, !cabs_mul.
  assert (W' : 0 < cabs w') by lra.
  apply Rmult_lt_reg_r with (cabs w * cabs w * cabs w'). { repeat apply Rmult_lt_0_compat; auto. }
  rewrite Rmult_assoc, Rinv_l. 2: { apply Rgt_not_eq. repeat apply Rmult_lt_0_compat; auto. }
  rewrite Rmult_1_r.
  assert (B3 : cabs h * (2 * (cabs det + 1) * (cabs c + 1)) < e * (cabs w * cabs w * cabs w)).
  { apply Rmult_lt_reg_r with (/ (2 * (cabs det + 1) * (cabs c + 1))).
    - apply Rinv_0_lt_compat. repeat apply Rmult_lt_0_compat; lra.
    - rewrite Rmult_assoc, Rinv_r. { unfold Rdiv in D2. lra. } apply Rgt_not_eq. repeat apply Rmult_lt_0_compat; lra. }
  assert (B4 : cabs det * cabs c * cabs h <= cabs h * ((cabs det + 1) * (cabs c + 1))).
  { rewrite (Rmult_comm (cabs det * cabs c)). apply Rmult_le_compat_l; nra. }
  assert (B5 : e * (cabs w * cabs w * (cabs w / 2)) <= e * (cabs w * cabs w * cabs w')).
  { apply Rmult_le_compat_l; [lra|]. apply Rmult_le_compat_l; [nra|auto]. }
  lra.
Qed.

(** The derivative of [1 / z] at [i] computed by the limit definition is that of the closed form. *)
Example C52_ex : forall rem, off_pole (c_ops r_ops rem) [[Cx 0 0; Cx 1 0]; [Cx 1 0; Cx 0 0]] (Cx 0 1) /\
  mo_deriv r_ops [[Cx 0 0; Cx 1 0]; [Cx 1 0; Cx 0 0]] (Cx 0 1) = Ok (Cx 1 0).
Proof.
  intros rem.
  assert (H : off_pole (c_ops r_ops rem) [[Cx 0 0; Cx 1 0]; [Cx 1 0; Cx 0 0]] (Cx 0 1)).
  { rewrite (off_pole_D (field_div (CF rem))). intros E. apply (f_equal (fun z => im z)) in E. cbn in E. lra. }
  split; [exact H|].
  destruct (@C52_det_over_square _ _ r_field rem r_real2 [[Cx 0 0; Cx 1 0]; [Cx 1 0; Cx 0 0]] (Cx 0 1) (Cx 0 1)) as (D & E & E').
  - split; [reflexivity|repeat constructor].
  - exact H.
  - cbn. f_equal. f_equal; ring.
  - rewrite E. unfold mo_det in E'. rewrite (m_det_22 (CF rem)) in E'. cbn [bind] in E'. rewrite (c_mul_v r_ring) in E'. cbn [bind] in E'.
    rewrite (f_div_ok (CF rem) : forall x y, y <> o_zero (c_ops r_ops rem) -> c_div r_ops x y = _) in E'.
    + rewrite <- E'. f_equal. cbn. unfold c_finv, c_nrm. cbn. f_equal; field.
    + intros Q. apply (f_equal (fun z => re z)) in Q. cbn in Q. lra.
Qed.

(* ------------------------------------------------------------------------- *)
(** * C53                                                                      *)

Definition qadd (x y : quat R) : quat R := Qt (qw x + qw y) (qx x + qx y) (qy x + qy y) (qz x + qz y).
Definition qscale (x : quat R) (t : R) : quat R := Qt (qw x * t) (qx x * t) (qy x * t) (qz x * t).
Definition qmul (x y : quat R) : quat R :=
  Qt (qw x * qw y - qx x * qx y - qy x * qy y - qz x * qz y)
     (qw x * qx y + qx x * qw y + qy x * qz y - qz x * qy y)
     (qw x * qy y - qx x * qz y + qy x * qw y + qz x * qx y)
     (qw x * qz y + qx x * qy y - qy x * qx y + qz x * qw y).
Definition qn (x : quat R) : R := qw x * qw x + qx x * qx x + qy x * qy x + qz x * qz x.
Definition qinv (x : quat R) : quat R := Qt (qw x / qn x) (- qx x / qn x) (- qy x / qn x) (- qz x / qn x).
Definition qdot (x y : quat R) : R := qw x * qw y + qx x * qx y + qy x * qy y + qz x * qz y.
(** The derivative of [n / d] along [n' , d']. *)
Definition qderiv (n n' d d' : quat R) : quat R :=
  let k := qdot d d' * 2 / qn d in
  qadd (qmul n' (qinv d))
    (qmul n (Qt ((qw d' - qw d * k) / qn d) ((- qx d' - - qx d * k) / qn d)
                ((- qy d' - - qy d * k) / qn d) ((- qz d' - - qz d * k) / qn d))).

Lemma qderiv_ok : forall n n' d d', qn d <> 0 ->
  let f t := qmul (qadd n (qscale n' t)) (qinv (qadd d (qscale d' t))) in
  derivable_pt_lim (fun t => qw (f t)) 0 (qw (qderiv n n' d d')) /\
  derivable_pt_lim (fun t => qx (f t)) 0 (qx (qderiv n n' d d')) /\
  derivable_pt_lim (fun t => qy (f t)) 0 (qy (qderiv n n' d d')) /\
  derivable_pt_lim (fun t => qz (f t)) 0 (qz (qderiv n n' d d')).
Proof.
  intros [n0 n1 n2 n3] [m0 m1 m2 m3] [d0 d1 d2 d3] [e0 e1 e2 e3] H f. 
  unfold qn in H. cbn [qw qx qy qz] in H.
  subst f. repeat split; apply is_derive_Reals;
  unfold qderiv, qmul, qadd, qscale, qinv, qdot, qn; cbn [qw qx qy qz].
  all: auto_derive; [rewrite ?Rmult_0_r, ?Rplus_0_r; repeat split; exact H|].
  all: rewrite ?Rmult_0_r, ?Rplus_0_r; field; exact H.
Qed.

Lemma qn_pos : forall q, 0 <= qn q.
Proof. intros. unfold qn. nra. Qed.
Lemma qn_line : forall d e t, qn (qadd d (qscale e t)) = qn d + 2 * qdot d e * t + qn e * (t * t).
Proof. intros. unfold qn, qdot, qadd, qscale. cbn [qw qx qy qz]. ring. Qed.
Lemma qn_near : forall d e, qn d <> 0 ->
  exists delta, 0 < delta /\ forall t, Rabs t < delta -> qn (qadd d (qscale e t)) <> 0.
Proof.
  intros d e H. pose proof (qn_pos d). pose proof (qn_pos e). pose proof (Rabs_pos (qdot d e)) as B.
  set (K := 2 * Rabs (qdot d e) + qn e + 1). assert (0 < K) by (unfold K; lra).
  exists (Rmin 1 (qn d / K)). split.
  { apply Rmin_pos; [lra|]. apply Rdiv_lt_0_compat; lra. }
  intros t Ht. assert (T1 : Rabs t < 1) by (eapply Rlt_le_trans; [exact Ht|apply Rmin_l]).
  assert (T2 : Rabs t < qn d / K) by (eapply Rlt_le_trans; [exact Ht|apply Rmin_r]).
  assert (T3 : Rabs t * K < qn d).
  { apply Rmult_lt_reg_r with (/ K). { apply Rinv_0_lt_compat; auto. } rewrite Rmult_assoc, Rinv_r by lra. unfold Rdiv in T2. lra. }
  rewrite qn_line. pose proof (Rabs_pos t).
  assert (E1 : - (2 * Rabs (qdot d e) * Rabs t) <= 2 * qdot d e * t).
  { assert (Rabs (qdot d e * t) = Rabs (qdot d e) * Rabs t) by apply Rabs_mult.
    pose proof (Rle_abs (- (qdot d e * t))). rewrite Rabs_Ropp in *. lra. }
  assert (0 <= qn e * (t * t)) by nra.
  unfold K in T3. nra.
Qed.

Local Notation QD := (q_div_inst (F:=r_field) r_real4).
Lemma QD_mul : forall x y, r_mul QD x y = qmul x y. Proof. reflexivity. Qed.
Lemma QD_add : forall x y, r_add QD x y = qadd x y. Proof. reflexivity. Qed.
Lemma QD_inv : forall x, d_inv QD x = qinv x. Proof. reflexivity. Qed.

(** Along the straight line [p + t v] the values of [apply] are defined for [t] near zero, and each of their
    four components has, at [t = 0], the derivative that [deriv_dir(p, v)] returns. *)
Theorem C53_directional_derivative : forall rem m p v,
  rect 2 2 m -> off_pole_q r_ops rem m p ->
  exists (f : R -> quat R) delta D, 0 < delta /\
    (forall t, Rabs t < delta ->
       (let! tv := q_mul_s r_ops v t in let! pt := q_add r_ops p tv in mo_apply_q r_ops m pt) = Ok (f t)) /\
    mo_deriv_dir r_ops 2 m p v = Ok D /\
    derivable_pt_lim (fun t => qw (f t)) 0 (qw D) /\
    derivable_pt_lim (fun t => qx (f t)) 0 (qx D) /\
    derivable_pt_lim (fun t => qy (f t)) 0 (qy D) /\
    derivable_pt_lim (fun t => qz (f t)) 0 (qz D).
Proof.
  intros rem m p v Rm Hp. destruct (rect22 Rm) as (a & b & c & d & ->).
  set (n0 := qadd (qmul (cq r_ops a) p) (cq r_ops b)). set (n1 := qmul (cq r_ops a) v).
  set (d0 := qadd (qmul (cq r_ops c) p) (cq r_ops d)). set (d1 := qmul (cq r_ops c) v).
  assert (H0 : qn d0 <> 0).
  { assert (P : off_pole (q_ops r_ops) [[cq r_ops a; cq r_ops b]; [cq r_ops c; cq r_ops d]] p)
      by (exact (proj1 (@off_pole_q_iff _ _ r_field rem r_real4 a b c d p) Hp)).
    rewrite (off_pole_D QD) in P. change (d0 <> Qt 0 0 0 0) in P.
    exact (@q_nrm_neq _ _ r_field r_real4 d0 P). }
  destruct (@qn_near d0 d1 H0) as (delta & Dp & Hd).
  exists (fun t => qmul (qadd n0 (qscale n1 t)) (qinv (qadd d0 (qscale d1 t)))), delta, (qderiv n0 n1 d0 d1).
  split; [exact Dp|]. split; [|split; [|apply qderiv_ok; exact H0]].
  - intros t Ht. rewrite (q_mul_s_v r_ring). cbn [bind]. rewrite (q_add_v r_ring). cbn [bind].
    rewrite (mo_apply_q_cq r_field).
    match goal with |- mo_apply_self _ _ ?x = _ => change x with (qadd p (qscale v t)) end.
    assert (L : forall k l, qadd (qmul k (qadd p (qscale v t))) l = qadd (qadd (qmul k p) l) (qscale (qmul k v) t)).
    { intros. unfold qadd, qmul, qscale. cbn [qw qx qy qz]. f_equal; ring. }
    rewrite (mo_apply_v QD); rewrite ?QD_mul, ?QD_add, ?QD_inv, !L.
    + reflexivity.
    + intros Z. apply (Hd t Ht). fold d0 d1 in Z. rewrite Z. cbv. ring.
  - unfold mo_deriv_dir, lift1, lift2. cbn [mo_a mo_b mo_c mo_d m_index nth_error bind].
    change (mo_a [[a; b]; [c; d]]) with (Ok a). change (mo_b [[a; b]; [c; d]]) with (Ok b).
    change (mo_c [[a; b]; [c; d]]) with (Ok c). change (mo_d [[a; b]; [c; d]]) with (Ok d). cbn [bind].
    rewrite !(cq_mul_q r_field). cbn [bind]. rewrite !(cq_add_q r_field). cbn [bind].
    change (r_add (q_ring_inst r_field) (r_mul (q_ring_inst r_field) (cq r_ops a) p) (cq r_ops b)) with n0.
    change (r_add (q_ring_inst r_field) (r_mul (q_ring_inst r_field) (cq r_ops c) p) (cq r_ops d)) with d0.
    change (r_mul (q_ring_inst r_field) (cq r_ops a) v) with n1.
    change (r_mul (q_ring_inst r_field) (cq r_ops c) v) with d1.
    clearbody n0 n1 d0 d1.
    rewrite (q_norm_sqr_v r_ring). cbn [bind].
    assert (E1 : q_div r_ops n1 d0 = Ok (qmul n1 (qinv d0))).
    { apply (d_div_ok QD). intros Z. apply H0. rewrite Z. unfold qn. cbn. ring. }
    rewrite E1. cbn [bind]. rewrite !(q_conj_v r_ring). cbn [bind]. rewrite (q_dot_v r_ring). cbn [bind].
    match goal with |- context [o_mul r_ops ?x ?y] => change (o_mul r_ops x y) with (Ok (qdot d0 d1 * 2)) end. cbn [bind].
    match goal with |- context [o_div r_ops ?x ?y] => replace (o_div r_ops x y) with (Ok (qdot d0 d1 * 2 / qn d0)) end.
    2: { symmetry. apply (f_div_ok r_field). exact H0. }
    cbn [bind]. rewrite (q_mul_s_v r_ring). cbn [bind]. rewrite (q_sub_v r_ring). cbn [bind].
    rewrite (q_div_s_v r_field) by exact H0. cbn [bind]. rewrite (q_mul_v r_ring). cbn [bind]. rewrite (q_add_v r_ring).
    reflexivity.
Qed.

(** [x -> x^-1] at [j] in the direction [k]: the hypotheses hold. *)
Example C53_ex : forall rem, off_pole_q r_ops rem [[Cx 0 0; Cx 1 0]; [Cx 1 0; Cx 0 0]] (Qt 0 0 1 0) /\
  exists D, mo_deriv_dir r_ops 2 [[Cx 0 0; Cx 1 0]; [Cx 1 0; Cx 0 0]] (Qt 0 0 1 0) (Qt 0 0 0 1) = Ok D.
Proof.
  intros rem.
  assert (H : off_pole_q r_ops rem [[Cx 0 0; Cx 1 0]; [Cx 1 0; Cx 0 0]] (Qt 0 0 1 0)).
  { eexists. split; [reflexivity|]. intros E. apply (f_equal (fun z => qy z)) in E. cbn in E. lra. }
  split; [exact H|].
  destruct (@C53_directional_derivative rem [[Cx 0 0; Cx 1 0]; [Cx 1 0; Cx 0 0]] (Qt 0 0 1 0) (Qt 0 0 0 1)) as (f & de & D & _ & _ & E & _).
  { split; [reflexivity|repeat constructor]. } { exact H. }
  exists D. exact E.
Qed.

Print Assumptions C52_derivative.
Print Assumptions C53_directional_derivative.
