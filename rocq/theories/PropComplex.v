(** Properties C37-C47: complex numbers and quaternions; the part of C09 about them. *)
From Coq Require Import ZArith Ring Field Qcanon.
From Verif Require Import SpecFacts VecProofs AlgFacts CxFacts Instances.
Set Implicit Arguments.
Local Open Scope list_scope.

(* ------------------------------------------------------------------------- *)
(** * Tactics                                                                  *)

Ltac cstep R :=
  first [ rewrite (c_add_v R) | rewrite (c_sub_v R) | rewrite (c_neg_v R) | rewrite (c_conj_v R)
        | rewrite (c_add_s_v R) | rewrite (c_sub_s_v R) | rewrite (s_add_c_v R) | rewrite (s_sub_c_v R)
        | rewrite (c_mul_v R) | rewrite (c_mul_s_v R) | rewrite (s_mul_c_v R) | rewrite (c_norm_sqr_v R)
        | rewrite (c_dot_v R) | rewrite (c_into_matrix_v R)
        | rewrite (q_add_v R) | rewrite (q_sub_v R) | rewrite (q_neg_v R) | rewrite (q_conj_v R)
        | rewrite (q_add_c_v R) | rewrite (q_sub_c_v R) | rewrite (q_add_s_v R) | rewrite (q_sub_s_v R)
        | rewrite (s_add_q_v R) | rewrite (c_add_q_v R) | rewrite (s_sub_q_v R) | rewrite (c_sub_q_v R)
        | rewrite (q_mul_v R) | rewrite (q_mul_c_v R) | rewrite (c_mul_q_v R) | rewrite (q_mul_s_v R)
        | rewrite (s_mul_q_v R) | rewrite (q_norm_sqr_v R) | rewrite (q_dot_v R) | rewrite (q_into_matrix_v R)
        | rewrite (m_dot_22 R) | rewrite (m_dot_v_22 R) | rewrite (v_add_2 R)
        | rewrite (r_add_ok R) | rewrite (r_sub_ok R) | rewrite (r_mul_ok R) | rewrite (r_neg_ok R) ];
  cbn [bind lift1 lift2 re im qw qx qy qz c_into_vector q_into_vector].
Ltac cvals R :=
  repeat match goal with
  | z : complex _ |- _ => let a := fresh "a" in let b := fresh "b" in destruct z as [a b]
  | z : quat _ |- _ => let a := fresh "a" in let b := fresh "b" in let c := fresh "c" in
      let d := fresh "d" in destruct z as [a b c d] end;
  cbn [bind lift1 lift2 re im qw qx qy qz c_into_vector q_into_vector
       c_zero c_one c_i q_zero q_one q_i q_j q_k c_new q_new v_from_array c_from_vector q_from_vector];
  repeat (unfold c_into_vector, q_into_vector; cbn [re im qw qx qy qz]; cstep R);
  unfold c_into_vector, q_into_vector; cbn [re im qw qx qy qz].
Ltac csame := first [ eexists; split; [reflexivity|] | idtac ]; f_equal.

Ltac cxeq := match goal with |- Cx _ _ = Cx _ _ => f_equal | |- Qt _ _ _ _ = Qt _ _ _ _ => f_equal | _ => idtac end.

(* ------------------------------------------------------------------------- *)
(** * C37: complex numbers form a commutative ring                             *)

Section C37.
  Context {T : Type} {o : Ops T} (R : CRing o).
  Add Ring R37 : (CRing_theory R).
  Ltac go := intros; cvals R; csame; f_equal; ring.

  Theorem C37_values : forall a b c d,
    c_add o (Cx a b) (Cx c d) = Ok (Cx (r_add R a c) (r_add R b d)) /\
    c_sub o (Cx a b) (Cx c d) = Ok (Cx (r_sub R a c) (r_sub R b d)) /\
    c_neg o (Cx a b) = Ok (Cx (r_opp R a) (r_opp R b)) /\
    c_mul o (Cx a b) (Cx c d) =
      Ok (Cx (r_sub R (r_mul R a c) (r_mul R b d)) (r_add R (r_mul R a d) (r_mul R b c))).
  Proof. intros. repeat split; cvals R; reflexivity. Qed.
  Theorem C37_add : forall x y z,
    c_add o x y =! c_add o y x /\
    (let! xy := c_add o x y in c_add o xy z) =! (let! yz := c_add o y z in c_add o x yz) /\
    (let! z := c_zero o in c_add o x z) = Ok x /\
    (let! n := c_neg o x in c_add o x n) =! c_zero o /\
    c_sub o x y =! (let! n := c_neg o y in c_add o x n).
  Proof. intros. repeat split; go. Qed.
  Theorem C37_mul : forall x y z,
    c_mul o x y =! c_mul o y x /\
    (let! xy := c_mul o x y in c_mul o xy z) =! (let! yz := c_mul o y z in c_mul o x yz) /\
    (let! i := c_one o in c_mul o x i) = Ok x /\
    (let! s := c_add o x y in c_mul o s z) =!
      (let! xz := c_mul o x z in let! yz := c_mul o y z in c_add o xz yz) /\
    (let! s := c_add o y z in c_mul o x s) =!
      (let! xy := c_mul o x y in let! xz := c_mul o x z in c_add o xy xz).
  Proof. intros. repeat split; go. Qed.
  Theorem C37_i : (let! i := c_i o in c_mul o i i) =! (let! one := c_one o in c_neg o one).
  Proof. go. Qed.
  (** Sums and products of sequences. *)
  Theorem C37_sum_product : forall l x,
    (let! s := c_sum o l in c_add o s x) =! c_sum o (l ++ [x]) /\ c_sum o [] = c_zero o /\
    (let! s := c_product o l in c_mul o s x) =! c_product o (l ++ [x]) /\ c_product o [] = c_one o.
  Proof.
    assert (A : forall (op : complex T -> complex T -> res (complex T)) f,
      (forall a b, op a b = Ok (f a b)) -> forall l z x,
      (let! s := fold_res op z l in op s x) =! fold_res op z (l ++ [x])).
    { intros op f Hop. induction l; intros z x.
      - cbn [fold_res app bind]. rewrite Hop. eexists. split; reflexivity.
      - cbn [fold_res app bind]. rewrite Hop. cbn [bind]. apply IHl. }
    intros. repeat split; try reflexivity; unfold c_sum, c_product;
      cbn [c_zero c_one c_new v_from_array c_from_vector bind]; eapply A.
    - apply (c_add_v R).
    - apply (c_mul_v R).
  Qed.
End C37.

(* ------------------------------------------------------------------------- *)
(** * C38: complex inverse and division                                        *)

Section C38.
  Context {T : Type} {o : Ops T} (F : Field o).
  Add Field F38 : (Field_theory F).

  Theorem C38_inverse : forall z n, c_norm_sqr o z = Ok n -> n <> o_zero o ->
    (let! i := c_inv o z in c_mul o z i) =! c_one o.
  Proof.
    intros z n E H. rewrite (c_norm_sqr_v F) in E. injection E as E. subst n.
    rewrite (c_inv_v F) by exact H. unfold c_nrm in *. cvals F. csame. cbn [re im] in *. f_equal; field; exact H.
  Qed.
  Theorem C38_division : forall w z n, c_norm_sqr o z = Ok n -> n <> o_zero o ->
    (let! q := c_div o w z in c_mul o q z) = Ok w /\
    (let! p := c_mul o w z in c_div o p z) = Ok w.
  Proof.
    intros w z n E H. rewrite (c_norm_sqr_v F) in E. injection E as E. subst n. unfold c_div.
    split.
    - rewrite (c_inv_v F) by exact H. unfold c_nrm in *. cvals F. cbn [re im] in *. f_equal; f_equal; field; exact H.
    - rewrite (c_mul_v F). cbn [bind]. rewrite (c_inv_v F) by exact H. unfold c_nrm in *. cvals F.
      cbn [re im] in *. f_equal; f_equal; field; exact H.
  Qed.
  Theorem C38_scalar_division : forall s z n, c_norm_sqr o z = Ok n -> n <> o_zero o ->
    s_div_c o s z =! c_div o (Cx s (o_zero o)) z.
  Proof.
    intros s z n E H. rewrite (c_norm_sqr_v F) in E. injection E as E. subst n. unfold c_div, s_div_c.
    rewrite (c_inv_v F) by exact H. unfold c_nrm in *. cvals F. csame. cbn [re im] in *. f_equal; field; exact H.
  Qed.
  (** Where only 0 has norm 0 (rationals, reals), every non-zero complex number is invertible. *)
  Theorem C38_nonzero : real2 F -> forall z, z <> Cx (o_zero o) (o_zero o) ->
    exists n, c_norm_sqr o z = Ok n /\ n <> o_zero o.
  Proof.
    intros Hr z Hz. rewrite (c_norm_sqr_v F). eexists. split; [reflexivity|]. intros H. apply Hz.
    apply Hr in H as (H1 & H2). rewrite (cx_eta z). congruence.
  Qed.
End C38.

(* ------------------------------------------------------------------------- *)
(** * C39: complex conjugation and norm                                        *)

Section C39.
  Context {T : Type} {o : Ops T} (R : CRing o).
  Add Ring R39 : (CRing_theory R).
  Ltac go := intros; cvals R; csame; cxeq; ring.

  Theorem C39_conj_automorphism : forall x y,
    (let! c := c_conj o x in c_conj o c) = Ok x /\
    (let! s := c_add o x y in c_conj o s) =!
      (let! a := c_conj o x in let! b := c_conj o y in c_add o a b) /\
    (let! s := c_mul o x y in c_conj o s) =!
      (let! a := c_conj o x in let! b := c_conj o y in c_mul o a b) /\
    (let! i := c_one o in c_conj o i) =! c_one o.
  Proof. intros. repeat split; go. Qed.
  Theorem C39_conj_norm : forall z,
    (let! c := c_conj o z in c_mul o z c) =! (let! n := c_norm_sqr o z in Ok (Cx n (o_zero o))).
  Proof. go. Qed.
  Theorem C39_norm_multiplicative : forall x y,
    (let! p := c_mul o x y in c_norm_sqr o p) =!
    (let! m := c_norm_sqr o x in let! n := c_norm_sqr o y in o_mul o m n).
  Proof. go. Qed.
End C39.

(* ------------------------------------------------------------------------- *)
(** * C40: the matrix of a complex number                                      *)

Lemma m_det_22 : forall T (o : Ops T) (R : CRing o) a b c d,
  m_det o 2 [[a; b]; [c; d]] = Ok (r_sub R (r_mul R a d) (r_mul R b c)).
Proof.
  intros. unfold m_det, smask_new, index_mask_new. cbn -[o_add o_mul o_neg].
  repeat (first [rewrite (r_mul_ok R)|rewrite (r_add_ok R)|rewrite (r_neg_ok R)]; cbn -[o_add o_mul o_neg]).
  f_equal. rewrite (r_add_0_l R), (r_add_0_l R), (r_mul_1_r R).
  rewrite (r_opp_mul_r R), <- (r_sub_def R). f_equal.
  rewrite (r_add_0_l R), (r_mul_1_r R). reflexivity.
Qed.

Section C40.
  Context {T : Type} {o : Ops T} (R : CRing o).
  Add Ring R40 : (CRing_theory R).
  Ltac go := intros; cvals R; csame; listeq; ring.

  Theorem C40_value : forall a b, c_into_matrix o (Cx a b) = Ok [[a; r_opp R b]; [b; a]].
  Proof. intros. cvals R. reflexivity. Qed.
  Theorem C40_product : forall x y,
    (let! p := c_mul o x y in c_into_matrix o p) =!
    (let! a := c_into_matrix o x in let! b := c_into_matrix o y in m_dot o 2 2 2 a b).
  Proof. go. Qed.
  Theorem C40_sum : forall x y,
    (let! p := c_add o x y in c_into_matrix o p) =!
    (let! a := c_into_matrix o x in let! b := c_into_matrix o y in m_add o 2 2 a b).
  Proof.
    intros. cvals R.
    change [[a0; r_opp R b0]; [b0; a0]] with (mk 2 2 (mget o [[a0; r_opp R b0]; [b0; a0]])).
    change [[a; r_opp R b]; [b; a]] with (mk 2 2 (mget o [[a; r_opp R b]; [b; a]])).
    rewrite (m_add_mk R). unfold mk, vk, mget. cbn. csame. listeq; ring.
  Qed.
  Theorem C40_one : (let! i := c_one o in c_into_matrix o i) =! m_one o 2.
  Proof. cvals R. rewrite m_one_mk. csame. unfold mk, vk. cbn. listeq; ring. Qed.
  Theorem C40_det : forall z, (let! m := c_into_matrix o z in m_det o 2 m) =! c_norm_sqr o z.
  Proof. intros. cvals R. rewrite (m_det_22 R). csame. ring. Qed.
  Theorem C40_action : forall z w,
    (let! m := c_into_matrix o z in m_dot_v o 2 2 m (c_into_vector w)) =!
    (let! p := c_mul o z w in Ok (c_into_vector p)).
  Proof. go. Qed.
End C40.

(* ------------------------------------------------------------------------- *)
(** * C41: mixed arithmetic agrees with the embeddings                         *)

Section C41.
  Context {T : Type} {o : Ops T} (R : CRing o).
  Add Ring R41 : (CRing_theory R).
  Let cs (s : T) : complex T := Cx s (o_zero o).
  Let qs (s : T) : quat T := Qt s (o_zero o) (o_zero o) (o_zero o).
  Let qc (z : complex T) : quat T := Qt (re z) (im z) (o_zero o) (o_zero o).
  Ltac go := intros; unfold cs, qs, qc; cvals R; csame; f_equal; ring.

  Theorem C41_complex_scalar : forall z s,
    c_add_s o z s =! c_add o z (Cx s (o_zero o)) /\ s_add_c o s z =! c_add o (Cx s (o_zero o)) z /\
    c_sub_s o z s =! c_sub o z (Cx s (o_zero o)) /\ s_sub_c o s z =! c_sub o (Cx s (o_zero o)) z /\
    c_mul_s o z s =! c_mul o z (Cx s (o_zero o)) /\ s_mul_c o s z =! c_mul o (Cx s (o_zero o)) z.
  Proof. intros. repeat split; go. Qed.
  Theorem C41_quaternion_scalar : forall q s, let e := Qt s (o_zero o) (o_zero o) (o_zero o) in
    q_add_s o q s =! q_add o q e /\ s_add_q o s q =! q_add o e q /\
    q_sub_s o q s =! q_sub o q e /\ s_sub_q o s q =! q_sub o e q /\
    q_mul_s o q s =! q_mul o q e /\ s_mul_q o s q =! q_mul o e q.
  Proof. intros. subst e. repeat split; go. Qed.
  Theorem C41_quaternion_complex : forall q z, let e := Qt (re z) (im z) (o_zero o) (o_zero o) in
    q_add_c o q z =! q_add o q e /\ c_add_q o z q =! q_add o e q /\
    q_sub_c o q z =! q_sub o q e /\ c_sub_q o z q =! q_sub o e q /\
    q_mul_c o q z =! q_mul o q e /\ c_mul_q o z q =! q_mul o e q.
  Proof. intros. subst e. repeat split; go. Qed.
  (** The embeddings are ring homomorphisms. *)
  Theorem C41_embeddings : forall x y,
    (let! p := c_mul o x y in Ok (Qt (re p) (im p) (o_zero o) (o_zero o))) =!
      q_mul o (Qt (re x) (im x) (o_zero o) (o_zero o)) (Qt (re y) (im y) (o_zero o) (o_zero o)) /\
    (let! p := c_add o x y in Ok (Qt (re p) (im p) (o_zero o) (o_zero o))) =!
      q_add o (Qt (re x) (im x) (o_zero o) (o_zero o)) (Qt (re y) (im y) (o_zero o) (o_zero o)).
  Proof. intros. split; go. Qed.
End C41.

Section C41f.
  Context {T : Type} {o : Ops T} (F : Field o).
  Add Field F41 : (Field_theory F).
  Local Notation "0" := (o_zero o).

  Lemma sq_nonzero : forall s, s <> 0 -> r_mul F s s <> 0.
  Proof.
    intros s H E. apply H. rewrite <- (r_mul_1_l F s), <- (f_inv_l F H), <- (r_mul_assoc F), E.
    apply (r_mul_0_r F).
  Qed.

  (** Division by a scalar, of a scalar, by and of a complex number. *)
  Theorem C41_complex_div_scalar : forall z s, s <> 0 -> c_div_s o z s =! c_div o z (Cx s 0).
  Proof.
    intros z s H. pose proof (sq_nonzero H) as H2. rewrite (c_div_s_v F) by exact H. unfold c_div.
    assert (E : c_nrm F (Cx s 0) = r_mul F s s) by (unfold c_nrm; cbn [re im]; ring).
    rewrite (c_inv_v F); rewrite E; try assumption.
    cvals F. csame. f_equal; field; auto.
  Qed.
  Theorem C41_quaternion_div_scalar : forall q s, s <> 0 -> q_div_s o q s =! q_div o q (Qt s 0 0 0).
  Proof.
    intros q s H. pose proof (sq_nonzero H) as H2. rewrite (q_div_s_v F) by exact H. unfold q_div.
    assert (E : q_nrm F (Qt s 0 0 0) = r_mul F s s) by (unfold q_nrm; cbn [qw qx qy qz]; ring).
    rewrite (q_inv_v F); rewrite E; try assumption.
    cvals F. csame. f_equal; field; auto.
  Qed.
  Theorem C41_scalar_div_quaternion : forall q s n, q_norm_sqr o q = Ok n -> n <> 0 ->
    s_div_q o s q =! q_div o (Qt s 0 0 0) q.
  Proof.
    intros q s n E H. rewrite (q_norm_sqr_v F) in E. injection E as E. subst n. unfold q_div, s_div_q.
    rewrite (q_inv_v F) by exact H. unfold q_nrm in *. cvals F. csame. cbn [qw qx qy qz] in *.
    f_equal; field; exact H.
  Qed.
  Theorem C41_complex_div_quaternion : forall q z n, q_norm_sqr o q = Ok n -> n <> 0 ->
    c_div_q o z q =! q_div o (Qt (re z) (im z) 0 0) q.
  Proof.
    intros q z n E H. rewrite (q_norm_sqr_v F) in E. injection E as E. subst n. unfold q_div, c_div_q.
    rewrite (q_inv_v F) by exact H. unfold q_nrm in *. cvals F. csame. cbn [qw qx qy qz] in *.
    f_equal; field; exact H.
  Qed.
  Theorem C41_quaternion_div_complex : forall q z n, c_norm_sqr o z = Ok n -> n <> 0 ->
    q_div_c o q z =! q_div o q (Qt (re z) (im z) 0 0).
  Proof.
    intros q z n E H. rewrite (c_norm_sqr_v F) in E. injection E as E. subst n. unfold q_div, q_div_c.
    assert (E : q_nrm F (Qt (re z) (im z) 0 0) = c_nrm F z) by (unfold q_nrm, c_nrm; cbn [qw qx qy qz]; ring).
    rewrite (c_inv_v F) by exact H. rewrite (q_inv_v F) by (rewrite E; exact H). rewrite E.
    unfold c_nrm in *. cvals F. csame. cbn [re im] in *. f_equal; field; exact H.
  Qed.
End C41f.

(* ------------------------------------------------------------------------- *)
(** * C43: quaternions form a ring                                             *)

Section C43.
  Context {T : Type} {o : Ops T} (R : CRing o).
  Add Ring R43 : (CRing_theory R).
  Ltac go := intros; cvals R; csame; f_equal; ring.

  Theorem C43_add : forall x y z,
    q_add o x y =! q_add o y x /\
    (let! xy := q_add o x y in q_add o xy z) =! (let! yz := q_add o y z in q_add o x yz) /\
    (let! z := q_zero o in q_add o x z) = Ok x /\
    (let! n := q_neg o x in q_add o x n) =! q_zero o /\
    q_sub o x y =! (let! n := q_neg o y in q_add o x n).
  Proof. intros. repeat split; go. Qed.
  Theorem C43_mul : forall x y z,
    (let! xy := q_mul o x y in q_mul o xy z) =! (let! yz := q_mul o y z in q_mul o x yz) /\
    (let! i := q_one o in q_mul o x i) = Ok x /\
    (let! i := q_one o in q_mul o i x) = Ok x /\
    (let! s := q_add o x y in q_mul o s z) =!
      (let! xz := q_mul o x z in let! yz := q_mul o y z in q_add o xz yz) /\
    (let! s := q_add o y z in q_mul o x s) =!
      (let! xy := q_mul o x y in let! xz := q_mul o x z in q_add o xy xz).
  Proof. intros. repeat split; go. Qed.
  Theorem C43_hamilton : exists i j k m,
    q_i o = Ok i /\ q_j o = Ok j /\ q_k o = Ok k /\ (let! one := q_one o in q_neg o one) = Ok m /\
    q_mul o i i = Ok m /\ q_mul o j j = Ok m /\ q_mul o k k = Ok m /\
    (let! ij := q_mul o i j in q_mul o ij k) = Ok m /\
    q_mul o i j = Ok k /\ q_mul o j k = Ok i /\ q_mul o k i = Ok j /\
    i = Qt (o_zero o) (o_one o) (o_zero o) (o_zero o) /\
    j = Qt (o_zero o) (o_zero o) (o_one o) (o_zero o) /\
    k = Qt (o_zero o) (o_zero o) (o_zero o) (o_one o).
  Proof.
    do 4 eexists. split; [reflexivity|]. split; [reflexivity|]. split; [reflexivity|].
    split; [cvals R; reflexivity|].
    repeat split; cvals R; try reflexivity; f_equal; f_equal; ring.
  Qed.
  Theorem C43_not_commutative : o_one o <> r_opp R (o_one o) ->
    exists p q pq qp, q_mul o p q = Ok pq /\ q_mul o q p = Ok qp /\ pq <> qp.
  Proof.
    intros H. exists (Qt (o_zero o) (o_one o) (o_zero o) (o_zero o)),
                     (Qt (o_zero o) (o_zero o) (o_one o) (o_zero o)). do 2 eexists.
    split; [apply (q_mul_v R)|]. split; [apply (q_mul_v R)|]. cbn [qw qx qy qz]. intros E.
    apply (f_equal (@qz T)) in E. cbn [qz] in E. apply H.
    match type of E with ?a = ?b =>
      assert (A : a = o_one o) by ring; assert (B : b = r_opp R (o_one o)) by ring end.
    exact (eq_trans (eq_sym A) (eq_trans E B)).
  Qed.
  Theorem C43_real_central : forall s q,
    q_mul o (Qt s (o_zero o) (o_zero o) (o_zero o)) q =! q_mul o q (Qt s (o_zero o) (o_zero o) (o_zero o)).
  Proof. go. Qed.
End C43.

(* ------------------------------------------------------------------------- *)
(** * C44: quaternion conjugation and norm                                     *)

Section C44.
  Context {T : Type} {o : Ops T} (R : CRing o).
  Add Ring R44 : (CRing_theory R).
  Ltac go := intros; cvals R; csame; cxeq; ring.
  Theorem C44_conj_antiautomorphism : forall x y,
    (let! c := q_conj o x in q_conj o c) = Ok x /\
    (let! s := q_add o x y in q_conj o s) =!
      (let! a := q_conj o x in let! b := q_conj o y in q_add o a b) /\
    (let! s := q_mul o x y in q_conj o s) =!
      (let! a := q_conj o x in let! b := q_conj o y in q_mul o b a) /\
    (let! i := q_one o in q_conj o i) =! q_one o.
  Proof. intros. repeat split; go. Qed.
  Theorem C44_conj_norm : forall q,
    (let! c := q_conj o q in q_mul o q c) =!
      (let! n := q_norm_sqr o q in Ok (Qt n (o_zero o) (o_zero o) (o_zero o))) /\
    (let! c := q_conj o q in q_mul o c q) =!
      (let! n := q_norm_sqr o q in Ok (Qt n (o_zero o) (o_zero o) (o_zero o))).
  Proof. intros. split; go. Qed.
  (** Euler's four-square identity. *)
  Theorem C44_norm_multiplicative : forall x y,
    (let! p := q_mul o x y in q_norm_sqr o p) =!
    (let! m := q_norm_sqr o x in let! n := q_norm_sqr o y in o_mul o m n).
  Proof. go. Qed.
End C44.

(* ------------------------------------------------------------------------- *)
(** * C45: quaternion inverse and division                                     *)

Section C45.
  Context {T : Type} {o : Ops T} (F : Field o).
  Add Field F45 : (Field_theory F).
  Local Notation "0" := (o_zero o).
  Ltac qf H := cvals F; csame; cbn [qw qx qy qz] in *; f_equal; field; exact H.

  Theorem C45_inverse : forall q n, q_norm_sqr o q = Ok n -> n <> 0 ->
    (let! i := q_inv o q in q_mul o q i) =! q_one o /\
    (let! i := q_inv o q in q_mul o i q) =! q_one o.
  Proof.
    intros q n E H. rewrite (q_norm_sqr_v F) in E. injection E as E. subst n.
    rewrite (q_inv_v F) by exact H. unfold q_nrm in *. split; qf H.
  Qed.
  Theorem C45_division : forall p q n, q_norm_sqr o q = Ok n -> n <> 0 ->
    (let! d := q_div o p q in q_mul o d q) = Ok p /\
    (let! m := q_mul o p q in q_div o m q) = Ok p.
  Proof.
    intros p q n E H. rewrite (q_norm_sqr_v F) in E. injection E as E. subst n. unfold q_div. split.
    - rewrite (q_inv_v F) by exact H. unfold q_nrm in *. cvals F. cbn [qw qx qy qz] in *.
      f_equal; f_equal; field; exact H.
    - rewrite (q_mul_v F). cbn [bind]. rewrite (q_inv_v F) by exact H. unfold q_nrm in *. cvals F.
      cbn [qw qx qy qz] in *. f_equal; f_equal; field; exact H.
  Qed.
  Lemma f_mul_nonzero : forall a b, a <> 0 -> b <> 0 -> r_mul F a b <> 0.
  Proof.
    intros a b Ha Hb E. apply Hb. rewrite <- (r_mul_1_l F b), <- (f_inv_l F Ha), <- (r_mul_assoc F), E.
    apply (r_mul_0_r F).
  Qed.
  Theorem C45_inverse_product : forall p q m n,
    q_norm_sqr o p = Ok m -> m <> 0 -> q_norm_sqr o q = Ok n -> n <> 0 ->
    (let! pq := q_mul o p q in q_inv o pq) =!
    (let! a := q_inv o q in let! b := q_inv o p in q_mul o a b).
  Proof.
    intros p q m n E H E' H'. rewrite (q_norm_sqr_v F) in E, E'. injection E as E. injection E' as E'. subst m n.
    pose proof (f_mul_nonzero H H') as Hpq.
    rewrite (q_mul_v F). cbn [bind]. rewrite !(q_inv_v F); try assumption.
    - unfold q_nrm in *. cvals F. csame. cbn [qw qx qy qz] in *.
      match type of Hpq with ?e <> _ => match goal with |- context[f_inv F ?d] =>
        match d with context[r_sub] => replace d with e by ring end end end.
      f_equal; field; auto.
    - unfold q_nrm. cbn [qw qx qy qz]. match type of Hpq with ?e <> _ => match goal with |- ?d <> _ =>
        replace d with e by ring end end. exact Hpq.
  Qed.
  Theorem C45_nonzero : real4 F -> forall q, q <> Qt 0 0 0 0 ->
    exists n, q_norm_sqr o q = Ok n /\ n <> 0.
  Proof.
    intros Hr z Hz. rewrite (q_norm_sqr_v F). eexists. split; [reflexivity|]. intros H. apply Hz.
    apply Hr in H as (H1 & H2 & H3 & H4). rewrite (qt_eta z). congruence.
  Qed.
End C45.

(* ------------------------------------------------------------------------- *)
(** * C46: the matrix of a quaternion                                          *)

Section C46.
  Context {T : Type} {o : Ops T} (R : CRing o).
  Add Ring R46 : (CRing_theory R).
  Local Notation "- x" := (r_opp R x).

  Theorem C46_value : forall w x y z, q_into_matrix o (Qt w x y z) = Ok
    [[w; - x; - y; - z]; [x; w; - z; y]; [y; z; w; - x]; [z; - y; x; w]].
  Proof. intros. cvals R. reflexivity. Qed.
  Theorem C46_action : forall p q,
    (let! m := q_into_matrix o p in m_dot_v o 4 4 m (q_into_vector q)) =!
    (let! r := q_mul o p q in Ok (q_into_vector r)).
  Proof. intros. cvals R. rewrite (m_dot_v_44 R). csame. listeq; ring. Qed.
  Theorem C46_product : forall p q,
    (let! pq := q_mul o p q in q_into_matrix o pq) =!
    (let! a := q_into_matrix o p in let! b := q_into_matrix o q in m_dot o 4 4 4 a b).
  Proof.
    intros. cvals R. rewrite (m_dot_44 R) by (split; repeat constructor). csame.
    unfold mk, vk, mget. cbn [seq map nth]. listeq; ring.
  Qed.
  Theorem C46_sum : forall p q,
    (let! s := q_add o p q in q_into_matrix o s) =!
    (let! a := q_into_matrix o p in let! b := q_into_matrix o q in m_add o 4 4 a b).
  Proof.
    intros. cvals R. unfold m_add. rewrite m_zip_map_res by (split; repeat constructor).
    cbn [map2_res]. repeat (rewrite (r_add_ok R); cbn [bind]). csame. listeq; ring.
  Qed.
  Theorem C46_one : (let! i := q_one o in q_into_matrix o i) =! m_one o 4.
  Proof. cvals R. rewrite m_one_mk. csame. unfold mk, vk. cbn. listeq; ring. Qed.
  Theorem C46_conj : forall q,
    (let! c := q_conj o q in q_into_matrix o c) =!
    (let! m := q_into_matrix o q in m_transpose 4 4 m).
  Proof.
    intros. cvals R.
    match goal with |- _ =! m_transpose 4 4 ?m =>
      rewrite (@mk_of _ 4 4 m (o_zero o)) at 1 by (split; repeat constructor) end.
    rewrite m_transpose_mk. unfold mk, vk. cbn [seq map nth]. csame. listeq; ring.
  Qed.
End C46.

(* ------------------------------------------------------------------------- *)
(** * C47: unimplemented quaternion operations                                 *)

Theorem C47_unimplemented : forall T (o : Ops T) (a b : quat T) (Str : Type) (s : Str) radix,
  o_rem (q_ops o) a b = Panic /\ @q_from_str_radix T Str s radix = Panic.
Proof. split; reflexivity. Qed.

(* ------------------------------------------------------------------------- *)
(** * C09: compound assignment of complex numbers and quaternions              *)

(** [opa] is the scalar [+=] (or [-=]), agreeing with the scalar [+] ([-]) of [o].  When the scalar
    operation fails the outcome is the failure of the binary operator. *)
Theorem C09_complex : forall T (o : Ops T) (opa : T -> T -> res T) (a b : complex T),
  ((forall x y, opa x y = o_add o x y) ->
     (forall w, c_add o a b = Ok w <-> c_assign opa a b = (w, Ok tt)) /\
     (~ returns (c_add o a b) -> snd (c_assign opa a b) = refail (c_add o a b))) /\
  ((forall x y, opa x y = o_sub o x y) ->
     (forall w, c_sub o a b = Ok w <-> c_assign opa a b = (w, Ok tt)) /\
     (~ returns (c_sub o a b) -> snd (c_assign opa a b) = refail (c_sub o a b))).
Proof.
  assert (G : forall T (op opa : T -> T -> res T) (a b : complex T), (forall x y, opa x y = op x y) ->
    (forall w, (let! v := v_zip_map 2 op (c_into_vector a) (c_into_vector b) in c_from_vector v) = Ok w <->
               c_assign opa a b = (w, Ok tt)) /\
    (~ returns (let! v := v_zip_map 2 op (c_into_vector a) (c_into_vector b) in c_from_vector v) ->
     snd (c_assign opa a b) =
     refail (let! v := v_zip_map 2 op (c_into_vector a) (c_into_vector b) in c_from_vector v))).
  { intros T op opa [a b] [c d] E. rewrite v_zip_map_res by reflexivity. unfold c_assign, c_into_vector.
    cbn [map2_res v_assign re im]. rewrite !E. unfold returns.
    destruct (op a c); cbn [bind refail snd c_from_vector];
      [destruct (op b d); cbn [bind refail snd c_from_vector]| | |]; (split;
      [intros w; split; intros H; inversion H; reflexivity
      |intros H; try reflexivity; exfalso; apply H; eexists; reflexivity]). }
  intros T o opa a b. split; intros E; apply G; exact E.
Qed.
Theorem C09_quaternion : forall T (o : Ops T) (opa : T -> T -> res T) (a b : quat T),
  ((forall x y, opa x y = o_add o x y) ->
     (forall w, q_add o a b = Ok w <-> q_assign opa a b = (w, Ok tt)) /\
     (~ returns (q_add o a b) -> snd (q_assign opa a b) = refail (q_add o a b))) /\
  ((forall x y, opa x y = o_sub o x y) ->
     (forall w, q_sub o a b = Ok w <-> q_assign opa a b = (w, Ok tt)) /\
     (~ returns (q_sub o a b) -> snd (q_assign opa a b) = refail (q_sub o a b))).
Proof.
  assert (G : forall T (op opa : T -> T -> res T) (a b : quat T), (forall x y, opa x y = op x y) ->
    (forall w, (let! v := v_zip_map 4 op (q_into_vector a) (q_into_vector b) in q_from_vector v) = Ok w <->
               q_assign opa a b = (w, Ok tt)) /\
    (~ returns (let! v := v_zip_map 4 op (q_into_vector a) (q_into_vector b) in q_from_vector v) ->
     snd (q_assign opa a b) =
     refail (let! v := v_zip_map 4 op (q_into_vector a) (q_into_vector b) in q_from_vector v))).
  { intros T op opa [a b c d] [a' b' c' d'] E. rewrite v_zip_map_res by reflexivity.
    unfold q_assign, q_into_vector. cbn [map2_res v_assign qw qx qy qz]. rewrite !E. unfold returns.
    destruct (op a a'); cbn [bind refail snd q_from_vector];
      [destruct (op b b'); cbn [bind refail snd q_from_vector];
         [destruct (op c c'); cbn [bind refail snd q_from_vector];
            [destruct (op d d'); cbn [bind refail snd q_from_vector]| | |]| | |]| | |]; (split;
      [intros w; split; intros H; inversion H; reflexivity
      |intros H; try reflexivity; exfalso; apply H; eexists; reflexivity]). }
  intros T o opa a b. split; intros E; apply G; exact E.
Qed.
(** By a scalar, and a quaternion by a complex number: contents and outcome. *)
Theorem C09_complex_scalar : forall T (o : Ops T) (opa : T -> T -> res T) (a : complex T) s,
  ((forall x y, opa x y = o_add o x y) -> c_assign_s opa a s = c_add_s o a s) /\
  ((forall x y, opa x y = o_sub o x y) -> c_assign_s opa a s = c_sub_s o a s) /\
  c_mul_assign_s o a s = c_mul_s o a s /\ c_div_assign_s o a s = c_div_s o a s.
Proof.
  intros T o opa [a b] s. repeat split; intros E; unfold c_assign_s, c_add_s, c_sub_s, c_into_tuple; cbn;
    rewrite E; reflexivity.
Qed.
Theorem C09_quaternion_scalar_complex : forall T (o : Ops T) (opa : T -> T -> res T) (a : quat T) z s,
  ((forall x y, opa x y = o_add o x y) ->
     q_assign_s opa a s = q_add_s o a s /\ q_assign_c opa a z = q_add_c o a z) /\
  ((forall x y, opa x y = o_sub o x y) ->
     q_assign_s opa a s = q_sub_s o a s /\ q_assign_c opa a z = q_sub_c o a z).
Proof.
  intros T o opa [a b c d] [u v] s. split; intros E; split;
    unfold q_assign_s, q_add_s, q_sub_s, q_assign_c, q_add_c, q_sub_c, q_into_tuple, c_into_tuple; cbn;
    rewrite ?E; try reflexivity.
Qed.

(* ------------------------------------------------------------------------- *)
(** * Instances                                                                *)

Local Open Scope Z_scope.
Example C37_example :
  c_mul z_ops (Cx 1 2) (Cx 3 4) = Ok (Cx (-5) 10) /\ c_mul z_ops (Cx 0 1) (Cx 0 1) = Ok (Cx (-1) 0).
Proof. split; reflexivity. Qed.
Example C39_example : c_norm_sqr z_ops (Cx 3 (-4)) = Ok 25 /\ c_conj z_ops (Cx 3 (-4)) = Ok (Cx 3 4).
Proof. split; reflexivity. Qed.
Example C43_example :
  q_mul z_ops (Qt 1 2 3 4) (Qt 5 6 7 8) = Ok (Qt (-60) 12 30 24) /\
  q_mul z_ops (Qt 5 6 7 8) (Qt 1 2 3 4) = Ok (Qt (-60) 20 14 32).
Proof. split; reflexivity. Qed.
Example C43_not_commutative_instance :
  exists p q pq qp, q_mul z_ops p q = Ok pq /\ q_mul z_ops q p = Ok qp /\ pq <> qp.
Proof. apply (C43_not_commutative z_ring). discriminate. Qed.
Ltac qc_neq := let H := fresh in intros H; apply (f_equal this) in H; vm_compute in H; discriminate H.
Example C38_instance :
  (let! i := c_inv qc_ops (Cx (qcz 3) (qcz 4)) in c_mul qc_ops (Cx (qcz 3) (qcz 4)) i) =! c_one qc_ops.
Proof. eapply (C38_inverse qc_field); [reflexivity|qc_neq]. Qed.
Example C45_instance : let q := Qt (qcz 1) (qcz 2) (qcz 3) (qcz 4) in
  (let! i := q_inv qc_ops q in q_mul qc_ops q i) =! q_one qc_ops.
Proof. eapply (C45_inverse qc_field); [reflexivity|qc_neq]. Qed.
Example C41_instance : let q := Qt (qcz 1) (qcz 2) (qcz 3) (qcz 4) in
  q_div_c qc_ops q (Cx (qcz 1) (qcz 1)) =! q_div qc_ops q (Qt (qcz 1) (qcz 1) (qcz 0) (qcz 0)).
Proof.
  intros q. eapply (C41_quaternion_div_complex qc_field q (Cx (qcz 1) (qcz 1))); [reflexivity|qc_neq].
Qed.
Example C46_example :
  (let! m := q_into_matrix z_ops (Qt 1 2 3 4) in m_dot_v z_ops 4 4 m [5; 6; 7; 8]) = Ok [-60; 12; 30; 24].
Proof. reflexivity. Qed.
Example C40_example :
  (let! m := c_into_matrix z_ops (Cx 1 2) in m_det z_ops 2 m) = Ok 5.
Proof. reflexivity. Qed.
Example C09_complex_example :
  c_assign (ok2 Z.add) (Cx 1 2) (Cx 10 20) = (Cx 11 22, Ok tt) /\
  q_assign_c (ok2 Z.sub) (Qt 1 2 3 4) (Cx 10 20) = Ok (Qt (-9) (-18) 3 4).
Proof. split; reflexivity. Qed.

Print Assumptions C37_values.
Print Assumptions C37_add.
Print Assumptions C37_mul.
Print Assumptions C37_i.
Print Assumptions C37_sum_product.
Print Assumptions C38_inverse.
Print Assumptions C38_division.
Print Assumptions C38_scalar_division.
Print Assumptions C38_nonzero.
Print Assumptions C39_conj_automorphism.
Print Assumptions C39_conj_norm.
Print Assumptions C39_norm_multiplicative.
Print Assumptions C40_value.
Print Assumptions C40_product.
Print Assumptions C40_sum.
Print Assumptions C40_one.
Print Assumptions C40_det.
Print Assumptions C40_action.
Print Assumptions C41_complex_scalar.
Print Assumptions C41_quaternion_scalar.
Print Assumptions C41_quaternion_complex.
Print Assumptions C41_embeddings.
Print Assumptions C41_complex_div_scalar.
Print Assumptions C41_quaternion_div_scalar.
Print Assumptions C41_scalar_div_quaternion.
Print Assumptions C41_complex_div_quaternion.
Print Assumptions C41_quaternion_div_complex.
Print Assumptions C43_add.
Print Assumptions C43_mul.
Print Assumptions C43_hamilton.
Print Assumptions C43_not_commutative.
Print Assumptions C43_real_central.
Print Assumptions C44_conj_antiautomorphism.
Print Assumptions C44_conj_norm.
Print Assumptions C44_norm_multiplicative.
Print Assumptions C45_inverse.
Print Assumptions C45_division.
Print Assumptions C45_inverse_product.
Print Assumptions C45_nonzero.
Print Assumptions C46_value.
Print Assumptions C46_action.
Print Assumptions C46_product.
Print Assumptions C46_sum.
Print Assumptions C46_one.
Print Assumptions C46_conj.
Print Assumptions C47_unimplemented.
Print Assumptions C09_complex.
Print Assumptions C09_quaternion.
Print Assumptions C09_complex_scalar.
Print Assumptions C09_quaternion_scalar_complex.
