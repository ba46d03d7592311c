(** C84: components, conversions, equality and text of complex numbers and quaternions; row writes (C23); compound
    assignment and sequences of complex numbers and quaternions (C09, C37, C43). *)
From Coq Require Import String ZArith Lia.
From Verif Require Import MathModel ViewModel SpecFacts VFacts MFacts VecProofs MatProofs AlgFacts CxFacts Instances PropComplex SpecRing.
Set Implicit Arguments.
Local Open Scope list_scope.

(** * C84 *)
Theorem C84_complex_parts : forall T (a b x : T), exists z,
  c_new a b = Ok z /\ c_from_tuple (a, b) = Ok z /\ c_from_array [a; b] = Ok z /\ c_from_vector [a; b] = Ok z /\
  c_re z = Ok a /\ c_im z = Ok b /\ c_into_tuple z = Ok (a, b) /\ c_into_array z = [a; b] /\ c_into_vector z = [a; b] /\
  c_re_set z x = c_new x b /\ c_im_set z x = c_new a x.
Proof. intros. exists (Cx a b). repeat split. Qed.
Theorem C84_quaternion_parts : forall T (a b c d x : T), exists q,
  q_new a b c d = Ok q /\ q_from_tuple (a, b, c, d) = Ok q /\ q_from_array [a; b; c; d] = Ok q /\ q_from_vector [a; b; c; d] = Ok q /\
  q_from_scalar_and_vector3 a [b; c; d] = Ok q /\
  q_w q = Ok a /\ q_x q = Ok b /\ q_y q = Ok c /\ q_z q = Ok d /\ q_xyz q = Ok [b; c; d] /\
  q_into_tuple q = Ok (a, b, c, d) /\ q_into_array q = [a; b; c; d] /\ q_into_vector q = [a; b; c; d] /\
  q_into_scalar_and_vector3 q = Ok (a, [b; c; d]) /\
  q_w_set q x = q_new x b c d /\ q_x_set q x = q_new a x c d /\ q_y_set q x = q_new a b x d /\ q_z_set q x = q_new a b c x.
Proof. intros. exists (Qt a b c d). repeat split. Qed.
(** Every complex number and quaternion is built from its parts. *)
Theorem C84_eta : forall T (z : complex T) (q : quat T),
  (let! (a, b) := c_into_tuple z in c_new a b) = Ok z /\ (let! v := Ok (c_into_vector z) in c_from_vector v) = Ok z /\
  (let! (a, b, c, d) := q_into_tuple q in q_new a b c d) = Ok q /\ (let! (w, v) := q_into_scalar_and_vector3 q in q_from_scalar_and_vector3 w v) = Ok q.
Proof. intros T [a b] [w x y z]. repeat split. Qed.

(** Equality and zero test are those of the components. *)
Theorem C84_equality : forall T (o : Ops T) (a b c d a' b' c' d' : T),
  (c_eq o (Cx a b) (Cx a' b') = true <-> o_eq o a a' = true /\ o_eq o b b' = true) /\
  (q_eq o (Qt a b c d) (Qt a' b' c' d') = true <-> o_eq o a a' = true /\ o_eq o b b' = true /\ o_eq o c c' = true /\ o_eq o d d' = true) /\
  (c_is_zero o (Cx a b) = true <-> o_is_zero o a = true /\ o_is_zero o b = true) /\
  (q_is_zero o (Qt a b c d) = true <-> o_is_zero o a = true /\ o_is_zero o b = true /\ o_is_zero o c = true /\ o_is_zero o d = true).
Proof.
  intros. unfold c_eq, q_eq, c_is_zero, q_is_zero, v_is_zero, c_into_vector, q_into_vector. cbn [v_eq forallb re im qw qx qy qz].
  rewrite !andb_true_r, !andb_true_iff. tauto.
Qed.
(** When the scalar comparisons decide equality (integers, rationals, reals) so do these. *)
Theorem C84_equality_decides : forall T (o : Ops T), (forall x y, o_eq o x y = true <-> x = y) -> (forall x, o_is_zero o x = true <-> x = o_zero o) ->
  (forall z w : complex T, c_eq o z w = true <-> z = w) /\ (forall p q : quat T, q_eq o p q = true <-> p = q) /\
  (forall z : complex T, c_is_zero o z = true <-> Ok z = c_zero o) /\ (forall q : quat T, q_is_zero o q = true <-> Ok q = q_zero o).
Proof.
  intros T o He Hz. repeat split.
  - destruct z as [a b], w as [c d]. rewrite (proj1 (C84_equality o a b a a c d a a)), !He. intuition congruence.
  - intros <-. destruct z as [a b]. rewrite (proj1 (C84_equality o a b a a a b a a)), !He. auto.
  - destruct p as [a b c d], q as [a' b' c' d']. rewrite (proj1 (proj2 (C84_equality o a b c d a' b' c' d'))), !He. intuition congruence.
  - intros <-. destruct p as [a b c d]. rewrite (proj1 (proj2 (C84_equality o a b c d a b c d))), !He. auto.
  - destruct z as [a b]. rewrite (proj1 (proj2 (proj2 (C84_equality o a b a a a a a a)))), !Hz. intros (-> & ->). reflexivity.
  - destruct z as [a b]. intros E. apply Ok_inj in E. injection E as -> ->. rewrite (proj1 (proj2 (proj2 (C84_equality o _ _ (o_zero o) (o_zero o) (o_zero o) (o_zero o) (o_zero o) (o_zero o))))), !Hz. auto.
  - destruct q as [a b c d]. rewrite (proj2 (proj2 (proj2 (C84_equality o a b c d a a a a)))), !Hz. intros (-> & -> & -> & ->). reflexivity.
  - destruct q as [a b c d]. intros E. apply Ok_inj in E. injection E as -> -> -> ->. rewrite (proj2 (proj2 (proj2 (C84_equality o _ _ _ _ (o_zero o) (o_zero o) (o_zero o) (o_zero o))))), !Hz. auto.
Qed.
(** The 1-norm of a complex number or quaternion adds the 1-norms of its components, from left to right. *)
Theorem C84_norm_l1 : forall T (o : Ops T) (n1 : T -> res T) (a b c d x y z w : T), n1 a = Ok x -> n1 b = Ok y -> n1 c = Ok z -> n1 d = Ok w ->
  c_norm_l1 o n1 (Cx a b) = o_add o x y /\
  q_norm_l1 o n1 (Qt a b c d) = (let! s := o_add o x y in let! s' := o_add o s z in o_add o s' w).
Proof.
  intros T o n1 a b c d x y z w Ha Hb Hc Hd. unfold c_norm_l1, q_norm_l1, v_norm_l1, c_into_vector, q_into_vector. rewrite !v_map_res. cbn [map_res re im qw qx qy qz].
  rewrite Ha, Hb, Hc, Hd. cbn [bind]. unfold v_sum, v_fold_first. cbn [list_next unwrap bind fold_res]. split.
  - destruct (o_add o x y); reflexivity.
  - destruct (o_add o x y) as [s| | |]; try reflexivity. cbn [bind]. destruct (o_add o s z) as [t| | |]; try reflexivity. cbn [bind]. destruct (o_add o t w); reflexivity.
Qed.

Local Open Scope string_scope.
(** Text of a complex number and a quaternion; [fmt] prints a component. *)
Theorem C84_text : forall T (fmt : T -> string) (a b c d : T),
  c_fmt fmt (Cx a b) = Ok ("Complex(" ++ String.concat ", " [fmt a; fmt b] ++ ")") /\
  q_fmt fmt (Qt a b c d) = Ok ("Quaternion(" ++ String.concat ", " [fmt a; fmt b; fmt c; fmt d] ++ ")").
Proof.
  intros. assert (G : forall x y z : string, (x ++ y) ++ z = x ++ (y ++ z)) by (induction x; intros; cbn; [reflexivity|rewrite IHx; reflexivity]).
  split; unfold c_fmt, q_fmt; cbn [String.concat]; rewrite ?G; reflexivity.
Qed.
Example C84_example :
  q_fmt nat_str (Qt 1 20 3 4) = Ok "Quaternion(1, 20, 3, 4)" /\ c_fmt nat_str (Cx 10 2) = Ok "Complex(10, 2)" /\
  q_y_set (Qt 1 2 3 4) 9 = Ok (Qt 1 2 9 4) /\ c_eq z_ops (Cx 1%Z 2%Z) (Cx 1%Z 3%Z) = false /\ q_is_zero z_ops (Qt 0 0 0 0)%Z = true.
Proof. repeat split. Qed.
Close Scope string_scope.

(** * C23: writing a whole row through [row_mut]; unchecked element writes *)
Theorem C23_row_write : forall T M N (m : list (list T)) i (r : list T), rect M N m -> length r = N ->
  (i < M -> exists w, m_row_set m i r = Ok w /\ rect M N w /\ m_row w i = Ok r /\ forall k, k <> i -> m_row w k = m_row m k) /\
  (M <= i -> m_row_set m i r = Panic).
Proof.
  intros T M N m i r R Lr. assert (LM : length m = M) by apply R. unfold m_row_set, m_row. destruct (v_index_set_spec m i r) as (H1 & H2). split; intros Hi.
  - destruct H1 as (w & E & L & X & Y); [lia|]. exists w. split; [auto|]. split; [|split].
    + unfold v_index_set, index_set in E. replace (i <? length m) with true in E by (symmetry; apply Nat.ltb_lt; lia). apply Ok_inj in E. subst w. apply rect_list_set; auto.
    + unfold v_index, index. rewrite X. reflexivity.
    + intros k Hk. unfold v_index, index. rewrite Y by auto. reflexivity.
  - apply H2. lia.
Qed.
Theorem C23_unchecked_write : forall T M N (m : list (list T)) i j x, rect M N m -> i < M -> j < N -> m_set_unchecked m i j x = m_index_set m (i, j) x.
Proof.
  intros T M N m i j x R Hi Hj. assert (LM : length m = M) by apply R. unfold m_set_unchecked, m_index_set, v_get_unchecked, v_index, index_unchecked, index, v_set_unchecked, v_index_set, index_set_unchecked, index_set. cbn [fst snd].
  destruct (nth_error m i) as [r|] eqn:E; [|apply nth_error_None in E; lia]. cbn [bind]. assert (Lr : length r = N) by (destruct R as (_ & F); rewrite Forall_forall in F; apply F; eapply nth_error_In; eauto).
  replace (j <? length r) with true by (symmetry; apply Nat.ltb_lt; lia). cbn [bind]. replace (i <? length m) with true by (symmetry; apply Nat.ltb_lt; lia). reflexivity.
Qed.
Example C23_row_example : m_row_set [[1; 2]; [3; 4]; [5; 6]] 1 [8; 9] = Ok [[1; 2]; [8; 9]; [5; 6]] /\ m_row_set [[1; 2]; [3; 4]] 2 [8; 9] = Panic.
Proof. split; reflexivity. Qed.

(** * C09: the remaining compound assignments *)
Theorem C09_complex_quaternion_mul_div : forall T (o : Ops T) (a b : complex T) (p q : quat T) (s : T),
  c_mul_assign o a b = c_mul o a b /\ c_div_assign o a b = c_div o a b /\
  q_mul_assign o p q = q_mul o p q /\ q_mul_assign_c o p a = q_mul_c o p a /\ q_mul_assign_s o p s = q_mul_s o p s /\
  q_div_assign o p q = q_div o p q /\ q_div_assign_c o p a = q_div_c o p a /\ q_div_assign_s o p s = q_div_s o p s.
Proof. repeat split. Qed.
(** What is left in [self] when the scalar operation panics: the parts already updated keep their new values, the others
    are unchanged.  On success the contents are the result of the binary operator. *)
Theorem C09_panic_contents : forall T (opa : T -> T -> res T) (a : quat T) (b z : complex T) (s : T),
  (forall w, q_assign_c opa a b = Ok w <-> q_assign_c_full opa a b = (w, Ok tt)) /\
  (~ returns (q_assign_c opa a b) -> snd (q_assign_c_full opa a b) = refail (q_assign_c opa a b) /\
     fst (q_assign_c_full opa a b) = match opa (qw a) (re b) with Ok w1 => Qt w1 (qx a) (qy a) (qz a) | _ => a end) /\
  (forall w, q_assign_s opa a s = Ok w <-> q_assign_s_full opa a s = (w, Ok tt)) /\
  (~ returns (q_assign_s opa a s) -> q_assign_s_full opa a s = (a, refail (q_assign_s opa a s))) /\
  (forall w, c_assign_s opa z s = Ok w <-> c_assign_s_full opa z s = (w, Ok tt)) /\
  (~ returns (c_assign_s opa z s) -> c_assign_s_full opa z s = (z, refail (c_assign_s opa z s))).
Proof.
  intros T opa [w x y zz] [r i] [u v] s.
  assert (A : q_assign_c opa (Qt w x y zz) (Cx r i) = (let! w1 := opa w r in let! x1 := opa x i in Ok (Qt w1 x1 y zz))) by reflexivity.
  assert (B : q_assign_s opa (Qt w x y zz) s = (let! w1 := opa w s in Ok (Qt w1 x y zz))) by reflexivity.
  assert (D : c_assign_s opa (Cx u v) s = (let! w1 := opa u s in Ok (Cx w1 v))) by reflexivity.
  rewrite A, B, D. clear A B D. unfold q_assign_c_full, q_assign_s_full, c_assign_s_full, returns. cbn [qw qx qy qz re im].
  split; [|split; [|split; [|split; [|split]]]].
  - intros t. destruct (opa w r) as [w1| | |]; cbn [bind]; [destruct (opa x i) as [x1| | |]; cbn [bind]|..]; split; intros H; inversion H; reflexivity.
  - intros H. destruct (opa w r) as [w1| | |] eqn:E; cbn [bind refail fst snd] in *; auto. destruct (opa x i) as [x1| | |]; cbn [bind refail fst snd] in *; [exfalso; apply H; eexists; reflexivity|..]; eauto.
  - intros t. destruct (opa w s) as [w1| | |]; cbn [bind]; split; intros H; inversion H; reflexivity.
  - intros H. destruct (opa w s) as [w1| | |]; cbn [bind refail] in *; auto. exfalso; apply H; eexists; reflexivity.
  - intros t. destruct (opa u s) as [w1| | |]; cbn [bind]; split; intros H; inversion H; reflexivity.
  - intros H. destruct (opa u s) as [w1| | |]; cbn [bind refail] in *; auto. exfalso; apply H; eexists; reflexivity.
Qed.

(** * C37, C43: sums and products of sequences *)
Section Seq.
  Context {T : Type} {o : Ops T} (R : CRing o).
  (** Sums and products of sequences start from zero and one and are taken from left to right; a concatenation gives the
      sum (product, in this order) of the parts. *)
  Theorem C43_sum_product : forall (l k : list (quat T)) x,
    q_sum o [] = q_zero o /\ (let! s := q_sum o l in q_add o s x) =! q_sum o (l ++ [x]) /\
    q_product o [] = q_one o /\ (let! s := q_product o l in q_mul o s x) =! q_product o (l ++ [x]) /\
    lift2 (q_add o) (q_sum o l) (q_sum o k) =! q_sum o (l ++ k) /\
    lift2 (q_mul o) (q_product o l) (q_product o k) =! q_product o (l ++ k).
  Proof.
    assert (A : forall (op : quat T -> quat T -> res (quat T)) f, (forall a b, op a b = Ok (f a b)) -> forall l z, fold_res op z l = Ok (fold_left f l z)).
    { intros op f Hop. induction l; intros z; cbn; [reflexivity|]. rewrite Hop. cbn [bind]. apply IHl. }
    set (fa := fun p q => Qt (r_add R (qw p) (qw q)) (r_add R (qx p) (qx q)) (r_add R (qy p) (qy q)) (r_add R (qz p) (qz q))).
    assert (Ha : forall p q, q_add o p q = Ok (fa p q)) by (intros [] []; apply (q_add_v R)).
    assert (Hm : exists fm, forall p q, q_mul o p q = Ok (fm p q)) by (eexists; intros p q; apply (q_mul_v R)). destruct Hm as (fm & Hm).
    set (z0 := Qt (o_zero o) (o_zero o) (o_zero o) (o_zero o)). set (z1 := Qt (o_one o) (o_zero o) (o_zero o) (o_zero o)).
    assert (S : forall l, q_sum o l = Ok (fold_left fa l z0)) by (intros; apply (A _ _ Ha)).
    assert (P : forall l, q_product o l = Ok (fold_left fm l z1)) by (intros; apply (A _ _ Hm)).
    assert (F : forall (f : quat T -> quat T -> quat T) e, (forall a b c, f a (f b c) = f (f a b) c) -> (forall a, f a e = a) -> (forall a, f e a = a) -> forall l a, fold_left f l a = f a (fold_left f l e)).
    { intros f e As R1 L1. induction l as [|b l IH]; intros a; cbn; [rewrite R1; reflexivity|]. rewrite L1, (IH (f a b)), (IH b), As. reflexivity. }
    intros l k x. rewrite !S, !P. cbn [bind lift2]. rewrite !Ha, !Hm, !fold_left_app. repeat (split; [first [reflexivity | eexists; split; reflexivity]|]).
    split; (eexists; split; [reflexivity|]); f_equal.
    - apply F.
      + intros [] [] []. unfold fa. cbn. f_equal; apply (r_add_assoc R).
      + intros []. unfold fa, z0. cbn. f_equal; rewrite (r_add_comm R); apply (r_add_0_l R).
      + intros []. unfold fa, z0. cbn. f_equal; apply (r_add_0_l R).
    - apply F.
      + intros a b c. destruct (@C43_mul T o R a b c) as (H & _). rewrite !Hm in H. cbn [bind] in H. rewrite !Hm in H. destruct H as (v & H1 & H2). congruence.
      + intros a. destruct (@C43_mul T o R a a a) as (_ & H & _). change (q_one o) with (Ok z1) in H. cbn [bind] in H. rewrite Hm in H. congruence.
      + intros a. destruct (@C43_mul T o R a a a) as (_ & _ & H & _). change (q_one o) with (Ok z1) in H. cbn [bind] in H. rewrite Hm in H. congruence.
  Qed.
End Seq.

Print Assumptions C84_complex_parts.
Print Assumptions C84_quaternion_parts.
Print Assumptions C84_eta.
Print Assumptions C84_equality.
Print Assumptions C84_equality_decides.
Print Assumptions C84_norm_l1.
Print Assumptions C84_text.
Print Assumptions C23_row_write.
Print Assumptions C23_unchecked_write.
Print Assumptions C09_complex_quaternion_mul_div.
Print Assumptions C09_panic_contents.
Print Assumptions C43_sum_product.
