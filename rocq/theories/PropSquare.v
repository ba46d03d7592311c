(** Properties C30-C34: determinant, cofactors, adjugate and inverse of square matrices of any size. *)
From Coq Require Import ZArith Ring Permutation Field QArith Qcanon.
From Verif Require Import SpecDet SpecFacts SquareModel MFacts MatProofs AlgFacts DetFacts SqProofs Instances PropAlgebra.
Set Implicit Arguments.
Local Open Scope nat_scope.
Local Open Scope list_scope.

(* ------------------------------------------------------------------------- *)
(** * C30: the determinant                                                     *)

(** The specification enumerates each permutation of 0..n-1 exactly once. *)
Theorem C30_permutations : forall n l, (In l (perms n) <-> Permutation l (seq 0 n)) /\ NoDup (perms n).
Proof. intros. split; [apply in_perms|apply NoDup_perms]. Qed.

Theorem C30_leibniz : forall T (o : Ops T) (R : CRing o) N m, rect N N m ->
  m_det o N m = Ok (leibniz R N (mget o m)).
Proof. intros. apply m_det_leibniz. auto. Qed.

Example C30_leibniz_ex :
  m_det z_ops 3 [[2; -1; 0]; [1; 3; 5]; [4; 0; 7]]%Z = Ok 29%Z /\
  leibniz z_ring 3 (mget z_ops [[2; -1; 0]; [1; 3; 5]; [4; 0; 7]]%Z) = 29%Z /\
  perms 3 = [[0; 1; 2]; [0; 2; 1]; [1; 0; 2]; [1; 2; 0]; [2; 0; 1]; [2; 1; 0]].
Proof. vm_compute. auto. Qed.

(** Whatever the scalar type (floats, wrapping integers, ...): if the scalar operations return, so does
    the determinant; the recursion over masks terminates and stays in range. *)
Theorem C30_total : forall T (o : Ops T) N m, rect N N m ->
  (forall x y, returns (o_add o x y)) -> (forall x y, returns (o_mul o x y)) -> (forall x, returns (o_neg o x)) ->
  returns (m_det o N m) /\ (forall i j, i < N -> j < N -> returns (m_cofactor o N m i j)).
Proof.
  intros T o N m Rm A M Ne.
  assert (X : forall B (r : res B), good false r -> returns r) by (intros B r [H|(H & _)]; [auto|discriminate]).
  split; [|intros]; apply X; [apply m_det_good|apply m_cofactor_good]; auto; left; auto.
Qed.
(** And if scalar operations may only return or panic (checked integers), the same holds of [det]. *)
Theorem C30_only_scalar_panics : forall T (o : Ops T) N m, rect N N m ->
  (forall x y, returns (o_add o x y) \/ o_add o x y = Panic) ->
  (forall x y, returns (o_mul o x y) \/ o_mul o x y = Panic) ->
  (forall x, returns (o_neg o x) \/ o_neg o x = Panic) ->
  returns (m_det o N m) \/ m_det o N m = Panic.
Proof.
  intros T o N m Rm A M Ne.
  assert (X : good true (m_det o N m)).
  { apply m_det_good; auto.
    - intros x y. destruct (A x y); [left|right]; auto.
    - intros x y. destruct (M x y); [left|right]; auto.
    - intros x. destruct (Ne x); [left|right]; auto. }
  destruct X as [H|(_ & H)]; auto.
Qed.

Theorem C30_empty : forall T (o : Ops T), m_det o 0 [] = Ok (o_one o).
Proof. reflexivity. Qed.

(* ------------------------------------------------------------------------- *)
(** * C31: algebra of the determinant                                          *)

Lemma rect_0 : forall A N (m : list (list A)), rect 0 N m -> m = [].
Proof. intros A N m (L & _). destruct m; auto. discriminate. Qed.

Section C31.
  Context {T : Type} {o : Ops T} (R : CRing o).
  Add Ring R31 : (CRing_theory R).

  Theorem C31_one : forall N, (let! i := m_one o N in m_det o N i) = Ok (o_one o).
  Proof. intros. rewrite m_one_mk. cbn [bind]. rewrite (m_det_mk R). f_equal. apply leibniz_one. Qed.

  Theorem C31_product : forall N a b, rect N N a -> rect N N b ->
    (let! ab := m_dot o N N N a b in m_det o N ab) =!
    (let! x := m_det o N a in let! y := m_det o N b in o_mul o x y).
  Proof.
    intros N a b Ha Hb. destruct N as [|n].
    - apply rect_0 in Ha, Hb. subst. cbn. rewrite (r_mul_ok R), (r_mul_1_l R). same.
    - asfun o. rewrite (m_dot_mk R) by lia. cbn [bind]. rewrite !(m_det_mk R). cbn [bind].
      rewrite (r_mul_ok R), leibniz_mul. same.
  Qed.

  Theorem C31_transpose : forall N a, rect N N a ->
    (let! t := m_transpose N N a in m_det o N t) =! m_det o N a.
  Proof.
    intros. asfun o. rewrite m_transpose_mk. cbn [bind]. rewrite !(m_det_mk R).
    rewrite <- (leibniz_transpose R N f). same.
  Qed.

  (** [c] multiplied with itself [N] times. *)
  Theorem C31_scale : forall N a c, rect N N a ->
    (let! ac := m_smul o a c in m_det o N ac) =!
    (let! d := m_det o N a in o_mul o (lprod R (fun _ => c) (seq 0 N)) d).
  Proof.
    intros. asfun o. rewrite (m_smul_mk R). cbn [bind]. rewrite !(m_det_mk R). cbn [bind].
    rewrite (r_mul_ok R), leibniz_scale.
    replace (pow R c N) with (lprod R (fun _ => c) (seq 0 N)). { same. }
    generalize 0 as k. induction N; intros k; simpl; auto. rewrite IHN. auto.
  Qed.

  Theorem C31_equal_rows : forall N a i j, rect N N a -> i < N -> j < N -> i <> j ->
    (forall k, k < N -> elt a i k = elt a j k) -> m_det o N a = Ok (o_zero o).
  Proof.
    intros N a i j Ra Hi Hj Ne H. rewrite (m_det_leibniz R Ra). f_equal.
    apply leibniz_equal_rows with (i := i) (j := j); auto. intros b Hb.
    destruct (elt_lt Ra Hi Hb) as (x & E). rewrite (mget_elt o _ _ _ E). rewrite H in E by auto.
    rewrite (mget_elt o _ _ _ E). auto.
  Qed.
  Theorem C31_equal_columns : forall N a i j, rect N N a -> i < N -> j < N -> i <> j ->
    (forall k, k < N -> elt a k i = elt a k j) -> m_det o N a = Ok (o_zero o).
  Proof.
    intros N a i j Ra Hi Hj Ne H. rewrite (m_det_leibniz R Ra). f_equal. rewrite <- leibniz_transpose.
    apply leibniz_equal_rows with (i := i) (j := j); auto. intros b Hb.
    destruct (elt_lt Ra Hb Hi) as (x & E). rewrite (mget_elt o _ _ _ E). rewrite H in E by auto.
    rewrite (mget_elt o _ _ _ E). auto.
  Qed.

  Theorem C31_swap_rows : forall N a b i j, rect N N a -> rect N N b -> i < N -> j < N -> i <> j ->
    (forall k, k < N -> elt b i k = elt a j k /\ elt b j k = elt a i k) ->
    (forall r k, r < N -> k < N -> r <> i -> r <> j -> elt b r k = elt a r k) ->
    m_det o N b =! (let! d := m_det o N a in o_neg o d).
  Proof.
    intros N a b i j Ra Rb Hi Hj Ne H1 H2. rewrite (m_det_leibniz R Ra), (m_det_leibniz R Rb). cbn [bind].
    rewrite (r_neg_ok R).
    assert (E : forall r s k, r < N -> s < N -> k < N -> elt b r k = elt a s k -> mget o b r k = mget o a s k).
    { intros r s k Hr Hs Hk Q. destruct (elt_lt Ra Hs Hk) as (x & Ex). rewrite (mget_elt o _ _ _ Ex).
      apply mget_elt. congruence. }
    rewrite (@leibniz_swap_rows _ _ R N i j (mget o a) (mget o b)); auto.
    - same.
    - intros k Hk. destruct (H1 k Hk). auto.
  Qed.

  (** Linear in each row. *)
  Theorem C31_row_linear : forall N a b c i s t, rect N N a -> rect N N b -> rect N N c -> i < N ->
    (forall r k, r < N -> k < N -> r <> i -> elt b r k = elt a r k /\ elt c r k = elt a r k) ->
    (forall k, k < N -> mget o c i k = r_add R (r_mul R s (mget o a i k)) (r_mul R t (mget o b i k))) ->
    m_det o N c =! (let! x := m_det o N a in let! y := m_det o N b in
                    let! sx := o_mul o s x in let! ty := o_mul o t y in o_add o sx ty).
  Proof.
    intros N a b c i s t Ra Rb Rc Hi H1 H2.
    rewrite (m_det_leibniz R Ra), (m_det_leibniz R Rb), (m_det_leibniz R Rc). cbn [bind].
    rewrite !(r_mul_ok R). cbn [bind]. rewrite (r_add_ok R).
    assert (G : forall r k, r < N -> k < N -> r <> i -> mget o b r k = mget o a r k /\ mget o c r k = mget o a r k).
    { intros r k Hr Hk Ne. destruct (H1 r k Hr Hk Ne) as (E1 & E2). destruct (elt_lt Ra Hr Hk) as (x & Ex).
      rewrite (mget_elt o _ _ _ Ex). split; apply mget_elt; congruence. }
    pose (A' := fun r k => if r =? i then r_mul R s (mget o a r k) else mget o a r k).
    pose (B' := fun r k => if r =? i then r_mul R t (mget o b r k) else mget o b r k).
    rewrite (@leibniz_row_add _ _ R N i A' (mget o c) B'); auto.
    - rewrite (@leibniz_row_scale _ _ R N i (mget o a) A' s); auto.
      + rewrite (@leibniz_row_scale _ _ R N i (mget o b) B' t); auto.
        * same.
        * intros. unfold B'. replace (a0 =? i) with false by lia. auto.
        * intros. unfold B'. rewrite Nat.eqb_refl. auto.
      + intros. unfold A'. replace (a0 =? i) with false by lia. auto.
      + intros. unfold A'. rewrite Nat.eqb_refl. auto.
    - intros r k Hr Hk Ne. unfold A', B'. replace (r =? i) with false by lia.
      destruct (G r k Hr Hk Ne) as (E1 & E2). rewrite E1, E2. auto.
    - intros k Hk. unfold A', B'. rewrite Nat.eqb_refl. auto.
  Qed.

  (** Diagonal matrices. *)
  Theorem C31_diagonal : forall N d, length d = N ->
    (let! m := m_diagonal o N d in m_det o N m) = Ok (lprod R (fun i => vget o d i) (seq 0 N)).
  Proof.
    intros N d L. asfun o. rewrite m_diagonal_mk. cbn [bind]. rewrite (m_det_mk R). f_equal.
    rewrite (@lprod_ext _ _ R _ (fun i => vget o (vk N f) i) f).
    2: { intros i Hi. apply in_seq in Hi. apply vget_vk. lia. }
    revert f. induction N as [|n IH]; intros f. { vm_compute. unfold lprod. simpl. apply (r_add_0_r R). }
    rewrite (@leibniz_row _ _ R n _ 0) by lia.
    rewrite (@bigsum_ext _ _ R (S n) _ (fun k => if k =? 0 then r_mul R (f 0) (leibniz R n (fun i j => if i =? j then f (S i) else o_zero o)) else o_zero o)).
    - rewrite (bigsum_shift R). simpl. rewrite bigsum_zero, IH.
      rewrite <- seq_shift, lprod_map. ring.
    - intros k Hk. destruct k; simpl.
      + unfold signed. simpl. f_equal.
      + ring.
  Qed.
End C31.

Example C31_ex :
  (let! ab := m_dot z_ops 2 2 2 [[1; 2]; [3; 4]]%Z [[0; 1]; [5; -2]]%Z in m_det z_ops 2 ab) = Ok 10%Z /\
  m_det z_ops 2 [[1; 2]; [3; 4]]%Z = Ok (-2)%Z /\ m_det z_ops 2 [[0; 1]; [5; -2]]%Z = Ok (-5)%Z /\
  m_det z_ops 2 [[3; 4]; [1; 2]]%Z = Ok 2%Z.
Proof. vm_compute. auto. Qed.

(* ------------------------------------------------------------------------- *)
(** * C32: cofactor and adjugate                                               *)

Section C32.
  Context {T : Type} {o : Ops T} (R : CRing o).
  Add Ring R32 : (CRing_theory R).

  Theorem C32_cofactor : forall N m i j, rect N N m -> i < N -> j < N ->
    m_cofactor o N m i j = Ok (signed R (i + j) (leibniz R (N - 1) (minor i j (mget o m)))).
  Proof. intros. apply m_cofactor_minor; auto. Qed.

  (** The same with the minor as a matrix whose determinant the crate computes. *)
  Theorem C32_cofactor_submatrix : forall N m s i j, rect N N m -> i < N -> j < N -> rect (N - 1) (N - 1) s ->
    (forall a b, a < N - 1 -> b < N - 1 ->
       elt s a b = elt m (if a <? i then a else S a) (if b <? j then b else S b)) ->
    m_cofactor o N m i j =! (let! d := m_det o (N - 1) s in if Nat.even (i + j) then Ok d else o_neg o d).
  Proof.
    intros N m s i j Rm Hi Hj Rs H. rewrite (m_cofactor_minor R Rm) by auto. rewrite (m_det_leibniz R Rs). cbn [bind].
    rewrite (@leibniz_ext _ _ R (N - 1) (mget o s) (minor i j (mget o m))).
    - eexists. split; [reflexivity|]. unfold signed. destruct (Nat.even (i + j)); auto. apply (r_neg_ok R).
    - intros a b Ha Hb. destruct (elt_lt Rs Ha Hb) as (x & E). rewrite (mget_elt o _ _ _ E). rewrite H in E by auto.
      symmetry. apply mget_elt. auto.
  Qed.
End C32.

Theorem C32_cofactor_panics : forall T (o : Ops T) N m i j, ~ (i < N /\ j < N) -> m_cofactor o N m i j = Panic.
Proof. exact @m_cofactor_panic. Qed.

Theorem C32_adj : forall T (o : Ops T) N m, in_order2 N N (fun i j => m_cofactor o N m j i) (m_adj o N m).
Proof.
  intros. unfold m_adj. destruct (m_indices_spec N N) as (ix & E & Ri & Hi). rewrite E. cbn [bind].
  pose proof (m_map_in_order (fun '(i, j) => m_cofactor o N m j i) Ri) as H.
  destruct H as [(w & E1 & E2 & E3)|(i & j & Hii & Hj & H1 & H2)].
  - left. exists w. repeat split; try apply E2; auto. intros i j Hii Hj. destruct (E3 i j Hii Hj) as (a & E4 & E5).
    exists a. split; auto. unfold at1m in E5. rewrite Hi in E5 by auto. auto.
  - right. exists i, j. repeat split; auto.
    + intros i' j' Hi' Hj' L. specialize (H1 i' j' Hi' Hj' L). unfold at1m in H1. rewrite Hi in H1 by auto. auto.
    + unfold at1m in H2. rewrite Hi in H2 by auto. auto.
Qed.

Section C32_adj.
  Context {T : Type} {o : Ops T} (R : CRing o).
  Add Ring R32a : (CRing_theory R).

  Lemma adj_r : forall n f i j, i < S n -> j < S n ->
    bigsum R (S n) (fun k => r_mul R (f i k) (adjf R (S n) f k j)) = if i =? j then leibniz R (S n) f else o_zero o.
  Proof.
    intros n f i j Hi Hj. rewrite <- (@laplace _ _ R n f i j Hi Hj). apply bigsum_ext. intros k Hk.
    unfold adjf. rewrite Nat.sub_succ, Nat.sub_0_r, (Nat.add_comm k j). auto.
  Qed.
  Lemma adj_l : forall n f i j, i < S n -> j < S n ->
    bigsum R (S n) (fun k => r_mul R (adjf R (S n) f i k) (f k j)) = if i =? j then leibniz R (S n) f else o_zero o.
  Proof.
    intros n f i j Hi Hj. rewrite Nat.eqb_sym. rewrite <- (@laplace_col _ _ R n f j i Hj Hi). apply bigsum_ext. intros k Hk.
    unfold adjf. rewrite Nat.sub_succ, Nat.sub_0_r, (Nat.add_comm i k). ring.
  Qed.

  Theorem C32_adj_identity : forall N m, rect N N m ->
    (let! a := m_adj o N m in m_dot o N N N m a) =!
      (let! d := m_det o N m in let! i := m_one o N in m_smul o i d) /\
    (let! a := m_adj o N m in m_dot o N N N a m) =!
      (let! d := m_det o N m in let! i := m_one o N in m_smul o i d).
  Proof.
    intros N m H. destruct N as [|n].
    - apply rect_0 in H. subst. split; exists []; auto.
    - asfun o. rewrite (m_adj_mk R). cbn [bind]. rewrite (m_det_mk R). cbn [bind]. rewrite m_one_mk. cbn [bind].
      rewrite (m_smul_mk R).
      split; rewrite (m_dot_mk R) by lia; eexists; (split; [reflexivity|]); f_equal; apply mk_ext; intros i j Hi Hj.
      + rewrite adj_r by auto. destruct (i =? j); ring.
      + rewrite adj_l by auto. destruct (i =? j); ring.
  Qed.
End C32_adj.

Example C32_ex :
  m_adj z_ops 3 [[2; -1; 0]; [1; 3; 5]; [4; 0; 7]]%Z = Ok [[21; 7; -5]; [13; 14; -10]; [-12; -4; 7]]%Z /\
  m_cofactor z_ops 3 [[2; -1; 0]; [1; 3; 5]; [4; 0; 7]]%Z 0 1 = Ok 13%Z /\
  m_adj z_ops 1 [[5]]%Z = Ok [[1]]%Z.
Proof. vm_compute. auto. Qed.

(* ------------------------------------------------------------------------- *)
(** * C33: the inverse over a field                                            *)

Lemma m_sdiv_mk : forall T (o : Ops T) (F : Field o) N f d, d <> o_zero o ->
  m_sdiv o (mk N N f) d = Ok (mk N N (fun i j => r_mul F (f i j) (f_inv F d))).
Proof.
  intros. unfold m_sdiv. apply (m_map_ok (fun x => o_div o x d) (mk N N (fun i j => r_mul F (f i j) (f_inv F d))) (rect_mk N N f)). split.
  - apply rect_mk.
  - intros i j x. unfold at1m. rewrite !elt_mk. destruct ((i <? N) && (j <? N)); [|discriminate].
    intros E. injection E as <-. apply (f_div_ok F). auto.
Qed.

Section C33.
  Context {T : Type} {o : Ops T} (F : Field o).
  Add Field F33 : (Field_theory F).
  Local Notation R := (f_ring F).

  Lemma m_inv_mk : forall N f, leibniz F N f <> o_zero o ->
    m_inv o N (mk N N f) = Ok (mk N N (fun i j => r_mul F (adjf F N f i j) (f_inv F (leibniz F N f)))).
  Proof.
    intros N f H. unfold m_inv. rewrite (m_adj_mk R). cbn [bind]. rewrite (m_det_mk R). cbn [bind].
    apply (m_sdiv_mk F). auto.
  Qed.

  Theorem C33_inverse : forall N m d, rect N N m -> m_det o N m = Ok d -> d <> o_zero o ->
    exists a, m_inv o N m = Ok a /\ rect N N a /\
      m_dot o N N N m a =! m_one o N /\ m_dot o N N N a m =! m_one o N.
  Proof.
    intros N m d Rm Hd Hz. rewrite (m_det_leibniz R Rm) in Hd. injection Hd as Hd.
    destruct (mk_ex o Rm) as (f & ->).
    assert (L : leibniz F N f <> o_zero o).
    { intros Q. apply Hz. rewrite <- Hd, <- Q. apply leibniz_ext. intros. apply mget_mk; auto. }
    rewrite m_inv_mk by auto. eexists. split; [reflexivity|]. split; [apply rect_mk|].
    destruct N as [|n]. { split; exists []; auto. }
    rewrite m_one_mk. split; rewrite (m_dot_mk R) by lia; eexists; (split; [reflexivity|]); f_equal; apply mk_ext; intros i j Hi Hj.
    - rewrite (@bigsum_ext _ _ R (S n) _ (fun k => r_mul R (r_mul R (f i k) (adjf F (S n) f k j)) (f_inv F (leibniz F (S n) f)))).
      2: { intros. ring. }
      rewrite bigsum_mul_r. rewrite adj_r by auto. destruct (i =? j); field; auto.
    - rewrite (@bigsum_ext _ _ R (S n) _ (fun k => r_mul R (r_mul R (adjf F (S n) f i k) (f k j)) (f_inv F (leibniz F (S n) f)))).
      2: { intros. ring. }
      rewrite bigsum_mul_r. rewrite adj_l by auto. destruct (i =? j); field; auto.
  Qed.

  (** A one-sided inverse is the inverse; and only matrices with non-zero determinant have one. *)
  Theorem C33_unique : forall N m b, rect N N m -> rect N N b -> m_dot o N N N m b =! m_one o N ->
    (forall d, m_det o N m = Ok d -> d <> o_zero o) /\ m_inv o N m = Ok b.
  Proof.
    intros N m b Rm Rb H. destruct (mk_ex o Rm) as (f & ->). destruct (mk_ex o Rb) as (g & ->).
    destruct N as [|n].
    { split.
      - intros d Hd. cbn in Hd. injection Hd as <-. apply (f_one_neq_zero F).
      - unfold m_inv. cbn. reflexivity. }
    rewrite (m_dot_mk R), m_one_mk in H by lia. destruct H as (x & E1 & E2). injection E1 as E1. injection E2 as E2.
    subst x. 
    assert (P : forall i j, i < S n -> j < S n -> bigsum R (S n) (fun k => r_mul R (f i k) (g k j)) = if i =? j then o_one o else o_zero o).
    { intros i j Hi Hj. apply (f_equal (fun m => mget o m i j)) in E2. rewrite !mget_mk in E2 by auto. auto. }
    assert (D : r_mul R (leibniz R (S n) f) (leibniz R (S n) g) = o_one o).
    { rewrite <- leibniz_mul, <- (leibniz_one R (S n)). apply leibniz_ext. intros. apply P; auto. }
    assert (NZ : leibniz F (S n) f <> o_zero o).
    { intros Q.  rewrite Q in D. apply (f_one_neq_zero F). rewrite <- D. ring. }
    split. { intros d. rewrite (m_det_mk R). intros Q. injection Q as <-. exact NZ. }
    rewrite m_inv_mk by auto. f_equal. apply mk_ext. intros i j Hi Hj.
    (* inv = inv (m b) = (inv m) b = b *)
    transitivity (bigsum R (S n) (fun k => r_mul R (r_mul F (adjf F (S n) f i k) (f_inv F (leibniz F (S n) f)))
      (bigsum R (S n) (fun l => r_mul R (f k l) (g l j))))).
    - rewrite (@bigsum_ext _ _ R (S n) _ (fun k => if k =? j then r_mul F (adjf F (S n) f i k) (f_inv F (leibniz F (S n) f)) else o_zero o)).
      + rewrite (bigsum_delta R) by auto. auto.
      + intros k Hk. rewrite P by auto. destruct (k =? j); ring.
    - rewrite (@bigsum_ext _ _ R (S n) _ (fun k => bigsum R (S n) (fun l => r_mul R (r_mul R (r_mul R (adjf F (S n) f i k) (f k l)) (f_inv F (leibniz F (S n) f))) (g l j)))).
      + rewrite bigsum_swap.
        rewrite (@bigsum_ext _ _ R (S n) _ (fun l => if l =? i then g l j else o_zero o)).
        * rewrite (bigsum_delta R) by auto. auto.
        * intros l Hl. rewrite bigsum_mul_r, bigsum_mul_r. rewrite adj_l by auto. rewrite (Nat.eqb_sym l i).
          destruct (i =? l); field; auto.
      + intros k Hk. rewrite <- bigsum_mul_l. apply bigsum_ext. intros. ring.
  Qed.

  Theorem C33_product : forall N a b da db, rect N N a -> rect N N b ->
    m_det o N a = Ok da -> m_det o N b = Ok db -> da <> o_zero o -> db <> o_zero o ->
    (let! ab := m_dot o N N N a b in m_inv o N ab) =!
    (let! ia := m_inv o N a in let! ib := m_inv o N b in m_dot o N N N ib ia).
  Proof.
    intros N a b da db Ra Rb Ha Hb Na Nb.
    destruct (C33_inverse Ra Ha Na) as (ia & Ea & Ria & (x1 & P1 & Q1) & _).
    destruct (C33_inverse Rb Hb Nb) as (ib & Eb & Rib & (x2 & P2 & Q2) & _).
    rewrite Ea, Eb. cbn [bind]. destruct N as [|n].
    { apply rect_0 in Ra, Rb, Ria, Rib. subst. exists []. auto. }
    assert (D : forall u v, rect (S n) (S n) u -> rect (S n) (S n) v ->
      exists w, m_dot o (S n) (S n) (S n) u v = Ok w /\ rect (S n) (S n) w).
    { intros u v Ru Rv. asfun o. rewrite (m_dot_mk R) by lia. eexists. split; [reflexivity|apply rect_mk]. }
    destruct (D a b Ra Rb) as (ab & Eab & Rab). destruct (D ib ia Rib Ria) as (c & Ec & Rc).
    rewrite Eab, Ec. cbn [bind]. exists c. split; auto.
    apply (C33_unique Rab Rc).
    assert (Z : 0 < S n) by lia.
    (* (a b) (ib ia) = a (b (ib ia)) = a ((b ib) ia) = a ia = one *)
    destruct (C26_assoc R Ra Rb Rc Z Z) as (w & W1 & W2). rewrite Eab in W1. cbn [bind] in W1.
    destruct (C26_assoc R Rb Rib Ria Z Z) as (v & V1 & V2). rewrite Ec in V2. cbn [bind] in V2.
    rewrite P2 in V1. cbn [bind] in V1. pose proof (C26_one_left R Ria Z) as I. rewrite Q2 in I. cbn [bind] in I.
    rewrite I in V1. injection V1 as <-. rewrite V2 in W2. cbn [bind] in W2.
    exists w. rewrite P1 in W2. injection W2 as <-. auto.
  Qed.

  Theorem C33_involution : forall N m d, rect N N m -> m_det o N m = Ok d -> d <> o_zero o ->
    (let! a := m_inv o N m in m_inv o N a) = Ok m.
  Proof.
    intros N m d Rm Hd Hz. destruct (C33_inverse Rm Hd Hz) as (a & E & Ra & _ & H). rewrite E. cbn [bind].
    apply (C33_unique Ra Rm H).
  Qed.
  Theorem C33_det : forall N m d, rect N N m -> m_det o N m = Ok d -> d <> o_zero o ->
    (let! a := m_inv o N m in m_det o N a) =! o_div o (o_one o) d.
  Proof.
    intros N m d Rm Hd Hz. destruct (C33_inverse Rm Hd Hz) as (a & E & Ra & H & _). rewrite E. cbn [bind].
    pose proof (C31_product R Rm Ra) as P. destruct H as (w & W1 & W2). rewrite W1 in P. cbn [bind] in P.
    pose proof (C31_one R N) as O. rewrite W2 in O. cbn [bind] in O. rewrite O, Hd in P. cbn [bind] in P.
    rewrite (m_det_leibniz R Ra) in *. cbn [bind] in P. rewrite (r_mul_ok R) in P.
    destruct P as (u & U1 & U2). injection U1 as <-. injection U2 as U2.
    eexists. split; [reflexivity|]. rewrite (f_div_ok F) by auto. f_equal.
    rewrite <- U2. field. auto.
  Qed.
  (** A singular matrix has no inverse, and there division by zero decides the outcome. *)
  Theorem C33_singular : forall N m b, rect N N m -> rect N N b -> m_det o N m = Ok (o_zero o) ->
    ~ (m_dot o N N N m b =! m_one o N) /\ ~ (m_dot o N N N b m =! m_one o N).
  Proof.
    intros N m b Rm Rb Hd. split; intros H.
    - destruct (C33_unique Rm Rb H) as (X & _). apply (X _ Hd). auto.
    - pose proof (C31_product R Rb Rm) as P. destruct H as (w & W1 & W2). rewrite W1 in P. cbn [bind] in P.
      pose proof (C31_one R N) as O. rewrite W2 in O. cbn [bind] in O. rewrite O, Hd in P.
      rewrite (m_det_leibniz R Rb) in P. cbn [bind] in P. rewrite (r_mul_ok R) in P.
      destruct P as (u & U1 & U2). injection U1 as <-. injection U2 as U2. apply (f_one_neq_zero F).
      rewrite <- U2. ring.
  Qed.
End C33.

(** The inherent method and the one of the [Inv] trait agree. *)
Theorem C33_methods_agree : forall T (o : Ops T) N m, m_Inv_inv o N m = m_inv o N m.
Proof. reflexivity. Qed.

Definition m33 : list (list Qc) := map (map qcz) [[2; 1]; [3; 4]]%Z.
Example C33_ex :
  rmap (map (map this)) (m_inv qc_ops 2 m33) = Ok [[4 # 5; -1 # 5]; [-3 # 5; 2 # 5]]%Q /\
  rmap this (m_det qc_ops 2 m33) = Ok (5 # 1)%Q.
Proof. vm_compute. auto. Qed.

(* ------------------------------------------------------------------------- *)
(** * C34: integer matrices                                                    *)

Lemma m_sdiv_z : forall N f d, d <> 0%Z ->
  m_sdiv z_ops (mk N N f) d = Ok (mk N N (fun i j => Z.quot (f i j) d)).
Proof.
  intros. unfold m_sdiv. apply (m_map_ok (fun x => o_div z_ops x d) (mk N N (fun i j => Z.quot (f i j) d)) (rect_mk N N f)). split.
  - apply rect_mk.
  - intros i j x. unfold at1m. rewrite !elt_mk. destruct ((i <? N) && (j <? N)); [|discriminate].
    intros E. injection E as <-. cbn. destruct (Z.eqb_spec d 0); [contradiction|auto].
Qed.

(** The value: the adjugate divided element by element, with truncation. *)
Theorem C34_value : forall N m d a, rect N N m -> m_det z_ops N m = Ok d -> d <> 0%Z ->
  m_adj z_ops N m = Ok a -> m_inv z_ops N m = Ok (map (map (fun x => Z.quot x d)) a).
Proof.
  intros N m d a Rm Hd Hz Ha. unfold m_inv. rewrite Hd, Ha. cbn [bind].
  destruct (mk_ex z_ops Rm) as (f & ->). rewrite (m_adj_mk z_ring) in Ha. injection Ha as <-.
  rewrite m_sdiv_z by auto. f_equal. unfold mk. rewrite map_vk. apply vk_ext. intros. rewrite map_vk. auto.
Qed.

Theorem C34_singular : forall N m, rect N N m -> m_det z_ops N m = Ok 0%Z -> 0 < N /\ m_inv z_ops N m = Panic.
Proof.
  intros N m Rm Hd.
  assert (HN : 0 < N). { destruct N; [|lia]. cbn in Hd. discriminate. }
  split; auto.
  unfold m_inv. destruct (mk_ex z_ops Rm) as (f & ->). rewrite (m_adj_mk z_ring), Hd. cbn [bind]. unfold m_sdiv.
  pose proof (m_map_in_order (fun x => o_div z_ops x 0%Z) (rect_mk N N (adjf z_ring N f))) as H.
  destruct H as [(w & E1 & E2 & E3)|(i & j & Hii & Hj & H1 & H2)].
  - exfalso. destruct (E3 0 0 HN HN) as (x & _ & E). unfold at1m in E. rewrite elt_mk in E.
    replace ((0 <? N) && (0 <? N)) with true in E by lia. cbn in E. discriminate.
  - unfold at1m in H2. rewrite elt_mk in H2. replace ((i <? N) && (j <? N)) with true in H2 by lia. cbn in H2.
    destruct (m_map _ _); simpl in H2; try contradiction. auto.
Qed.

Theorem C34_unimodular : forall N m d, rect N N m -> m_det z_ops N m = Ok d -> d = 1%Z \/ d = (-1)%Z ->
  exists a, m_inv z_ops N m = Ok a /\ rect N N a /\
    m_dot z_ops N N N m a =! m_one z_ops N /\ m_dot z_ops N N N a m =! m_one z_ops N.
Proof.
  intros N m d Rm Hd H. destruct (mk_ex z_ops Rm) as (f & ->). rewrite (m_det_mk z_ring) in Hd. apply Ok_inj in Hd.
  unfold m_inv. rewrite (m_adj_mk z_ring). cbn [bind]. rewrite (m_det_mk z_ring), Hd. cbn [bind].
  rewrite m_sdiv_z by lia. eexists. split; [reflexivity|]. split; [apply rect_mk|].
  destruct N as [|n]. { split; exists []; auto. }
  assert (Q : forall x, Z.quot x d = Z.mul x d).
  { intros x. destruct H; subst d; rewrite H.
    - rewrite Z.quot_1_r. lia.
    - change (-1)%Z with (- (1))%Z. rewrite Z.quot_opp_r, Z.quot_1_r by lia. lia. }
  assert (DD : (d * d = 1)%Z) by (destruct H; subst d; rewrite H; auto).
  rewrite m_one_mk. split; rewrite (m_dot_mk z_ring) by lia; eexists; (split; [reflexivity|]); f_equal; apply mk_ext; intros i j Hi Hj.
  - rewrite (@bigsum_ext _ _ z_ring (S n) _ (fun k => r_mul z_ring (r_mul z_ring (f i k) (adjf z_ring (S n) f k j)) d)).
    2: { intros. rewrite Q. apply Z.mul_assoc. }
    rewrite bigsum_mul_r, adj_r by auto. rewrite Hd. destruct (i =? j); auto.
  - rewrite (@bigsum_ext _ _ z_ring (S n) _ (fun k => r_mul z_ring (r_mul z_ring (adjf z_ring (S n) f i k) (f k j)) d)).
    2: { intros. rewrite Q. cbn. ring. }
    rewrite bigsum_mul_r, adj_l by auto. rewrite Hd. destruct (i =? j); auto.
Qed.

Theorem C34_only_unimodular : forall N m b d, rect N N m -> rect N N b -> m_det z_ops N m = Ok d ->
  m_dot z_ops N N N m b =! m_one z_ops N \/ m_dot z_ops N N N b m =! m_one z_ops N -> d = 1%Z \/ d = (-1)%Z.
Proof.
  intros N m b d Rm Rb Hd H.
  assert (E : exists e, (d * e = 1)%Z).
  { exists (leibniz z_ring N (mget z_ops b)). pose proof (C31_one z_ring N) as O.
    destruct H as [(w & W1 & W2)|(w & W1 & W2)]; rewrite W2 in O; cbn [bind] in O.
    - pose proof (C31_product z_ring Rm Rb) as P. rewrite W1 in P. cbn [bind] in P.
      rewrite O, Hd, (m_det_leibniz z_ring Rb) in P. cbn [bind] in P. destruct P as (u & U1 & U2). apply Ok_inj in U1. subst u.
      apply Ok_inj in U2. exact U2.
    - pose proof (C31_product z_ring Rb Rm) as P. rewrite W1 in P. cbn [bind] in P.
      rewrite O, Hd, (m_det_leibniz z_ring Rb) in P. cbn [bind] in P. destruct P as (u & U1 & U2). apply Ok_inj in U1. subst u.
      apply Ok_inj in U2. rewrite Z.mul_comm. exact U2. }
  destruct E as (e & E). apply Z.eq_mul_1 in E. tauto.
Qed.

Example C34_ex :
  m_inv z_ops 2 [[2; 1]; [7; 4]]%Z = Ok [[4; -1]; [-7; 2]]%Z /\
    m_inv z_ops 2 [[2; 1]; [3; 4]]%Z = Ok [[0; 0]; [0; 0]]%Z /\
    m_inv z_ops 2 [[2; 1]; [4; 2]]%Z = Panic /\ m_det z_ops 2 [[2; 1]; [4; 2]]%Z = Ok 0%Z.
Proof. vm_compute. auto. Qed.

Print Assumptions C30_permutations.
Print Assumptions C30_leibniz.
Print Assumptions C30_total.
Print Assumptions C30_only_scalar_panics.
Print Assumptions C30_empty.
Print Assumptions C31_one.
Print Assumptions C31_product.
Print Assumptions C31_transpose.
Print Assumptions C31_scale.
Print Assumptions C31_equal_rows.
Print Assumptions C31_equal_columns.
Print Assumptions C31_swap_rows.
Print Assumptions C31_row_linear.
Print Assumptions C31_diagonal.
Print Assumptions C32_cofactor.
Print Assumptions C32_cofactor_submatrix.
Print Assumptions C32_cofactor_panics.
Print Assumptions C32_adj.
Print Assumptions C32_adj_identity.
Print Assumptions C33_inverse.
Print Assumptions C33_unique.
Print Assumptions C33_product.
Print Assumptions C33_involution.
Print Assumptions C33_det.
Print Assumptions C33_singular.
Print Assumptions C33_methods_agree.
Print Assumptions C34_value.
Print Assumptions C34_singular.
Print Assumptions C34_unimodular.
Print Assumptions C34_only_unimodular.
