(** C108: systems of linear equations.  Over a field, det decides whether a square system has exactly one solution;
    inv yields it; the solution of a regular system is given by determinants (Cramer).  *)
From Coq Require Import Ring Field Lia ZArith QArith Qcanon Reals.
From Verif Require Import Spec SpecRing SpecDet SpecTransform AlgFacts MFacts DetFacts SqProofs MatProofs PropSquare TransformModel Instances RealInst.
Set Implicit Arguments.
Local Open Scope nat_scope.

(* ------------------------------------------------------------------------- *)
(** * Elimination, for matrices given as functions of their indices             *)
Section Elim.
  Context {T : Type} {o : Ops T} (F : Field o).
  Add Field Felim : (Field_theory F).
  Local Notation "0" := (o_zero o).
  Local Notation "1" := (o_one o).
  Local Infix "+" := (r_add F).
  Local Infix "*" := (r_mul F).
  Local Notation "- x" := (r_opp F x).
  Local Notation sum := (bigsum F).
  Context (D : forall x : T, x = 0 \/ x <> 0).

  Lemma find_nonzero : forall (f : nat -> T) n, (forall i, i < n -> f i = 0) \/ exists i, i < n /\ f i <> 0.
  Proof.
    intros f. induction n as [|n IH]. { left. intros. lia. }
    destruct IH as [IH|(i & Hi & H)]; [|right; exists i; split; auto].
    destruct (D (f n)) as [E|E]; [left|right; exists n; auto]. intros i Hi. destruct (Nat.eq_dec i n) as [->|]; auto. apply IH. lia.
  Qed.
  Lemma gauss : forall N M (A : nat -> nat -> T),
    (exists x, (exists j, j < N /\ x j <> 0) /\ forall i, i < M -> sum N (fun j => A i j * x j) = 0) \/
    (exists B, forall i j, i < N -> j < N -> sum M (fun k => B i k * A k j) = if i =? j then 1 else 0).
  Proof.
    induction N as [|N IH]; intros M A. { right. exists (fun _ _ => 0). intros. lia. }
    destruct (find_nonzero (fun i => A i 0%nat) M) as [Z|(p & Hp & Z)].
    - left. exists (fun j => if j =? 0 then 1 else 0). split. { exists 0%nat. split; [lia|]. cbn. apply (f_one_neq_zero F). }
      intros i Hi. rewrite bigsum_shift. cbn [Nat.eqb]. rewrite Z by auto.
      rewrite (@bigsum_ext _ _ F N _ (fun _ => 0)). { rewrite bigsum_zero. ring. } intros. ring.
    - set (q := f_inv F (A p 0%nat)). assert (Q : q * A p 0%nat = 1) by (apply (f_inv_l F); auto).
      destruct (IH M (fun k j => A k (S j) + - (A k 0%nat * q * A p (S j)))) as [(x & (j0 & Hj & Hx) & K)|(B & K)].
      + left. set (s := sum N (fun j => A p (S j) * x j)). exists (fun j => match j with O => - (q * s) | S j => x j end). split.
        { exists (S j0). split; [lia|]. exact Hx. }
        intros i Hi. rewrite bigsum_shift. specialize (K i Hi). rewrite <- K.
        rewrite (@bigsum_ext _ _ F N (fun j => (A i (S j) + - (A i 0%nat * q * A p (S j))) * x j)
          (fun j => A i (S j) * x j + (- (A i 0%nat * q)) * (A p (S j) * x j))) by (intros; ring).
        rewrite bigsum_add, bigsum_mul_l. fold s. ring.
      + right. set (c := fun i => sum M (fun l => B i l * A l 0%nat) * q).
        set (B1 := fun i k => B i k + - (if k =? p then c i else 0)).
        assert (K1 : forall i f, sum M (fun k => B1 i k * f k) = sum M (fun k => B i k * f k) + - (c i * f p)).
        { intros i f. unfold B1. rewrite (@bigsum_ext _ _ F M _ (fun k => B i k * f k + - (if k =? p then c i * f k else 0))).
          2: { intros k _. destruct (k =? p); ring. }
          rewrite bigsum_add, bigsum_opp. rewrite (@bigsum_delta _ _ F M p (fun k => c i * f k)) by auto. reflexivity. }
        assert (K2 : forall i, sum M (fun k => B1 i k * A k 0%nat) = 0).
        { intros i. rewrite K1. unfold c. set (y := sum M (fun l => B i l * A l 0%nat)). replace (y + - (y * q * A p 0%nat)) with (y + - (y * (q * A p 0%nat))) by ring.
          rewrite Q. ring. }
        assert (K3 : forall i j, i < N -> j < N -> sum M (fun k => B1 i k * A k (S j)) = if i =? j then 1 else 0).
        { intros i j Hi Hj. rewrite <- K by auto. rewrite K1.
          rewrite (@bigsum_ext _ _ F M (fun k => B i k * (A k (S j) + - (A k 0%nat * q * A p (S j))))
            (fun k => B i k * A k (S j) + (B i k * A k 0%nat) * (- (q * A p (S j))))) by (intros; ring).
          rewrite bigsum_add, bigsum_mul_r. unfold c. ring. }
        exists (fun i k => match i with
                           | O => (if k =? p then q else 0) + - sum N (fun j => q * A p (S j) * B1 j k)
                           | S i => B1 i k end).
        assert (K0 : forall f, sum M (fun k => ((if k =? p then q else 0) + - sum N (fun j => q * A p (S j) * B1 j k)) * f k) =
          q * f p + - sum N (fun j => q * A p (S j) * sum M (fun k => B1 j k * f k))).
        { intros f. rewrite (@bigsum_ext _ _ F M _ (fun k => (if k =? p then q * f k else 0) + - sum N (fun j => q * A p (S j) * (B1 j k * f k)))).
          2: { intros k _. transitivity ((if k =? p then q * f k else 0) + - (sum N (fun j => q * A p (S j) * B1 j k) * f k)).
               { destruct (k =? p); ring. }
               rewrite <- bigsum_mul_r. do 2 f_equal. apply bigsum_ext. intros. ring. }
          rewrite bigsum_add, bigsum_opp. rewrite (@bigsum_delta _ _ F M p (fun k => q * f k)) by auto. do 2 f_equal.
          rewrite bigsum_swap. apply bigsum_ext. intros j _. apply bigsum_mul_l. }
        intros [|i] [|j] Hi Hj; cbn [Nat.eqb].
        * rewrite (K0 (fun k => A k 0%nat)). rewrite Q. rewrite (@bigsum_ext _ _ F N _ (fun _ => 0)). { rewrite bigsum_zero. ring. }
          intros l _. rewrite K2. ring.
        * rewrite (K0 (fun k => A k (S j))). rewrite (@bigsum_ext _ _ F N _ (fun l => if l =? j then q * A p (S l) else 0)).
          2: { intros l Hl. rewrite K3 by lia. destruct (l =? j); ring. }
          rewrite (@bigsum_delta _ _ F N j (fun l => q * A p (S l))) by lia. ring.
        * apply K2.
        * apply K3; lia.
  Qed.
  (** Columns of a left inverse times the matrix: det is not zero. *)
  Lemma left_inverse_det : forall N A B, (forall i j, i < N -> j < N -> sum N (fun k => B i k * A k j) = if i =? j then 1 else 0) ->
    leibniz F N B * leibniz F N A = 1.
  Proof. intros N A B H. rewrite <- leibniz_mul. rewrite <- (leibniz_one F N). apply leibniz_ext. intros. apply H; auto. Qed.
  Lemma zero_one : forall x, x * 0 <> 1.
  Proof. intros x H. apply (f_one_neq_zero F). rewrite <- H. ring. Qed.
  (** A singular square matrix maps some non-zero vector to zero. *)
  Lemma singular_kernel : forall N A, leibniz F N A = 0 ->
    exists x, (exists j, j < N /\ x j <> 0) /\ forall i, i < N -> sum N (fun j => A i j * x j) = 0.
  Proof.
    intros N A H. destruct (gauss N N A) as [K|(B & K)]; auto. exfalso.
    apply left_inverse_det in K. rewrite H in K. eapply zero_one; eauto.
  Qed.
  (** Fewer equations than unknowns. *)
  Lemma wide_kernel : forall N M A, M < N -> exists x, (exists j, j < N /\ x j <> 0) /\ forall i, i < M -> sum N (fun j => A i j * x j) = 0.
  Proof.
    intros N M A L. destruct (@singular_kernel N (fun i j => if i <? M then A i j else 0)) as (x & Hx & K).
    { rewrite (@leibniz_row_scale _ _ F N M (fun i j => if i <? M then A i j else 0) _ 0); auto. { ring. }
      intros b _. rewrite Nat.ltb_irrefl. ring. }
    exists x. split; auto. intros i Hi. rewrite <- (K i) by lia. apply bigsum_ext. intros. apply Nat.ltb_lt in Hi. rewrite Hi. reflexivity.
  Qed.
End Elim.

(* ------------------------------------------------------------------------- *)
(** * Cramer's rule, in any commutative ring                                    *)
Section Cramer.
  Context {T : Type} {o : Ops T} (R : CRing o).
  Add Ring Rcramer : (CRing_theory R).
  (** [c] is [m] with column [i] replaced by the right-hand side: its determinant is x_i det m. *)
  Theorem C108_cramer : forall N m c x b i y, rect N N m -> rect N N c -> length x = N -> length b = N -> i < N ->
    m_dot_v o N N m x = Ok b ->
    (forall r k, r < N -> k < N -> elt c r k = if k =? i then nth_error b r else elt m r k) ->
    nth_error x i = Some y ->
    m_det o N c =! (let! d := m_det o N m in o_mul o y d).
  Proof.
    intros N m c x b i y Rm Rc Lx Lb Hi E H Hy. destruct N as [|n]; [lia|].
    destruct (mk_ex o Rm) as (f & ->). destruct (mk_ex o Rc) as (g & ->). destruct (vk_ex o x Lx) as (u & ->). clear Rm Rc Lx.
    rewrite (m_dot_v_mk R) in E by lia. apply Ok_inj in E. subst b.
    rewrite nth_error_vk in Hy. replace (i <? S n) with true in Hy by (symmetry; apply Nat.ltb_lt; auto). injection Hy as <-.
    rewrite !(m_det_mk R). cbn [bind]. rewrite (r_mul_ok R). eexists. split; [reflexivity|]. f_equal.
    assert (G : forall r k, r < S n -> k < S n -> g r k = if k =? i then bigsum R (S n) (fun l => r_mul R (f r l) (u l)) else f r k).
    { intros r k Hr Hk. specialize (H r k Hr Hk). rewrite !elt_mk, nth_error_vk in H.
      assert (B1 : r <? S n = true) by (apply Nat.ltb_lt; auto). assert (B2 : k <? S n = true) by (apply Nat.ltb_lt; auto). rewrite B1, B2 in H. cbn in H.
      destruct (k =? i); injection H as H; exact H. }
    assert (K := @laplace_col _ _ R n g i i Hi Hi). rewrite Nat.eqb_refl in K. rewrite <- K.
    rewrite (@bigsum_ext _ _ R (S n) _ (fun r => bigsum R (S n) (fun l => r_mul R (u l) (r_mul R (f r l) (signed R (r + i) (leibniz R n (minor r i f))))))).
    - rewrite bigsum_swap. rewrite (@bigsum_ext _ _ R (S n) _ (fun l => if l =? i then r_mul R (u l) (leibniz R (S n) f) else o_zero o)).
      + rewrite (@bigsum_delta _ _ R (S n) i (fun l => r_mul R (u l) (leibniz R (S n) f))) by auto. reflexivity.
      + intros l Hl. rewrite bigsum_mul_l. rewrite (@laplace_col _ _ R n f l i Hl Hi). destruct (l =? i); ring.
    - intros r Hr. rewrite G by auto. rewrite Nat.eqb_refl.
      replace (leibniz R n (minor r i g)) with (leibniz R n (minor r i f)).
      + rewrite <- bigsum_mul_r. apply bigsum_ext. intros. ring.
      + apply leibniz_ext. intros a b Ha Hb. unfold minor. rewrite G.
        * destruct (Nat.eqb_spec (skip i b) i) as [E|E]; [|reflexivity]. exfalso. unfold skip in E. destruct (Nat.ltb_spec b i); lia.
        * unfold skip. destruct (Nat.ltb_spec a r); lia.
        * unfold skip. destruct (Nat.ltb_spec b i); lia.
  Qed.
  (** Adding a multiple of one row to another does not change det. *)
  Theorem C31_shear : forall N a b i j s, rect N N a -> rect N N b -> i < N -> j < N -> i <> j ->
    (forall r k, r < N -> k < N -> r <> i -> elt b r k = elt a r k) ->
    (forall k, k < N -> mget o b i k = r_add R (mget o a i k) (r_mul R s (mget o a j k))) ->
    m_det o N b =! m_det o N a.
  Proof.
    intros N a b i j s Ra Rb Hi Hj Ne H1 H2. destruct (mk_ex o Ra) as (f & ->). destruct (mk_ex o Rb) as (g & ->).
    rewrite !(m_det_mk R). eexists. split; [reflexivity|]. f_equal.
    assert (G1 : forall r k, r < N -> k < N -> r <> i -> g r k = f r k).
    { intros r k Hr Hk Q. specialize (H1 r k Hr Hk Q). rewrite !elt_mk in H1. apply Nat.ltb_lt in Hr, Hk. rewrite Hr, Hk in H1. cbn in H1. injection H1 as H1. auto. }
    assert (G2 : forall k, k < N -> g i k = r_add R (f i k) (r_mul R s (f j k))).
    { intros k Hk. specialize (H2 k Hk). rewrite !mget_mk in H2 by auto. exact H2. }
    rewrite (@leibniz_row_add _ _ R N i f g (fun r k => if r =? i then r_mul R s (f j k) else f r k)); auto.
    - rewrite (@leibniz_row_scale _ _ R N i (fun r k => if r =? i then f j k else f r k) (fun r k => if r =? i then r_mul R s (f j k) else f r k) s); auto.
      + rewrite (@leibniz_equal_rows _ _ R N i j (fun r k => if r =? i then f j k else f r k)); auto. { ring. }
        intros k _. rewrite Nat.eqb_refl. destruct (Nat.eqb_spec j i); auto.
      + intros r k _ _ Q. destruct (Nat.eqb_spec r i); [contradiction|]. reflexivity.
      + intros k _. rewrite Nat.eqb_refl. reflexivity.
    - intros r k Hr Hk Q. destruct (Nat.eqb_spec r i); [contradiction|]. split; symmetry; auto.
    - intros k Hk. rewrite Nat.eqb_refl. auto.
  Qed.
  (** The determinant of a triangular matrix is the product of its diagonal. *)
  Lemma leibniz_triangular : forall n f, (forall i j, i < n -> j < i -> f i j = o_zero o) -> leibniz R n f = lprod R (fun i => f i i) (seq 0 n).
  Proof.
    induction n as [|n IH]; intros f H. { cbn. unfold lprod. cbn. ring. }
    rewrite (@leibniz_row _ _ R n f n) by lia.
    rewrite (@bigsum_ext _ _ R (S n) _ (fun k => if k =? n then r_mul R (f n n) (leibniz R n f) else o_zero o)).
    - rewrite (@bigsum_delta _ _ R (S n) n (fun _ => r_mul R (f n n) (leibniz R n f))) by lia. rewrite IH by auto.
      rewrite seq_S. cbn [Nat.add]. unfold lprod. rewrite fold_right_app. cbn [fold_right].
      clear. generalize (seq 0 n) as l. induction l as [|a l IH]; cbn; [ring|]. rewrite <- IH. ring.
    - intros k Hk. destruct (Nat.eqb_spec k n) as [->|Q].
      + unfold signed. replace (Nat.even (n + n)) with true by (symmetry; apply Nat.even_spec; exists n; lia). f_equal.
        apply leibniz_ext. intros a b Ha Hb. unfold minor, skip. apply Nat.ltb_lt in Ha, Hb. rewrite Ha, Hb. reflexivity.
      + rewrite H by lia. ring.
  Qed.
  Theorem C31_triangular : forall N m, rect N N m ->
    (forall i j, i < N -> j < i -> elt m i j = Some (o_zero o)) \/ (forall i j, j < N -> i < j -> elt m i j = Some (o_zero o)) ->
    m_det o N m = Ok (lprod R (fun i => mget o m i i) (seq 0 N)).
  Proof.
    intros N m Rm H. rewrite (m_det_leibniz R Rm). f_equal. destruct H as [H|H].
    - apply leibniz_triangular. intros i j Hi Hj. apply mget_elt. auto.
    - rewrite <- leibniz_transpose. rewrite leibniz_triangular; auto. intros i j Hi Hj. apply mget_elt. auto.
  Qed.
End Cramer.

(* ------------------------------------------------------------------------- *)
(** * Square systems over a field                                              *)
(** [x] solves the system with coefficients [m] and right-hand side [b]. *)
Definition solves {T : Type} (o : Ops T) (N : nat) (m : list (list T)) (x b : list T) : Prop := length x = N /\ m_dot_v o N N m x = Ok b.
(** The zero vector, and a vector that is not zero. *)
Definition nonzero {T : Type} (o : Ops T) (x : list T) : Prop := exists i y, nth_error x i = Some y /\ y <> o_zero o.

Section Systems.
  Context {T : Type} {o : Ops T} (F : Field o).
  Add Field Fsys : (Field_theory F).
  Local Notation "0" := (o_zero o).
  Local Notation "1" := (o_one o).
  Local Infix "+" := (r_add F).
  Local Infix "*" := (r_mul F).
  Local Notation "- x" := (r_opp F x).
  Local Notation sum := (bigsum F).

  Lemma sq_v : forall N f u, m_dot_v o N N (mk N N f) (vk N u) = Ok (vk N (fun i => sum N (fun k => f i k * u k))).
  Proof. intros [|n] f u; [reflexivity|]. apply (m_dot_v_mk F). lia. Qed.
  Lemma v_sq : forall N f u, v_dot_m o N N (vk N u) (mk N N f) = Ok (vk N (fun j => sum N (fun k => u k * f k j))).
  Proof. intros [|n] f u; [reflexivity|]. apply (v_dot_m_mk F). lia. Qed.
  Lemma sq_sq : forall N f g, m_dot o N N N (mk N N f) (mk N N g) = Ok (mk N N (fun i j => sum N (fun k => f i k * g k j))).
  Proof. intros [|n] f g; [reflexivity|]. apply (m_dot_mk F). lia. Qed.
  Lemma one_entries : forall N f g, m_dot o N N N (mk N N f) (mk N N g) =! m_one o N ->
    forall i j, i < N -> j < N -> sum N (fun k => f i k * g k j) = if i =? j then 1 else 0.
  Proof.
    intros N f g (w & X & Y) i j Hi Hj. rewrite sq_sq in X. rewrite m_one_mk, <- X in Y. apply Ok_inj in Y.
    apply (f_equal (fun m => mget o m i j)) in Y. rewrite !mget_mk in Y by auto. symmetry. exact Y.
  Qed.
  Lemma dot_assoc_v : forall N f g u,
    (let! w := m_dot_v o N N (mk N N g) (vk N u) in m_dot_v o N N (mk N N f) w) = Ok (vk N (fun i => sum N (fun k => sum N (fun l => f i l * g l k) * u k))).
  Proof.
    intros N f g u. rewrite sq_v. cbn [bind]. rewrite sq_v. f_equal. apply vk_ext. intros i Hi.
    transitivity (sum N (fun l => sum N (fun k => f i l * (g l k * u k)))). { apply bigsum_ext. intros. symmetry. apply bigsum_mul_l. }
    rewrite bigsum_swap. apply bigsum_ext. intros k _. rewrite <- bigsum_mul_r. apply bigsum_ext. intros. ring.
  Qed.
  Lemma dot_inverse : forall N f g u, m_dot o N N N (mk N N f) (mk N N g) =! m_one o N ->
    (let! w := m_dot_v o N N (mk N N g) (vk N u) in m_dot_v o N N (mk N N f) w) = Ok (vk N u).
  Proof.
    intros N f g u H. rewrite dot_assoc_v. f_equal. apply vk_ext. intros i Hi.
    rewrite (@bigsum_ext _ _ F N _ (fun k => if k =? i then u k else 0)). { apply (@bigsum_delta _ _ F N i u Hi). }
    intros k Hk. rewrite (@one_entries N f g H i k Hi Hk). rewrite Nat.eqb_sym. destruct (k =? i); ring.
  Qed.
  (** A regular system has exactly one solution, and [inv] yields it. *)
  Theorem C108_solve : forall N m d b, rect N N m -> m_det o N m = Ok d -> d <> 0 -> length b = N ->
    exists x, (let! i := m_inv o N m in m_dot_v o N N i b) = Ok x /\ solves o N m x b /\ forall y, solves o N m y b -> y = x.
  Proof.
    intros N m d b Rm Hd Hz Lb. destruct (C33_inverse F Rm Hd Hz) as (a & E & Ra & H1 & H2). rewrite E. cbn [bind].
    destruct (mk_ex o Rm) as (f & ->). destruct (mk_ex o Ra) as (g & ->). destruct (vk_ex o b Lb) as (u & ->). clear Rm Ra Lb.
    eexists. split; [apply sq_v|]. split.
    - split; [apply vk_length|]. rewrite <- (@dot_inverse N f g u H1). rewrite (sq_v N g u). reflexivity.
    - intros y (Ly & Hy). destruct (vk_ex o y Ly) as (v & ->). pose proof (@dot_inverse N g f v H2) as K. rewrite Hy in K. cbn [bind] in K.
      rewrite sq_v in K. apply Ok_inj in K. symmetry. exact K.
  Qed.
  (** Cramer's rule: the [i]-th unknown of a regular system is a quotient of two determinants. *)
  Theorem C108_cramer_field : forall N m c x b i d e, rect N N m -> rect N N c -> length b = N -> i < N ->
    m_det o N m = Ok d -> d <> 0 -> m_det o N c = Ok e ->
    solves o N m x b ->
    (forall r k, r < N -> k < N -> elt c r k = if k =? i then nth_error b r else elt m r k) ->
    (let! q := o_div o e d in Ok (Some q)) = Ok (nth_error x i).
  Proof.
    intros N m c x b i d e Rm Rc Lb Hi Hd Hz He (Lx & Hx) H.
    destruct (nth_error x i) as [y|] eqn:Y. 2: { apply nth_error_None in Y. lia. }
    pose proof (@C108_cramer _ _ F N m c x b i y Rm Rc Lx Lb Hi Hx H Y) as K. rewrite Hd, He in K. cbn [bind] in K. rewrite (r_mul_ok F) in K.
    destruct K as (w & K1 & K2). apply Ok_inj in K1. subst w. apply Ok_inj in K2. subst e.
    rewrite (f_div_ok F) by auto. cbn [bind]. do 2 f_equal. field. auto.
  Qed.

  Context (D : forall x : T, x = 0 \/ x <> 0).
  Definition zeros (N : nat) : list T := repeat 0 N.
  Lemma zeros_vk : forall N, zeros N = vk N (fun _ => 0).
  Proof. intros. unfold zeros, vk. rewrite <- (seq_length N 0%nat) at 1. generalize (seq 0%nat N) as l. induction l; cbn; f_equal; auto. Qed.
  Lemma nonzero_vk : forall N u, nonzero o (vk N u) <-> exists j, j < N /\ u j <> 0.
  Proof.
    intros N u. split.
    - intros (i & y & H & Z). rewrite nth_error_vk in H. destruct (Nat.ltb_spec i N); [|discriminate]. injection H as <-. eauto.
    - intros (j & L & Z). exists j, (u j). rewrite nth_error_vk. apply Nat.ltb_lt in L. rewrite L. auto.
  Qed.
  Lemma vk_inj : forall N (u v : nat -> T), vk N u = vk N v -> forall i, i < N -> u i = v i.
  Proof. intros N u v H i L. apply (f_equal (fun l => nth_error l i)) in H. rewrite !nth_error_vk in H. apply Nat.ltb_lt in L. rewrite L in H. injection H. auto. Qed.
  (** det is zero exactly when some vector other than zero is mapped to zero ... *)
  Theorem C108_singular : forall N m, rect N N m ->
    (m_det o N m = Ok 0 <-> exists x, nonzero o x /\ solves o N m x (zeros N)).
  Proof.
    intros N m Rm. split.
    - intros H. destruct (mk_ex o Rm) as (f & ->). rewrite (m_det_mk F) in H. apply Ok_inj in H.
      destruct (singular_kernel F D N f H) as (u & Hu & K). exists (vk N u). split. { apply nonzero_vk. exact Hu. }
      split; [apply vk_length|]. rewrite sq_v, zeros_vk. f_equal. apply vk_ext. auto.
    - intros (x & Nx & S). rewrite (m_det_leibniz F Rm). f_equal.
      destruct (D (leibniz F N (mget o m))) as [E|E]; auto. exfalso.
      destruct (@C108_solve N m _ (zeros N) Rm (m_det_leibniz F Rm) E (repeat_length _ _)) as (z & _ & _ & U).
      pose proof (U x S) as E1. assert (S0 : solves o N m (zeros N) (zeros N)).
      { split; [apply repeat_length|]. destruct (mk_ex o Rm) as (f & ->). rewrite zeros_vk, sq_v. f_equal. apply vk_ext. intros.
        rewrite (@bigsum_ext _ _ F N _ (fun _ => 0)) by (intros; ring). apply bigsum_zero. }
      apply U in S0. rewrite E1, <- S0, zeros_vk in Nx. apply nonzero_vk in Nx as (j & _ & Q). auto.
  Qed.
  (** ... and exactly when some combination of the rows other than the trivial one is zero. *)
  Theorem C108_rows : forall N m, rect N N m ->
    (m_det o N m = Ok 0 <-> exists x, nonzero o x /\ length x = N /\ v_dot_m o N N x m = Ok (zeros N)).
  Proof.
    intros N m Rm. destruct (mk_ex o Rm) as (f & ->).
    assert (E : m_det o N (mk N N f) = m_det o N (mk N N (fun i j => f j i))).
    { rewrite !(m_det_mk F). f_equal. symmetry. apply leibniz_transpose. }
    rewrite E, (@C108_singular N _ (rect_mk _ _ _)).
    assert (Q : forall x, length x = N -> v_dot_m o N N x (mk N N f) = m_dot_v o N N (mk N N (fun i j => f j i)) x).
    { intros x L. destruct (vk_ex o x L) as (u & ->). rewrite v_sq, sq_v. f_equal. apply vk_ext. intros. apply bigsum_ext. intros. ring. }
    split; intros (x & Nx & L & H); exists x; split; auto; split; auto. { rewrite Q; auto. } rewrite <- Q; auto.
  Qed.
  (** A singular system: some right-hand side has no solution, and one that has a solution has several. *)
  Theorem C108_singular_system : forall N m, rect N N m -> m_det o N m = Ok 0 ->
    (exists b, length b = N /\ forall x, ~ solves o N m x b) /\
    (forall b x, solves o N m x b -> exists y, solves o N m y b /\ y <> x).
  Proof.
    intros N m Rm Hd. split.
    - destruct (proj1 (C108_rows Rm) Hd) as (y & Ny & Ly & Hy). destruct (mk_ex o Rm) as (f & ->). destruct (vk_ex o y Ly) as (v & ->).
      apply nonzero_vk in Ny as (i & Hi & Z). rewrite v_sq, zeros_vk in Hy. apply Ok_inj in Hy. pose proof (@vk_inj N _ _ Hy) as K. cbn beta in K.
      exists (vk N (fun j => if j =? i then 1 else 0)). split; [apply vk_length|]. intros x (Lx & Hx). destruct (vk_ex o x Lx) as (u & ->).
      rewrite sq_v in Hx. apply Ok_inj in Hx. pose proof (@vk_inj N _ _ Hx) as J. cbn beta in J. apply Z.
      transitivity (sum N (fun j => v j * (if j =? i then 1 else 0))).
      { rewrite (@bigsum_ext _ _ F N _ (fun j => if j =? i then v j else 0)) by (intros j _; destruct (j =? i); ring).
        symmetry. apply (@bigsum_delta _ _ F N i v Hi). }
      rewrite (@bigsum_ext _ _ F N _ (fun j => sum N (fun k => v j * f j k * u k))).
      2: { intros j Hj. rewrite <- J by auto. rewrite <- bigsum_mul_l. apply bigsum_ext. intros. ring. }
      rewrite bigsum_swap. rewrite (@bigsum_ext _ _ F N _ (fun _ => 0)). { apply bigsum_zero. }
      intros k Hk. rewrite bigsum_mul_r. rewrite K by auto. ring.
    - intros b x (Lx & Hx). destruct (proj1 (C108_singular Rm) Hd) as (y & Ny & Ly & Hy).
      destruct (mk_ex o Rm) as (f & ->). destruct (vk_ex o y Ly) as (v & ->). destruct (vk_ex o x Lx) as (u & ->).
      exists (vk N (fun i => u i + v i)). split.
      + split; [apply vk_length|]. rewrite <- Hx. rewrite !sq_v. f_equal. apply vk_ext. intros i Hi.
        rewrite (@bigsum_ext _ _ F N _ (fun k => f i k * u k + f i k * v k)) by (intros; ring). rewrite bigsum_add.
        rewrite sq_v, zeros_vk in Hy. apply Ok_inj in Hy. rewrite (@vk_inj N _ _ Hy) by auto. ring.
      + intros E. apply nonzero_vk in Ny as (i & Hi & Z). apply Z. pose proof (@vk_inj N _ _ E i Hi) as K. cbn beta in K.
        replace (v i) with (u i + v i + - u i) by ring. rewrite K. ring.
  Qed.
  (** The ways to say that a square matrix is regular. *)
  Theorem C108_regular : forall N m, rect N N m ->
    let regular := exists d, m_det o N m = Ok d /\ d <> 0 in
    (regular <-> forall x, solves o N m x (zeros N) -> x = zeros N) /\
    (regular <-> forall x y b, solves o N m x b -> solves o N m y b -> x = y) /\
    (regular <-> forall b, length b = N -> exists x, solves o N m x b) /\
    (regular <-> exists a, rect N N a /\ m_dot o N N N a m =! m_one o N) /\
    (regular <-> exists a, rect N N a /\ m_dot o N N N m a =! m_one o N).
  Proof.
    intros N m Rm regular.
    assert (C : m_det o N m = Ok 0 \/ regular).
    { unfold regular. rewrite (m_det_leibniz F Rm). destruct (D (leibniz F N (mget o m))) as [->|]; [left|right]; eauto. }
    assert (SL : forall x b, solves o N m x b -> length b = N).
    { intros x b (L & H). destruct (mk_ex o Rm) as (f & ->). destruct (vk_ex o x L) as (u & ->). rewrite sq_v in H. apply Ok_inj in H. subst b. apply vk_length. }
    assert (Z0 : solves o N m (zeros N) (zeros N)).
    { split; [apply repeat_length|]. destruct (mk_ex o Rm) as (f & ->). rewrite zeros_vk, sq_v. f_equal. apply vk_ext. intros.
      rewrite (@bigsum_ext _ _ F N _ (fun _ => 0)) by (intros; ring). apply bigsum_zero. }
    assert (I : regular -> forall x y b, solves o N m x b -> solves o N m y b -> x = y).
    { intros (d & Hd & Hz) x y b X Y. destruct (@C108_solve N m d b Rm Hd Hz (SL _ _ X)) as (z & _ & _ & U). rewrite (U x), (U y); auto. }
    assert (K : (forall x, solves o N m x (zeros N) -> x = zeros N) -> regular).
    { intros H. destruct C as [Hd|]; auto. exfalso. destruct (proj1 (C108_singular Rm) Hd) as (x & Nx & S).
      rewrite (H _ S), zeros_vk in Nx. apply nonzero_vk in Nx as (j & _ & Q). auto. }
    repeat split.
    - intros R x X. apply (I R x (zeros N) (zeros N)); auto.
    - exact K.
    - exact I.
    - intros H. apply K. intros x X. apply (H x (zeros N) (zeros N)); auto.
    - intros (d & Hd & Hz) b L. destruct (@C108_solve N m d b Rm Hd Hz L) as (x & _ & X & _). eauto.
    - intros H. destruct C as [Hd|]; auto. exfalso. destruct (C108_singular_system Rm Hd) as ((b & L & Q) & _).
      destruct (H b L) as (x & X). eapply Q; eauto.
    - intros (d & Hd & Hz). destruct (C33_inverse F Rm Hd Hz) as (a & _ & Ra & _ & H). eauto.
    - intros (a & Ra & H). destruct C as [Hd|]; auto. exfalso. exact (proj2 (C33_singular F Rm Ra Hd) H).
    - intros (d & Hd & Hz). destruct (C33_inverse F Rm Hd Hz) as (a & _ & Ra & H & _). eauto.
    - intros (a & Ra & H). destruct C as [Hd|]; auto. exfalso. exact (proj1 (C33_singular F Rm Ra Hd) H).
  Qed.
  (** More unknowns than equations: some vector other than zero is mapped to zero, so no two-sided or left inverse exists. *)
  Theorem C108_wide : forall M N m, rect M N m -> M < N ->
    (exists x, nonzero o x /\ length x = N /\ m_dot_v o M N m x = Ok (zeros M)) /\
    (forall a, rect N M a -> ~ (m_dot o N M N a m =! m_one o N)).
  Proof.
    intros M N m Rm L. destruct (mk_ex o Rm) as (f & ->).
    destruct (wide_kernel F D f L) as (u & Hu & K).
    split.
    - exists (vk N u). split. { apply nonzero_vk. exact Hu. } split; [apply vk_length|].
      rewrite (m_dot_v_mk F) by lia. rewrite zeros_vk. f_equal. apply vk_ext. auto.
    - intros a Ra (w & X & Y). destruct M as [|M].
      { destruct (@m_dot_0 _ o N N a (mk 0 N f) Ra (rect_mk _ _ _)) as (P & _). rewrite P in X by lia. discriminate. }
      destruct (mk_ex o Ra) as (g & ->). rewrite (m_dot_mk F) in X by lia. rewrite m_one_mk, <- X in Y. apply Ok_inj in Y.
      destruct Hu as (j & Hj & Z). apply Z.
      transitivity (sum N (fun k => (if j =? k then 1 else 0) * u k)).
      { rewrite (@bigsum_ext _ _ F N _ (fun k => if k =? j then u k else 0)).
        2: { intros k _. rewrite (Nat.eqb_sym j k). destruct (k =? j); ring. }
        symmetry. apply (@bigsum_delta _ _ F N j u Hj). }
      rewrite (@bigsum_ext _ _ F N _ (fun k => sum (S M) (fun l => g j l * (f l k * u k)))).
      2: { intros k Hk. apply (f_equal (fun m => mget o m j k)) in Y. rewrite !mget_mk in Y by auto. rewrite Y.
           rewrite <- bigsum_mul_r. apply bigsum_ext. intros. ring. }
      rewrite bigsum_swap. rewrite (@bigsum_ext _ _ F (S M) _ (fun _ => 0)). { apply bigsum_zero. }
      intros l Hl. rewrite bigsum_mul_l. rewrite K by auto. ring.
  Qed.
  (** More equations than unknowns: some right-hand side has no solution. *)
  Theorem C108_tall : forall M N m, rect M N m -> 0 < N -> N < M ->
    (exists x, nonzero o x /\ length x = M /\ v_dot_m o M N x m = Ok (zeros N)) /\
    (exists b, length b = M /\ forall x, length x = N -> m_dot_v o M N m x <> Ok b) /\
    (forall a, rect N M a -> ~ (m_dot o M N M m a =! m_one o M)).
  Proof.
    intros M N m Rm P L. destruct (mk_ex o Rm) as (f & ->).
    destruct (wide_kernel F D (fun i j => f j i) L) as (v & (i & Hi & Z) & K).
    assert (Q : forall u, (forall r, r < M -> sum N (fun k => f r k * u k) = if r =? i then 1 else 0) -> False).
    { intros u J. apply Z. transitivity (sum M (fun j => v j * (if j =? i then 1 else 0))).
      { rewrite (@bigsum_ext _ _ F M _ (fun j => if j =? i then v j else 0)) by (intros j _; destruct (j =? i); ring).
        symmetry. apply (@bigsum_delta _ _ F M i v Hi). }
      rewrite (@bigsum_ext _ _ F M _ (fun j => sum N (fun k => f j k * v j * u k))).
      2: { intros j Hj. rewrite <- J by auto. rewrite <- bigsum_mul_l. apply bigsum_ext. intros. ring. }
      rewrite bigsum_swap. rewrite (@bigsum_ext _ _ F N _ (fun _ => 0)). { apply bigsum_zero. }
      intros k Hk. rewrite bigsum_mul_r. rewrite K by auto. ring. }
    split; [|split].
    - exists (vk M v). split. { apply nonzero_vk. eauto. } split; [apply vk_length|].
      rewrite (v_dot_m_mk F) by lia. rewrite zeros_vk. f_equal. apply vk_ext. intros j Hj. rewrite <- (K j Hj). apply bigsum_ext. intros. ring.
    - exists (vk M (fun j => if j =? i then 1 else 0)). split; [apply vk_length|]. intros x Lx E. destruct (vk_ex o x Lx) as (u & ->).
      rewrite (m_dot_v_mk F) in E by auto. apply Ok_inj in E. apply (Q u). apply (@vk_inj M _ _ E).
    - intros a Ra (w & X & Y). destruct (mk_ex o Ra) as (g & ->). rewrite (m_dot_mk F) in X by auto. rewrite m_one_mk, <- X in Y. apply Ok_inj in Y.
      apply (Q (fun k => g k i)). intros r Hr. apply (f_equal (fun m => mget o m r i)) in Y. rewrite !mget_mk in Y by auto. symmetry. exact Y.
  Qed.
  (** A linear transformation is one-to-one exactly when it is onto, exactly when the determinant of its matrix is not zero;
      inverting a regular one and applying the result undoes it. *)
  Theorem C108_linear : forall N m, rect N N m ->
    let t := linear_transform o N in
    let regular := exists d, m_det o N m = Ok d /\ d <> 0 in
    (regular <-> forall p q, length p = N -> length q = N -> t_apply t m p =! t_apply t m q -> p = q) /\
    (regular <-> forall q, length q = N -> exists p, length p = N /\ t_apply t m p = Ok q) /\
    (regular -> forall q, length q = N -> exists p, (let! i := t_inv t m in t_apply t i q) = Ok p /\ t_apply t m p = Ok q).
  Proof.
    intros N m Rm t regular. destruct (C108_regular Rm) as (_ & I & S & _).
    split; [|split].
    - fold regular in I. rewrite I. split.
      + intros H p q Lp Lq (w & X & Y). apply (H p q w); split; auto.
      + intros H x y b (Lx & X) (Ly & Y). apply H; auto. exists b. auto.
    - fold regular in S. rewrite S. split; intros H b L; destruct (H b L) as (x & P & Q); exists x; split; auto.
    - intros (d & Hd & Hz) q L. destruct (@C108_solve N m d q Rm Hd Hz L) as (p & P & (_ & Q) & _). exists p. split; auto.
  Qed.
  (** The same for an affine transformation, whatever its shift. *)
  Theorem C108_affine : forall N m s, rect N N m -> length s = N ->
    let t := affine_transform o N in
    let regular := exists d, m_det o N m = Ok d /\ d <> 0 in
    (regular <-> forall p q, length p = N -> length q = N -> t_apply t (s, m) p =! t_apply t (s, m) q -> p = q) /\
    (regular <-> forall q, length q = N -> exists p, length p = N /\ t_apply t (s, m) p = Ok q) /\
    (regular <-> forall q, length q = N -> exists p, length p = N /\ t_apply t (s, m) p = Ok q /\ forall p1, length p1 = N -> t_apply t (s, m) p1 = Ok q -> p1 = p).
  Proof.
    intros N m s Rm Ls t regular. destruct (C108_linear Rm) as (I & S & _). fold regular in I, S.
    destruct (vk_ex o s Ls) as (w & ->).
    assert (A : forall p, length p = N -> exists u, t_apply (linear_transform o N) m p = Ok (vk N u) /\ t_apply t (vk N w, m) p = Ok (vk N (fun i => u i + w i))).
    { intros p Lp. destruct (vk_ex o p Lp) as (u & ->). destruct (mk_ex o Rm) as (f & ->). eexists. unfold t. cbn. rewrite sq_v. split; [reflexivity|]. cbn [bind]. apply (v_add_vk F). }
    assert (H1 : forall p q, length p = N -> length q = N -> (t_apply t (vk N w, m) p =! t_apply t (vk N w, m) q <-> t_apply (linear_transform o N) m p =! t_apply (linear_transform o N) m q)).
    { intros p q Lp Lq. destruct (A p Lp) as (u & -> & ->), (A q Lq) as (v & -> & ->). split; intros (z & X & Y); rewrite <- X in Y; apply Ok_inj in Y; eexists; (split; [reflexivity|]); f_equal; apply vk_ext; intros i Hi; pose proof (@vk_inj N _ _ Y i Hi) as E; cbn beta in E.
      - replace (v i) with (v i + w i + - w i) by ring. rewrite E. ring.
      - rewrite E. ring. }
    assert (I2 : regular <-> forall p q, length p = N -> length q = N -> t_apply t (vk N w, m) p =! t_apply t (vk N w, m) q -> p = q).
    { rewrite I. split; intros H p q Lp Lq E; apply H; auto; apply (H1 p q Lp Lq); auto. }
    assert (S2 : regular <-> forall q, length q = N -> exists p, length p = N /\ t_apply t (vk N w, m) p = Ok q).
    { rewrite S. split; intros H q Lq; destruct (vk_ex o q Lq) as (z & ->).
      - destruct (H (vk N (fun i => z i + - w i)) (vk_length _ _)) as (p & Lp & E). exists p. split; auto. destruct (A p Lp) as (u & E1 & ->).
        rewrite E in E1. apply Ok_inj in E1. f_equal. apply vk_ext. intros i Hi. pose proof (@vk_inj N _ _ E1 i Hi) as K. cbn beta in K. rewrite <- K. ring.
      - destruct (H (vk N (fun i => z i + w i)) (vk_length _ _)) as (p & Lp & E). exists p. split; auto. destruct (A p Lp) as (u & -> & E1).
        rewrite E in E1. apply Ok_inj in E1. f_equal. apply vk_ext. intros i Hi. pose proof (@vk_inj N _ _ E1 i Hi) as K. cbn beta in K.
        replace (z i) with (z i + w i + - w i) by ring. rewrite K. ring. }
    split; [exact I2|]. split; [exact S2|]. split.
    - intros R q Lq. destruct (proj1 S2 R q Lq) as (p & Lp & E). exists p. split; auto. split; auto. intros p1 L1 E1.
      apply (proj1 I2 R); auto. exists q. auto.
    - intros H. apply S2. intros q Lq. destruct (H q Lq) as (p & Lp & E & _). eauto.
  Qed.
End Systems.

(* ------------------------------------------------------------------------- *)
(** * Matrices with orthonormal rows                                           *)
Section Orthogonal.
  Context {T : Type} {o : Ops T} (F : Field o).
  Add Field Forth : (Field_theory F).
  (** A matrix whose transpose is a right or left inverse: its inverse is its transpose, its determinant squares to one,
      and it preserves the dot product of all pairs of vectors. *)
  Theorem C108_orthogonal : forall N m t, rect N N m -> m_transpose N N m = Ok t ->
    (m_dot o N N N m t =! m_one o N \/ m_dot o N N N t m =! m_one o N) ->
    m_inv o N m = Ok t /\ (exists d, m_det o N m = Ok d /\ o_mul o d d = Ok (o_one o)) /\
    m_dot o N N N m t =! m_one o N /\ m_dot o N N N t m =! m_one o N.
  Proof.
    intros N m t Rm Ht H. destruct (mk_ex o Rm) as (f & ->). rewrite m_transpose_mk in Ht. apply Ok_inj in Ht. subst t.
    assert (Rt := rect_mk N N (fun i j => f j i)).
    assert (E : r_mul F (leibniz F N f) (leibniz F N f) = o_one o).
    { assert (K : r_mul F (leibniz F N f) (leibniz F N (fun i j => f j i)) = o_one o).
      { rewrite <- leibniz_mul. rewrite <- (leibniz_one F N).
        destruct H as [H|H].
        - apply leibniz_ext. intros i j Hi Hj. exact (@one_entries _ _ F N _ _ H i j Hi Hj).
        - rewrite leibniz_mul. transitivity (r_mul F (leibniz F N (fun i j => f j i)) (leibniz F N f)); [ring|]. rewrite <- leibniz_mul.
          apply leibniz_ext. intros i j Hi Hj. exact (@one_entries _ _ F N _ _ H i j Hi Hj). }
      rewrite (leibniz_transpose F N f) in K. exact K. }
    assert (Z : leibniz F N f <> o_zero o).
    { intros Z. rewrite Z in E. apply (f_one_neq_zero F). rewrite <- E. ring. }
    assert (B : m_dot o N N N (mk N N f) (mk N N (fun i j => f j i)) =! m_one o N).
    { destruct H as [H|H]; auto. destruct (C33_inverse F Rm (m_det_mk F N f) Z) as (a & Ha & Ra & A1 & A2).
      assert (Q : a = mk N N (fun i j => f j i)).
      { destruct (mk_ex o Ra) as (g & ->). apply mk_ext. intros i j Hi Hj.
        pose proof (@one_entries _ _ F N _ _ H) as K1. cbn beta in K1. pose proof (@one_entries _ _ F N _ _ A1) as K2.
        transitivity (bigsum F N (fun k => r_mul F (if i =? k then o_one o else o_zero o) (g k j))).
        { rewrite (@bigsum_ext _ _ F N _ (fun k => if k =? i then g k j else o_zero o)).
          2: { intros k _. rewrite (Nat.eqb_sym i k). destruct (k =? i); ring. }
          symmetry. apply (@bigsum_delta _ _ F N i (fun k => g k j) Hi). }
        rewrite (@bigsum_ext _ _ F N _ (fun k => bigsum F N (fun l => r_mul F (f l i) (r_mul F (f l k) (g k j))))).
        2: { intros k Hk. rewrite <- K1 by auto. rewrite <- bigsum_mul_r. apply bigsum_ext. intros. ring. }
        rewrite bigsum_swap. rewrite (@bigsum_ext _ _ F N _ (fun l => if l =? j then f l i else o_zero o)).
        { apply (@bigsum_delta _ _ F N j (fun l => f l i) Hj). }
        intros l Hl. rewrite bigsum_mul_l, K2 by auto. destruct (l =? j); ring. }
      rewrite <- Q. exact A1. }
    destruct (C33_unique F Rm Rt B) as (_ & I). split; [exact I|]. split.
    { eexists. split; [apply (m_det_mk F)|]. rewrite (r_mul_ok F). f_equal. exact E. }
    split; [exact B|]. destruct (C33_inverse F Rm (m_det_mk F N f) Z) as (a & Ha & Ra & A1 & A2). rewrite I in Ha. apply Ok_inj in Ha. subst a. exact A2.
  Qed.
  (** A square matrix preserves the dot product of all pairs of vectors exactly when its transpose is its inverse. *)
  Theorem C108_isometry : forall N m t, 0 < N -> rect N N m -> m_transpose N N m = Ok t ->
    ((forall u v, length u = N -> length v = N ->
       (let! a := m_dot_v o N N m u in let! b := m_dot_v o N N m v in v_dot o N a b) =! v_dot o N u v) <->
     m_dot o N N N t m =! m_one o N).
  Proof.
    intros N m t P Rm Ht. destruct (mk_ex o Rm) as (f & ->). rewrite m_transpose_mk in Ht. apply Ok_inj in Ht. subst t. split.
    - intros H. rewrite (sq_sq F), m_one_mk. eexists. split; [|reflexivity]. f_equal. apply mk_ext. intros i j Hi Hj.
      specialize (H (vk N (fun k => if k =? i then o_one o else o_zero o)) (vk N (fun k => if k =? j then o_one o else o_zero o)) (vk_length _ _) (vk_length _ _)).
      rewrite !(sq_v F) in H. cbn [bind] in H. rewrite !(v_dot_vk F) in H by auto. destruct H as (w & X & Y). rewrite <- X in Y. apply Ok_inj in Y.
      rewrite (@bigsum_ext _ _ F N (fun k => r_mul F (if k =? i then o_one o else o_zero o) (if k =? j then o_one o else o_zero o))
        (fun k => if k =? i then (if i =? j then o_one o else o_zero o) else o_zero o)) in Y.
      2: { intros k _. destruct (Nat.eqb_spec k i) as [->|]; [destruct (i =? j); ring|ring]. }
      rewrite (@bigsum_delta _ _ F N i (fun _ => if i =? j then o_one o else o_zero o) Hi) in Y. rewrite Y.
      apply bigsum_ext. intros k _. f_equal.
      + rewrite (@bigsum_ext _ _ F N _ (fun l => if l =? i then f k l else o_zero o)) by (intros l _; destruct (l =? i); ring).
        symmetry. apply (@bigsum_delta _ _ F N i (fun l => f k l) Hi).
      + rewrite (@bigsum_ext _ _ F N _ (fun l => if l =? j then f k l else o_zero o)) by (intros l _; destruct (l =? j); ring).
        symmetry. apply (@bigsum_delta _ _ F N j (fun l => f k l) Hj).
    - intros H u v Lu Lv. destruct (vk_ex o u Lu) as (a & ->). destruct (vk_ex o v Lv) as (b & ->). rewrite !(sq_v F). cbn [bind].
      rewrite !(v_dot_vk F) by auto. eexists. split; [reflexivity|]. f_equal. pose proof (@one_entries _ _ F N _ _ H) as K. cbn beta in K.
      transitivity (bigsum F N (fun k => bigsum F N (fun i => bigsum F N (fun j => r_mul F (r_mul F (a i) (b j)) (r_mul F (f k i) (f k j)))))).
      2: { apply bigsum_ext. intros k _. rewrite <- bigsum_mul_r. apply bigsum_ext. intros i _. rewrite <- bigsum_mul_l. apply bigsum_ext. intros. ring. }
      rewrite bigsum_swap. apply bigsum_ext. intros i Hi. rewrite bigsum_swap.
      rewrite (@bigsum_ext _ _ F N _ (fun j => if j =? i then r_mul F (a i) (b j) else o_zero o)).
      { symmetry. apply (@bigsum_delta _ _ F N i (fun j => r_mul F (a i) (b j)) Hi). }
      intros j Hj. rewrite bigsum_mul_l. rewrite K by auto. rewrite Nat.eqb_sym. destruct (j =? i); ring.
  Qed.
End Orthogonal.

(* ------------------------------------------------------------------------- *)
(** * Concrete scalars                                                         *)
(** Rationals: every hypothesis of the section is met. *)
Lemma qc_decided : forall x : Qc, x = o_zero qc_ops \/ x <> o_zero qc_ops.
Proof. intros x. destruct (Qc_eq_dec x (o_zero qc_ops)); auto. Qed.
Theorem C108_rational : forall N m, rect N N m ->
  (m_det qc_ops N m = Ok (o_zero qc_ops) <-> exists x, nonzero qc_ops x /\ solves qc_ops N m x (repeat (o_zero qc_ops) N)).
Proof. intros. apply (C108_singular qc_field qc_decided). auto. Qed.
Theorem C108_real : forall N m, rect N N m ->
  (m_det r_ops N m = Ok 0%R <-> exists x, nonzero r_ops x /\ solves r_ops N m x (repeat 0%R N)).
Proof.
  intros. apply (C108_singular r_field); auto. intros x. destruct (Req_dec x 0); auto.
Qed.
(** 2x + y = 5, x + 3y = 10: det is 5, the solution is (1, 3), by inv and by Cramer. *)
Example C108_ex :
  let m := [[2; 1]; [1; 3]]%Z in let q := map (map (fun z => Q2Qc (inject_Z z))) in let v := map (fun z => Q2Qc (inject_Z z)) in
  m_det z_ops 2 m = Ok 5%Z /\ m_dot_v z_ops 2 2 m [1; 3]%Z = Ok [5; 10]%Z /\
  m_det z_ops 2 [[5; 1]; [10; 3]]%Z = Ok (1 * 5)%Z /\ m_det z_ops 2 [[2; 5]; [1; 10]]%Z = Ok (3 * 5)%Z /\
  (let! i := m_inv qc_ops 2 (q m) in m_dot_v qc_ops 2 2 i (v [5; 10]%Z)) = Ok (v [1; 3]%Z) /\
  solves qc_ops 2 (q m) (v [1; 3]%Z) (v [5; 10]%Z).
Proof. vm_compute. repeat split; f_equal; repeat (f_equal; try (apply Qc_is_canon; reflexivity)). Qed.
(** A singular matrix with its kernel, on both sides. *)
Example C108_ex_singular :
  let m := [[1; 2; 3]; [4; 5; 6]; [7; 8; 9]]%Z in
  m_det z_ops 3 m = Ok 0%Z /\ m_dot_v z_ops 3 3 m [1; -2; 1]%Z = Ok [0; 0; 0]%Z /\ v_dot_m z_ops 3 3 [1; -2; 1]%Z m = Ok [0; 0; 0]%Z /\
  nonzero z_ops [1; -2; 1]%Z.
Proof. repeat split. exists 0, 1%Z. split; [reflexivity|]. cbn. lia. Qed.
(** A rotation by a rational angle is orthogonal, with det one; a reflection has det minus one. *)
Example C108_ex_orthogonal :
  let c := Q2Qc (3 # 5) in let s := Q2Qc (4 # 5) in let r := [[c; - s]; [s; c]]%Qc in let f := [[c; s]; [s; - c]]%Qc in
  (let! t := m_transpose 2 2 r in m_dot qc_ops 2 2 2 r t) = m_one qc_ops 2 /\ m_det qc_ops 2 r = Ok (1%Qc) /\
  (let! t := m_transpose 2 2 f in m_dot qc_ops 2 2 2 t f) = m_one qc_ops 2 /\ m_det qc_ops 2 f = Ok (- (1))%Qc.
Proof.
  repeat split; vm_compute;
    repeat match goal with
      | |- Ok _ = Ok _ => apply f_equal | |- _ :: _ = _ :: _ => apply f_equal2
      | |- {| this := _ |} = _ => apply Qc_is_canon; reflexivity | |- [] = [] => reflexivity end.
Qed.
Example C31_ex_triangular : m_det z_ops 3 [[2; 5; 7]; [0; 3; 8]; [0; 0; 4]]%Z = Ok 24%Z.
Proof. reflexivity. Qed.

Print Assumptions C108_cramer.
Print Assumptions C31_shear.
Print Assumptions C31_triangular.
Print Assumptions C108_solve.
Print Assumptions C108_cramer_field.
Print Assumptions C108_singular.
Print Assumptions C108_rows.
Print Assumptions C108_singular_system.
Print Assumptions C108_regular.
Print Assumptions C108_wide.
Print Assumptions C108_tall.
Print Assumptions C108_linear.
Print Assumptions C108_affine.
Print Assumptions C108_orthogonal.
Print Assumptions C108_isometry.
Print Assumptions C108_rational.
Print Assumptions C108_real.
