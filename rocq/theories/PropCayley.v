(** C123: characteristic polynomials: Cayley-Hamilton, degree, eigenvalues, A B against B A. *)
From Coq Require Import Ring Lia FunctionalExtensionality ZArith QArith Qcanon.
From Verif Require Import Spec SpecRing SpecDet AlgFacts MFacts DetFacts SqProofs MatProofs SquareModel PropSquare RelFacts PropLinear PropRank Instances SpecPoly.
Import ListNotations.
Set Implicit Arguments.
Local Open Scope nat_scope.
Local Open Scope list_scope.

Lemma map_vk2 : forall A B (h : A -> B) N f, map h (vk N f) = vk N (fun i => h (f i)).
Proof. intros. unfold vk. apply map_map. Qed.
Lemma map_mk2 : forall A B (h : A -> B) M N f, map (map h) (mk M N f) = mk M N (fun i j => h (f i j)).
Proof. intros. unfold mk. rewrite map_vk2. apply vk_ext. intros. apply map_vk2. Qed.

Section Series.
  Context {T : Type} {o : Ops T} (R : CRing o).
  Add Ring Rser : (CRing_theory R).
  Local Notation "0" := (o_zero o).
  Local Notation "1" := (o_one o).
  Local Infix "+" := (r_add R).
  Local Infix "*" := (r_mul R).
  Local Infix "-" := (r_sub R).
  Local Notation "- x" := (r_opp R x).
  Local Notation sum := (bigsum R).
  Local Notation po := (poly_ops R).
  Local Notation mul := (cauchy R).
  Local Notation constant := (@SpecPoly.constant T o).
  Local Notation unknown := (@SpecPoly.unknown T o).
  Definition tl (a : nat -> T) : nat -> T := fun k => a (S k).

  Lemma mul_0 : forall a b, mul a b 0%nat = a 0%nat * b 0%nat.
  Proof. intros. unfold cauchy. cbn. ring. Qed.
  Lemma mul_S : forall a b k, mul a b (S k) = a 0%nat * b (S k) + mul (tl a) b k.
  Proof. intros. unfold cauchy. rewrite bigsum_shift. f_equal. Qed.
  Lemma mul_ext : forall k a a' b b', (forall i, a i = a' i) -> (forall i, b i = b' i) -> mul a b k = mul a' b' k.
  Proof. intros. unfold cauchy. apply bigsum_ext. intros. rewrite H, H0. auto. Qed.
  Lemma mul_S_r : forall k a b, mul a b (S k) = mul a (tl b) k + a (S k) * b 0%nat.
  Proof.
    induction k as [|k IH]; intros a b. { rewrite mul_S, !mul_0. unfold tl. ring. }
    rewrite mul_S, IH, mul_S. unfold tl. ring.
  Qed.
  Lemma mul_comm : forall k a b, mul a b k = mul b a k.
  Proof. induction k as [|k IH]; intros a b. { rewrite !mul_0. ring. } rewrite mul_S, IH, (mul_S_r k b a). ring. Qed.
  Lemma mul_distr : forall k a a' b, mul (fun i => a i + a' i) b k = mul a b k + mul a' b k.
  Proof. intros. unfold cauchy. rewrite <- bigsum_add. apply bigsum_ext. intros. ring. Qed.
  Lemma mul_scal : forall k c a b, mul (fun i => c * a i) b k = c * mul a b k.
  Proof. intros. unfold cauchy. rewrite <- bigsum_mul_l. apply bigsum_ext. intros. ring. Qed.
  Lemma mul_assoc : forall k a b c, mul (mul a b) c k = mul a (mul b c) k.
  Proof.
    induction k as [|k IH]; intros a b c. { rewrite !mul_0. ring. }
    rewrite mul_S, mul_0, (mul_S a), (mul_S b). rewrite (@mul_ext k (tl (mul a b)) (fun i => a 0%nat * tl b i + mul (tl a) b i) c c) by (intros; auto; apply mul_S).
    rewrite mul_distr, mul_scal, IH. ring.
  Qed.
  Lemma mul_const : forall k c a, mul (constant c) a k = c * a k.
  Proof.
    intros [|k] c a. { rewrite mul_0. reflexivity. }
    rewrite mul_S. cbn [constant]. unfold cauchy at 1. rewrite (@bigsum_ext _ _ R _ _ (fun _ => 0)). { rewrite bigsum_zero. ring. }
    intros i _. unfold tl. cbn. ring.
  Qed.
  Definition poly_ring : CRing po.
  Proof.
    refine (@CRing_of_theory (nat -> T) po (fun a b k => a k + b k) mul (fun a b k => a k - b k) (fun a k => - a k) _ _ _ _ _); try reflexivity.
    constructor; intros; apply functional_extensionality; intros k; cbn -[cauchy].
    - destruct k; cbn; ring.
    - ring.
    - ring.
    - transitivity (1 * x k); [apply mul_const|ring].
    - apply mul_comm.
    - symmetry. apply mul_assoc.
    - apply mul_distr.
    - ring.
    - destruct k; cbn; ring.
  Defined.
  Local Notation SR := poly_ring.
  Lemma radd : forall a b k, r_add SR a b k = a k + b k. Proof. reflexivity. Qed.
  Lemma rsub : forall a b k, r_sub SR a b k = a k - b k. Proof. reflexivity. Qed.
  Lemma ropp : forall a k, r_opp SR a k = - a k. Proof. reflexivity. Qed.
  Lemma rmul : forall a b k, r_mul SR a b k = mul a b k. Proof. reflexivity. Qed.
  Lemma rzero : forall k, o_zero po k = 0. Proof. intros [|k]; reflexivity. Qed.
  Lemma bigsum_at : forall n f k, bigsum SR n f k = sum n (fun i => f i k).
  Proof. induction n as [|n IH]; intros f k. { apply rzero. } cbn [bigsum]. rewrite radd, IH. reflexivity. Qed.
  Lemma signed_at : forall m x k, signed SR m x k = signed R m (x k).
  Proof. intros. unfold signed. destruct (Nat.even m); reflexivity. Qed.

  (** finitely many coefficients *)
  Definition below (K : nat) (a : nat -> T) : Prop := forall k, K <= k -> a k = 0.
  Definition poly (a : nat -> T) : Prop := exists K, below K a.
  Lemma below_le : forall K K' a, K <= K' -> below K a -> below K' a. Proof. intros K K' a L H k Hk. apply H. lia. Qed.
  Lemma below_mul : forall K1 K2 a b, below K1 a -> below K2 b -> below (K1 + K2)%nat (mul a b).
  Proof.
    intros K1 K2 a b A B k Hk. unfold cauchy. rewrite (@bigsum_ext _ _ R _ _ (fun _ => 0)); [apply bigsum_zero|]. intros i Hi.
    destruct (Nat.lt_ge_cases i K1) as [L|L]; [rewrite (B (k - i)%nat) by lia|rewrite (A i) by lia]; ring.
  Qed.
  Lemma poly_const : forall c, poly (constant c). Proof. intros c. exists 1%nat. intros [|k] H; [lia|reflexivity]. Qed.
  Lemma poly_add : forall a b, poly a -> poly b -> poly (r_add SR a b).
  Proof. intros a b (K & A) (L & B). exists (Nat.max K L). intros k Hk. rewrite radd, A, B by lia. ring. Qed.
  Lemma poly_opp : forall a, poly a -> poly (r_opp SR a).
  Proof. intros a (K & A). exists K. intros k Hk. rewrite ropp, A by lia. ring. Qed.
  Lemma poly_mul : forall a b, poly a -> poly b -> poly (r_mul SR a b).
  Proof. intros a b (K & A) (L & B). exists (K + L)%nat. apply below_mul; auto. Qed.
  Lemma poly_signed : forall m a, poly a -> poly (signed SR m a).
  Proof. intros m a H. unfold signed. destruct (Nat.even m); auto. apply poly_opp. auto. Qed.
  Lemma poly_leibniz : forall n A, (forall i j, poly (A i j)) -> poly (leibniz SR n A).
  Proof.
    intros n A H. unfold leibniz. induction (perms n) as [|s l IH]; cbn [lsum fold_right]. { apply poly_const. }
    apply poly_add; auto. apply poly_signed. clear IH l. induction (seq 0 n) as [|i l IH]; cbn [lprod fold_right]. { apply poly_const. } apply poly_mul; auto.
  Qed.

  (** determinants of matrices of polynomials of degree at most 1 *)
  Lemma mul_linear : forall a b k, below 2 a -> mul a b (S k) = a 0%nat * b (S k) + a 1%nat * b k.
  Proof.
    intros a b k H. rewrite mul_S. f_equal. rewrite (@mul_ext k (tl a) (constant (a 1%nat)) b b); [apply mul_const| |auto]. intros [|i]; [reflexivity|]. apply H. lia.
  Qed.
  Lemma laplace0 : forall T' (o' : Ops T') (R' : CRing o') n A, leibniz R' (S n) A = bigsum R' (S n) (fun k => r_mul R' (A 0%nat k) (signed R' k (leibniz R' n (minor 0 k A)))).
  Proof. intros. pose proof (@laplace _ _ R' n A 0 0 ltac:(lia) ltac:(lia)) as L. cbn [Nat.eqb] in L. symmetry. exact L. Qed.
  Lemma leibniz_below : forall n A, (forall i j, i < n -> j < n -> below 2 (A i j)) -> below (S n) (leibniz SR n A).
  Proof.
    induction n as [|n IH]; intros A H k Hk.
    - destruct k; [lia|]. unfold leibniz. cbn. ring.
    - rewrite laplace0, bigsum_at. rewrite (@bigsum_ext _ _ R _ _ (fun _ => 0)); [apply bigsum_zero|]. intros j Hj. rewrite rmul. destruct k as [|k]; [lia|]. rewrite mul_linear by (apply H; lia). rewrite !signed_at.
      assert (B : below (S n) (leibniz SR n (minor 0 j A))). { apply IH. intros a b Ha Hb. unfold minor, skip. apply H; [destruct (a <? 0)|destruct (b <? j)]; lia. }
      rewrite (B (S k)), (B k) by lia. rewrite signed_zero. ring.
  Qed.
  (* exchanging the two coefficients of every entry reverses the determinant *)
  Lemma leibniz_reverse : forall n A B, (forall i j, i < n -> j < n -> below 2 (A i j) /\ below 2 (B i j) /\ A i j 0%nat = B i j 1%nat /\ A i j 1%nat = B i j 0%nat) ->
    forall k, k <= n -> leibniz SR n A k = leibniz SR n B (n - k)%nat.
  Proof.
    induction n as [|n IH]; intros A B H k Hk. { replace k with 0%nat by lia. reflexivity. }
    rewrite !laplace0, !bigsum_at. apply bigsum_ext. intros j Hj. rewrite !rmul. destruct (H 0%nat j ltac:(lia) Hj) as (A2 & B2 & E0 & E1).
    assert (Hm : forall a b, a < n -> b < n -> below 2 (minor 0 j A a b) /\ below 2 (minor 0 j B a b) /\ minor 0 j A a b 0%nat = minor 0 j B a b 1%nat /\ minor 0 j A a b 1%nat = minor 0 j B a b 0%nat).
    { intros a b Ha Hb. unfold minor. apply H; unfold skip; [destruct (a <? 0)|destruct (b <? j)]; lia. }
    specialize (IH _ _ Hm). assert (Ba : below (S n) (leibniz SR n (minor 0 j A))) by (apply leibniz_below; intros; apply Hm; auto). assert (Bb : below (S n) (leibniz SR n (minor 0 j B))) by (apply leibniz_below; intros; apply Hm; auto).
    set (LA := leibniz SR n (minor 0 j A)) in *. set (LB := leibniz SR n (minor 0 j B)) in *. clearbody LA LB.
    destruct k as [|k]; [rewrite mul_0, Nat.sub_0_r|rewrite mul_linear by auto].
    - rewrite mul_linear by auto. rewrite !signed_at. rewrite (IH 0%nat) by lia. rewrite (Bb (S n)) by lia. rewrite Nat.sub_0_r, E0, signed_zero. ring.
    - rewrite !signed_at. rewrite (IH k) by lia. destruct (Nat.eq_dec k n) as [->|N].
      + rewrite (Ba (S n)) by lia. rewrite !Nat.sub_diag, mul_0, signed_at, E1, signed_zero. ring.
      + rewrite (IH (S k)) by lia. replace (S n - S k)%nat with (S (n - S k)) by lia. rewrite mul_linear by auto. rewrite !signed_at. replace (S (n - S k)) with (n - k)%nat by lia. rewrite E0, E1. ring.
  Qed.
  (* coefficient 0 *)
  Lemma leibniz_at0 : forall n A, leibniz SR n A 0%nat = leibniz R n (fun i j => A i j 0%nat).
  Proof.
    induction n as [|n IH]; intros A. { reflexivity. }
    rewrite !laplace0, bigsum_at. apply bigsum_ext. intros j _. rewrite rmul, mul_0, signed_at, IH. reflexivity.
  Qed.
  (* the entries of x 1 - A *)
  Local Notation dl i j := (if i =? j then 1 else 0).
  Definition cm (f : nat -> nat -> T) (i j : nat) : nat -> T := r_sub SR (r_mul SR (if i =? j then o_one po else o_zero po) unknown) (constant (f i j)).
  Lemma cm_at : forall f i j k, cm f i j k = match k with O => - f i j | S O => dl i j | _ => 0 end.
  Proof.
    intros f i j k. unfold cm. rewrite rsub, rmul. destruct (i =? j); cbn [o_one o_zero poly_ops]; rewrite mul_const; unfold unknown; destruct k as [|[|k]]; cbn; ring.
  Qed.
  Lemma cm_below : forall f i j, below 2 (cm f i j).
  Proof. intros f i j k Hk. rewrite cm_at. destruct k as [|[|k]]; auto; lia. Qed.
  Lemma cm_mul : forall f i j g k, mul (cm f i j) g k = match k with O => - (f i j * g O) | S m => dl i j * g m - f i j * g (S m) end.
  Proof.
    intros f i j g [|k]. { rewrite mul_0, cm_at. ring. } rewrite mul_linear by apply cm_below. rewrite !cm_at. ring.
  Qed.
  Lemma char_poly_mk : forall N f, char_poly R N (mk N N f) = Ok (leibniz SR N (cm f)).
  Proof.
    intros. unfold char_poly. rewrite m_one_mk. cbn [bind]. rewrite (m_smul_mk SR). cbn [bind]. rewrite map_mk2, (m_sub_mk SR). cbn [bind]. rewrite (m_det_mk SR). reflexivity.
  Qed.

  (** powers of the matrix *)
  Fixpoint pw (N : nat) (f : nat -> nat -> T) (k : nat) : nat -> nat -> T :=
    match k with O => fun i j => dl i j | S m => fun i j => sum N (fun l => f i l * pw N f m l j) end.
  Lemma m_power_mk : forall N f k, m_power o N (mk N N f) k = Ok (mk N N (pw N f k)).
  Proof.
    intros N f k. induction k as [|k IH]; cbn [m_power]. { apply m_one_mk. } rewrite IH. cbn [bind]. destruct N as [|n]; [reflexivity|]. apply (m_dot_mk R). lia.
  Qed.
  Lemma m_poly_mk : forall N f p K, m_poly o N p (mk N N f) K = Ok (mk N N (fun i j => sum K (fun k => pw N f k i j * p k))).
  Proof.
    intros N f p K. induction K as [|K IH]; cbn [m_poly]. { apply m_zero_mk. } rewrite IH, m_power_mk. cbn [bind]. rewrite (m_smul_mk R). cbn [bind]. rewrite (m_add_mk R). reflexivity.
  Qed.
  (* the cofactors of x 1 - A, as polynomials *)
  Lemma cofactors : forall n f, exists H : nat -> nat -> nat -> T, (forall i j, poly (H i j)) /\
    forall j c k, j < S n -> c < S n -> (if j =? c then leibniz SR (S n) (cm f) k else 0) =
      match k with O => - sum (S n) (fun l => H j l O * f l c) | S m => H j c m - sum (S n) (fun l => H j l (S m) * f l c) end.
  Proof.
    intros n f. set (H := fun j l => signed SR (l + j) (leibniz SR n (minor l j (cm f)))). exists H. split.
    - intros. apply poly_signed, poly_leibniz. intros. exists 2%nat. apply cm_below.
    - intros j c k Hj Hc.
      pose proof (@laplace_col _ _ SR n (cm f) c j Hc Hj) as L. apply (f_equal (fun s => s k)) in L. rewrite bigsum_at in L.
      rewrite Nat.eqb_sym in L. transitivity (sum (S n) (fun l => mul (cm f l c) (H j l) k)).
      { symmetry. transitivity ((if j =? c then leibniz SR (S n) (cm f) else o_zero po) k); [exact L|]. destruct (j =? c); auto. apply rzero. }
      clear L. destruct k as [|m].
      + rewrite <- bigsum_opp. apply bigsum_ext. intros l Hl. rewrite cm_mul. cbv iota. ring.
      + rewrite (@bigsum_ext _ _ R _ _ (fun l => dl l c * H j l m + - (H j l (S m) * f l c))) by (intros; rewrite cm_mul; cbv iota; ring). rewrite bigsum_add, bigsum_opp.
        replace (sum (S n) (fun l => dl l c * H j l m)) with (H j c m); [ring|]. rewrite <- (@bigsum_delta _ _ R (S n) c (fun l => H j l m) Hc). apply bigsum_ext. intros l _. destruct (l =? c); ring.
  Qed.
  Lemma cayley_sum : forall n f, exists H : nat -> nat -> nat -> T, (forall i j, poly (H i j)) /\ forall K j c, j < S n -> c < S n ->
    sum (S K) (fun k => pw (S n) f k j c * leibniz SR (S n) (cm f) k) = - sum (S n) (fun l => H j l K * pw (S n) f (S K) l c).
  Proof.
    intros n f. destruct (cofactors n f) as (H & P & E). exists H. split; auto. set (p := leibniz SR (S n) (cm f)) in *. clearbody p.
    induction K as [|K IH]; intros j c Hj Hc.
    - change (sum 1 (fun k => pw (S n) f k j c * p k)) with (0 + pw (S n) f 0 j c * p 0%nat). cbn [pw]. pose proof (E j c 0%nat Hj Hc) as E0. cbn beta iota in E0.
      transitivity (if j =? c then p 0%nat else 0). { destruct (j =? c); ring. } rewrite E0. f_equal. apply bigsum_ext. intros l Hl. f_equal.
      rewrite <- (@bigsum_delta _ _ R (S n) c (fun i => f l i) Hc). apply bigsum_ext. intros i _. destruct (i =? c); ring.
    - change (sum (S (S K)) ?g) with (sum (S K) g + g (S K)). cbn beta. rewrite IH by auto.
      assert (Q : pw (S n) f (S K) j c * p (S K) = sum (S n) (fun i => (if j =? i then p (S K) else 0) * pw (S n) f (S K) i c)).
      { transitivity (p (S K) * pw (S n) f (S K) j c); [ring|]. rewrite <- (@bigsum_delta _ _ R (S n) j (fun i => p (S K) * pw (S n) f (S K) i c) Hj). apply bigsum_ext. intros i _. rewrite (Nat.eqb_sym j i). destruct (i =? j); ring. }
      rewrite Q. rewrite (@bigsum_ext _ _ R (S n) (fun i => (if j =? i then p (S K) else 0) * pw (S n) f (S K) i c) (fun i => H j i K * pw (S n) f (S K) i c + - (sum (S n) (fun l => H j l (S K) * f l i) * pw (S n) f (S K) i c))).
      2:{ intros i Hi. rewrite (E j i (S K) Hj Hi). ring. }
      rewrite bigsum_add, bigsum_opp. rewrite (@bigsum_ext _ _ R (S n) (fun i => sum (S n) (fun l => H j l (S K) * f l i) * pw (S n) f (S K) i c) (fun i => sum (S n) (fun l => H j l (S K) * f l i * pw (S n) f (S K) i c))).
      2:{ intros i Hi. rewrite <- bigsum_mul_r. reflexivity. }
      rewrite bigsum_swap. rewrite (@bigsum_ext _ _ R (S n) (fun l => sum (S n) (fun i => H j l (S K) * f l i * pw (S n) f (S K) i c)) (fun l => H j l (S K) * pw (S n) f (S (S K)) l c)).
      2:{ intros l Hl. cbn [pw]. rewrite <- bigsum_mul_l. apply bigsum_ext. intros i _. ring. }
      ring.
  Qed.
  Lemma poly_all : forall n (H : nat -> nat -> nat -> T), (forall i j, poly (H i j)) -> exists K, forall i j, i < n -> j < n -> below K (H i j).
  Proof.
    intros n H P. assert (Q : forall m, exists K, forall i, i < m -> forall j, j < n -> below K (H i j)).
    { induction m as [|m (K & IH)]. { exists 0%nat. intros. lia. }
      assert (Q : forall q, exists L, forall j, j < q -> below L (H m j)).
      { induction q as [|q (L & IQ)]. { exists 0%nat. intros. lia. } destruct (P m q) as (L' & B). exists (Nat.max L L'). intros j Hj. destruct (Nat.eq_dec j q) as [->|]; [eapply below_le; [|exact B]; lia|eapply below_le; [|apply IQ; lia]; lia]. }
      destruct (Q n) as (L & HL). exists (Nat.max K L). intros i Hi j Hj. destruct (Nat.eq_dec i m) as [->|]; [eapply below_le; [|apply HL; auto]; lia|eapply below_le; [|apply IH; auto; lia]; lia]. }
    destruct (Q n) as (K & HK). exists K. auto.
  Qed.
  Lemma sum_more : forall K K' f, K <= K' -> (forall k, K <= k -> f k = 0) -> sum K' f = sum K f.
  Proof. intros K K' f L H. induction L as [|K' L IH]; auto. cbn [bigsum]. rewrite IH, H by auto. ring. Qed.
  Lemma cayley : forall N f K i j, i < N -> j < N -> below K (leibniz SR N (cm f)) -> sum K (fun k => pw N f k i j * leibniz SR N (cm f) k) = 0.
  Proof.
    intros [|n] f K i j Hi Hj B; [lia|]. destruct (cayley_sum n f) as (H & P & E). destruct (poly_all (S n) H P) as (L & HL).
    transitivity (sum (S (Nat.max K L)) (fun k => pw (S n) f k i j * leibniz SR (S n) (cm f) k)).
    { symmetry. apply sum_more; [lia|]. intros k Hk. rewrite B by auto. ring. }
    rewrite E by auto. rewrite (@bigsum_ext _ _ R (S n) _ (fun _ => 0)). { rewrite bigsum_zero. ring. }
    intros l Hl. rewrite (HL i l) by (auto; lia). ring.
  Qed.

  (** * The theorems *)
  (** It always exists, has degree N and leading coefficient 1. *)
  Theorem C123_monic : forall N a, rect N N a -> exists p, char_poly R N a = Ok p /\ p N = 1 /\ (forall k, N < k -> p k = 0).
  Proof.
    intros N a Ra. destruct (mk_ex o Ra) as (f & ->). exists (leibniz SR N (cm f)). split; [apply char_poly_mk|]. split.
    - pose (B := fun i j k => match k with O => dl i j | S O => - f i j | _ => 0 end).
      assert (L : leibniz SR N (cm f) N = leibniz SR N B (N - N)%nat). { apply leibniz_reverse; auto. intros i j Hi Hj. split; [apply cm_below|]. split; [intros [|[|k]] Hk; try lia; reflexivity|]. rewrite !cm_at. auto. }
      rewrite L, Nat.sub_diag, leibniz_at0. apply (leibniz_one R).
    - intros k Hk. apply leibniz_below; auto. intros. apply cm_below.
  Qed.
  Lemma zero_column : forall n A, (forall i, i < S n -> A i 0%nat = 0) -> leibniz R (S n) A = 0.
  Proof.
    intros n A H. rewrite <- (leibniz_transpose R (S n) A), laplace0. rewrite (@bigsum_ext _ _ R (S n) _ (fun _ => 0)); [apply bigsum_zero|]. intros k Hk. rewrite H by auto. ring.
  Qed.
  Lemma leibniz_at1 : forall n B, (forall i j, i < n -> j < n -> below 2 (B i j)) -> (forall i j, i < n -> j < n -> B i j 0%nat = dl i j) -> leibniz SR n B 1%nat = sum n (fun i => B i i 1%nat).
  Proof.
    induction n as [|n IH]; intros B H2 H. { unfold leibniz. cbn. ring. }
    rewrite laplace0, bigsum_at, bigsum_shift, bigsum_shift. rewrite rmul, mul_linear by (apply H2; lia). rewrite !signed_at, H by lia. change (0 =? 0) with true. cbv iota.
    assert (Sk : forall j a b, a < n -> b < n -> skip 0 a < S n /\ skip j b < S n) by (intros j a b; unfold skip; destruct (a <? 0), (b <? j); lia).
    rewrite IH. 2:{ intros i j Hi Hj. unfold minor. apply H2; apply Sk with (j := 0%nat) (a := i) (b := i) || apply Sk with (a := j) (b := j); auto. }
    2:{ intros i j Hi Hj. unfold minor. cbn [skip]. rewrite H; unfold skip; cbn; try lia. reflexivity. }
    rewrite leibniz_at0. rewrite (@leibniz_ext _ _ R n (fun i j => minor 0 0 B i j 0%nat) (fun i j => dl i j)).
    2:{ intros i j Hi Hj. unfold minor. rewrite H; unfold skip; cbn; try lia. reflexivity. }
    rewrite (leibniz_one R). rewrite (@bigsum_ext _ _ R n (fun k => r_mul SR (B 0%nat (S k)) (signed SR (S k) (leibniz SR n (minor 0 (S k) B))) 1%nat) (fun _ => 0)).
    { rewrite bigsum_zero. unfold signed. cbn [Nat.even]. rewrite (@bigsum_ext _ _ R n (fun i => minor 0 0 B i i 1%nat) (fun i => B (S i) (S i) 1%nat)); [ring|]. intros. reflexivity. }
    intros k Hk. rewrite rmul, mul_linear by (apply H2; lia). rewrite H, !signed_at by lia. change (0 =? S k) with false. cbv iota. rewrite leibniz_at0. destruct n as [|m]; [lia|].
    rewrite zero_column. { rewrite signed_zero. ring. } intros i Hi. unfold minor, skip. change (i <? 0) with false. change (0 <? S k) with true. cbv iota. rewrite H by lia. reflexivity.
  Qed.
  (** Its constant coefficient is the determinant, up to the sign (-1)^N, and coefficient N - 1 is minus the trace. *)
  Theorem C123_coefficients : forall N a p, rect N N a -> char_poly R N a = Ok p ->
    m_det o N a = Ok (signed R N (p 0%nat)) /\ (0 < N -> p (N - 1)%nat = - sum N (fun i => mget o a i i)).
  Proof.
    intros N a p Ra Hp. destruct (mk_ex o Ra) as (f & ->). rewrite char_poly_mk in Hp. apply Ok_inj in Hp. subst p. split.
    - rewrite (m_det_mk R). f_equal. rewrite leibniz_at0. rewrite (@leibniz_ext _ _ R N (fun i j => cm f i j 0%nat) (fun i j => f i j * (- o_one o))). 2:{ intros i j _ _. rewrite cm_at. ring. }
      rewrite leibniz_scale. generalize (leibniz R N f) as d. intros d. unfold signed. assert (P : pow R (- o_one o) N = if Nat.even N then 1 else - o_one o).
      { clear. induction N as [|N IH]; [reflexivity|]. cbn [pow]. rewrite IH, Nat.even_succ, <- Nat.negb_even. destruct (Nat.even N); cbn; ring. }
      rewrite P. destruct (Nat.even N); ring.
    - intros HN. pose (B := fun i j k => match k with O => dl i j | S O => - f i j | _ => 0 end).
      assert (L : leibniz SR N (cm f) (N - 1)%nat = leibniz SR N B (N - (N - 1))%nat).
      { apply leibniz_reverse; [|lia]. intros i j Hi Hj. split; [apply cm_below|]. split; [intros [|[|k]] Hk; try lia; reflexivity|]. rewrite !cm_at. auto. }
      rewrite L. replace (N - (N - 1))%nat with 1%nat by lia. rewrite leibniz_at1. 2:{ intros i j _ _ [|[|k]] Hk; try lia; reflexivity. } 2:{ reflexivity. }
      rewrite <- bigsum_opp. apply bigsum_ext. intros i Hi. unfold B. f_equal. rewrite mget_mk by auto. reflexivity.
  Qed.
  (** Cayley-Hamilton: every matrix is a root of its characteristic polynomial. *)
  Theorem C123_cayley_hamilton : forall N a p, rect N N a -> char_poly R N a = Ok p -> m_poly o N p a (S N) =! m_zero o N N.
  Proof.
    intros N a p Ra Hp. destruct (mk_ex o Ra) as (f & ->). rewrite char_poly_mk in Hp. apply Ok_inj in Hp. subst p. rewrite m_poly_mk, m_zero_mk. same. apply mk_ext. intros i j Hi Hj. symmetry; apply cayley; auto. apply leibniz_below. intros. apply cm_below.
  Qed.
  (** Transposing changes nothing. *)
  Theorem C123_transpose : forall N a, rect N N a -> (let! t := m_transpose N N a in char_poly R N t) =! char_poly R N a.
  Proof.
    intros N a Ra. destruct (mk_ex o Ra) as (f & ->). rewrite m_transpose_mk. cbn [bind]. rewrite !char_poly_mk. same. rewrite <- (leibniz_transpose SR N (cm f)). apply leibniz_ext. intros i j _ _. unfold cm. rewrite (Nat.eqb_sym i j). reflexivity.
  Qed.

  (** its values *)
  Section At.
    Context (t : T).
    Fixpoint ev (K : nat) (x : nat -> T) : T := match K with O => 0 | S k => x O + t * ev k (tl x) end.
    Lemma ev_value : forall K x, ev K x = poly_value R x K t.
    Proof.
      induction K as [|K IH]; intros x. { reflexivity. } unfold poly_value in *. rewrite bigsum_shift. cbn [ev power]. rewrite IH, <- bigsum_mul_l. f_equal; [ring|]. apply bigsum_ext. intros. unfold tl. ring.
    Qed.
    Lemma below_tl : forall K x, below (S K) x -> below K (tl x). Proof. intros K x H k Hk. apply H. lia. Qed.
    Lemma ev_zero : forall K x, below 0 x -> ev K x = 0.
    Proof. induction K as [|K IH]; intros x H; cbn [ev]; auto. rewrite IH, (H 0%nat) by (intros; lia || (intros k Hk; apply H; lia)). ring. Qed.
    Lemma ev_more : forall K K' x, K <= K' -> below K x -> ev K' x = ev K x.
    Proof.
      induction K as [|K IH]; intros K' x L B. { apply ev_zero. auto. } destruct K' as [|K']; [lia|]. cbn [ev]. rewrite IH; [reflexivity|lia|apply below_tl; auto].
    Qed.
    Lemma ev_ext : forall K x y, (forall k, x k = y k) -> ev K x = ev K y.
    Proof. induction K as [|K IH]; intros x y H; cbn [ev]; auto. rewrite (H 0%nat), (IH (tl x) (tl y)); auto. intros. apply H. Qed.
    Lemma ev_add : forall K x y, ev K (fun k => x k + y k) = ev K x + ev K y.
    Proof. induction K as [|K IH]; intros x y; cbn [ev]; [ring|]. change (tl (fun k => x k + y k)) with (fun k => tl x k + tl y k). rewrite IH. ring. Qed.
    Lemma ev_scal : forall K c x, ev K (fun k => c * x k) = c * ev K x.
    Proof. induction K as [|K IH]; intros c x; cbn [ev]; [ring|]. change (tl (fun k => c * x k)) with (fun k => c * tl x k). rewrite IH. ring. Qed.
    Lemma ev_mul : forall K1 K2 x y, below K1 x -> below K2 y -> ev (K1 + K2)%nat (mul x y) = ev K1 x * ev K2 y.
    Proof.
      induction K1 as [|K1 IH]; intros K2 x y B1 B2.
      - rewrite ev_zero; [cbn; ring|]. intros k _. unfold cauchy. rewrite (@bigsum_ext _ _ R _ _ (fun _ => 0)); [apply bigsum_zero|]. intros i _. rewrite B1 by lia. ring.
      - cbn [Nat.add ev]. rewrite mul_0. rewrite (@ev_ext (K1 + K2)%nat (tl (mul x y)) (fun k => x 0%nat * tl y k + mul (tl x) y k)) by (intros; apply mul_S).
        rewrite ev_add, ev_scal, IH by (auto using below_tl). transitivity (x 0%nat * ev (S (K1 + K2)) y + t * (ev K1 (tl x) * ev K2 y)); [cbn [ev]; ring|]. rewrite (@ev_more K2 (S (K1 + K2)) y) by (auto; lia). ring.
    Qed.
    (* polynomials and their values *)
    Definition values (x : nat -> T) (v : T) : Prop := exists K, below K x /\ ev K x = v.
    Lemma values_rel : OpsRel true values po o.
    Proof.
      assert (C : forall c, values (constant c) c). { intros c. exists 1%nat. split; [intros [|k] H; [lia|reflexivity]|]. cbn. ring. }
      constructor.
      - apply C.
      - apply C.
      - intros x x' y y' (K & B & E) (L & B' & E'). rewrite (r_add_ok R). cbn. exists (Nat.max K L). split. { intros k Hk. rewrite B, B' by lia. ring. } rewrite ev_add, (@ev_more K (Nat.max K L) x), (@ev_more L (Nat.max K L) y) by (auto; lia). congruence.
      - intros x x' y y' (K & B & E) (L & B' & E'). rewrite (r_sub_ok R). cbn. exists (Nat.max K L). split. { intros k Hk. rewrite B, B' by lia. ring. }
        rewrite (@ev_ext _ (fun k => x k - y k) (fun k => x k + (- o_one o) * y k)) by (intros; ring). rewrite ev_add, ev_scal, (@ev_more K (Nat.max K L) x), (@ev_more L (Nat.max K L) y) by (auto; lia). rewrite E, E'. ring.
      - intros x x' y y' (K & B & E) (L & B' & E'). rewrite (r_mul_ok R). cbn. exists (K + L)%nat. split; [apply below_mul; auto|]. rewrite ev_mul by auto. congruence.
      - intros x x' (K & B & E). rewrite (r_neg_ok R). cbn. exists K. split. { intros k Hk. rewrite B by lia. ring. }
        rewrite (@ev_ext _ (fun k => - x k) (fun k => (- o_one o) * x k)) by (intros; ring). rewrite ev_scal, E. ring.
    Qed.
    Lemma values_unknown : values unknown t.
    Proof. exists 2%nat. split. { intros k Hk. unfold unknown. destruct k as [|[|k]]; try lia; reflexivity. } cbn. ring. Qed.
  End At.
  (** At every scalar t, the characteristic polynomial is det(t 1 - A). *)
  Theorem C123_value : forall N a p t, rect N N a -> char_poly R N a = Ok p ->
    (let! i := m_one o N in let! ti := m_smul o i t in let! c := m_sub o N N ti a in m_det o N c) = Ok (poly_value R p (S N) t).
  Proof.
    intros N a p t Ra Hp. assert (D : below (S N) p). { destruct (C123_monic Ra) as (p' & E & _ & Z). rewrite Hp in E. apply Ok_inj in E. subst p'. intros k Hk. apply Z. lia. }
    assert (Q : rrel true (values t) (char_poly R N a) (let! i := m_one o N in let! ti := m_smul o i t in let! c := m_sub o N N ti a in m_det o N c)).
    { unfold char_poly. pose proof (values_rel t) as V. eapply rr_bind; [apply (rr_m_one V)|]. intros i i' Hi. eapply rr_bind; [apply (rr_m_smul V); [exact Hi|apply values_unknown]|]. intros x x' Hx.
      eapply rr_bind; [apply (rr_m_sub V); [exact Hx|]|intros c c' Hc; apply (rr_m_det V); exact Hc].
      destruct (mk_ex o Ra) as (f & ->). rewrite map_mk2. apply mrel_elt; try apply rect_mk. intros r c u v Hu Hv. rewrite elt_mk in Hu, Hv. destruct (_ && _); [|discriminate]. injection Hu as <-. injection Hv as <-. exists 1%nat. split; [intros [|k] Hk; [lia|reflexivity]|]. cbn. ring. }
    rewrite Hp in Q. destruct (let! i := m_one o N in _) as [v| | |]; cbn in Q; try contradiction; try discriminate. destruct Q as (K & B & E). f_equal. rewrite <- E, <- ev_value.
    transitivity (ev t (Nat.max K (S N)) p); [symmetry|]; apply ev_more; auto; lia.
  Qed.
  (** A B and B A have the same characteristic polynomial, hence similar matrices do. *)
  Theorem C123_commuted : forall N a b, rect N N a -> rect N N b -> (let! ab := m_dot o N N N a b in char_poly R N ab) =! (let! ba := m_dot o N N N b a in char_poly R N ba).
  Proof.
    intros N a b Ra Rb. destruct (mk_ex o Ra) as (f & ->), (mk_ex o Rb) as (g & ->). destruct N as [|n]. { exists (leibniz SR 0 (cm f)). split; change (char_poly R 0 (mk 0 0 f) = Ok (leibniz SR 0 (cm f))); apply char_poly_mk. }
    rewrite !(m_dot_mk R) by lia. cbn [bind]. rewrite !char_poly_mk. same. apply functional_extensionality. intros k.
    set (N := S n) in *. destruct (Nat.lt_ge_cases N k) as [L|L].
    { rewrite !(@leibniz_below N) by (auto; intros; apply cm_below). reflexivity. }
    (* 1 - x A B *)
    pose (X := fun (u v : nat -> nat -> T) i j => r_add SR (if i =? j then o_one po else o_zero po) (bigsum SR N (fun l => r_mul SR (r_mul SR (r_opp SR unknown) (constant (u i l))) (constant (v l j))))).
    assert (Xat : forall u v i j k, X u v i j k = match k with O => dl i j | S O => - sum N (fun l => u i l * v l j) | _ => 0 end).
    { intros u v i j m. unfold X. rewrite radd, bigsum_at. rewrite (@bigsum_ext _ _ R N _ (fun l => - (u i l * v l j) * unknown m)).
      2:{ intros l _. rewrite rmul, mul_comm, mul_const, rmul, mul_comm, mul_const, ropp. ring. }
      rewrite bigsum_mul_r, bigsum_opp. destruct m as [|[|m]]; unfold unknown; cbn; destruct (i =? j); cbn; ring. }
    assert (Rev : forall u v m, m <= N -> leibniz SR N (cm (fun i j => sum N (fun l => u i l * v l j))) m = leibniz SR N (X u v) (N - m)%nat).
    { intros u v m Hm. apply leibniz_reverse; auto. intros i j Hi Hj. split; [apply cm_below|]. split. { intros [|[|q]] Hq; try lia. rewrite Xat. reflexivity. } rewrite !cm_at, !Xat. auto. }
    rewrite !Rev by auto. symmetry. apply (f_equal (fun s => s (N - k)%nat)). unfold X.
    etransitivity; [exact (sylvester SR N N (fun i l => r_mul SR (r_opp SR unknown) (constant (f i l))) (fun l j => constant (g l j)))|].
    apply leibniz_ext. intros i j _ _. f_equal. apply bigsum_ext. intros l _.
    apply functional_extensionality. intros q. rewrite rmul, mul_const, rmul, mul_comm, mul_const, rmul, mul_comm, mul_const, rmul, mul_comm, mul_const. ring.
  Qed.
  Theorem C123_similar : forall N a q r, rect N N a -> rect N N q -> rect N N r -> m_dot o N N N q r =! m_one o N ->
    (let! aq := m_dot o N N N a q in let! b := m_dot o N N N r aq in char_poly R N b) =! char_poly R N a.
  Proof.
    intros N a q r Ra Rq Rr (i & Hq & Hi). destruct (mk_ex o Ra) as (f & ->), (mk_ex o Rq) as (g & ->), (mk_ex o Rr) as (h & ->). destruct N as [|n]. { exists (leibniz SR 0 (cm f)). split; change (char_poly R 0 (mk 0 0 f) = Ok (leibniz SR 0 (cm f))); apply char_poly_mk. }
    rewrite m_one_mk in Hi. apply Ok_inj in Hi. subst i. rewrite !(m_dot_mk R) in Hq by lia. apply Ok_inj in Hq. assert (K : forall i j, i < S n -> j < S n -> sum (S n) (fun l => g i l * h l j) = dl i j).
    { intros i j Hi Hj. unfold mk in Hq. pose proof (@vk_inj _ (S n) _ _ Hq i Hi) as Hq1. cbn beta in Hq1. exact (@vk_inj _ (S n) _ _ Hq1 j Hj). }
    rewrite (m_dot_mk R) by lia. cbn [bind]. pose proof (@C123_commuted (S n) (mk (S n) (S n) h) (mk (S n) (S n) (fun i j => sum (S n) (fun l => f i l * g l j))) (rect_mk _ _ _) (rect_mk _ _ _)) as (p & E1 & E2).
    exists p. split; [exact E1|]. rewrite <- E2, (m_dot_mk R) by lia. cbn [bind]. f_equal. apply mk_ext. intros i j Hi Hj.
    rewrite (@bigsum_ext _ _ R (S n) _ (fun k => sum (S n) (fun l => f i l * (g l k * h k j)))). 2:{ intros k _. rewrite <- bigsum_mul_r. apply bigsum_ext. intros. ring. }
    rewrite bigsum_swap. rewrite (@bigsum_ext _ _ R (S n) _ (fun l => if l =? j then f i l else 0)); [symmetry; apply (@bigsum_delta _ _ R (S n) j (fun l => f i l) Hj)|].
    intros l Hl. rewrite bigsum_mul_l, K by auto. destruct (l =? j); ring.
  Qed.
End Series.

Section Eigen.
  Context {T : Type} {o : Ops T} (F : Field o) (dec : forall x : T, x = o_zero o \/ x <> o_zero o).
  Add Ring Reig : (CRing_theory F).
  (** Its roots are the eigenvalues. *)
  Theorem C123_eigenvalues : forall N a p t, rect N N a -> char_poly F N a = Ok p ->
    (poly_value F p (S N) t = o_zero o <-> exists x, length x = N /\ nonzero o x /\ m_dot_v o N N a x =! v_smul o x t).
  Proof.
    intros N a p t Ra Hp. pose proof (C123_value F t Ra Hp) as V. destruct (mk_ex o Ra) as (f & ->). rewrite m_one_mk in V. cbn [bind] in V. rewrite (m_smul_mk F) in V. cbn [bind] in V. rewrite (m_sub_mk F) in V. cbn [bind] in V.
    set (c := fun i j => r_sub F (r_mul F (if i =? j then o_one o else o_zero o) t) (f i j)) in *.
    assert (E : forall u i, i < N -> bigsum F N (fun k => r_mul F (c i k) (u k)) = r_sub F (r_mul F (u i) t) (bigsum F N (fun k => r_mul F (f i k) (u k)))).
    { intros u i Hi. rewrite (@bigsum_ext _ _ F N _ (fun k => r_add F (if k =? i then r_mul F (u k) t else o_zero o) (r_opp F (r_mul F (f i k) (u k))))).
      2:{ intros k _. unfold c. rewrite (Nat.eqb_sym i k). destruct (k =? i); ring. }
      rewrite bigsum_add, bigsum_opp, (@bigsum_delta _ _ F N i (fun k => r_mul F (u k) t) Hi). ring. }
    split.
    - intros Z. rewrite Z in V. apply (C108_singular F dec (rect_mk _ _ _)) in V. destruct V as (x & Nx & Lx & Hx). exists x. split; auto. split; auto. destruct (vk_ex o x Lx) as (u & ->).
      rewrite (sq_v F), zeros_vk in Hx. apply Ok_inj in Hx. pose proof (@vk_inj _ N _ _ Hx) as K. cbn beta in K. rewrite (sq_v F), (v_smul_vk F). same. apply vk_ext. intros i Hi. specialize (K i Hi). rewrite E in K by auto.
      symmetry; transitivity (r_sub F (r_mul F (u i) t) (r_sub F (r_mul F (u i) t) (bigsum F N (fun k => r_mul F (f i k) (u k))))); [ring|]. rewrite K. ring.
    - intros (x & Lx & Nx & y & H1 & H2). assert (D : m_det o N (mk N N c) = Ok (o_zero o)).
      { apply (C108_singular F dec (rect_mk _ _ _)). exists x. split; auto. destruct (vk_ex o x Lx) as (u & ->). split; auto. rewrite (sq_v F), zeros_vk. f_equal. apply vk_ext. intros i Hi. rewrite E by auto.
        rewrite (sq_v F) in H1. rewrite (v_smul_vk F) in H2. rewrite <- H1 in H2. apply Ok_inj in H2. pose proof (@vk_inj _ N _ _ H2) as K. cbn beta in K. rewrite (K i Hi). ring. }
      rewrite D in V. apply Ok_inj in V. auto.
  Qed.
End Eigen.

(** * Cases meeting the hypotheses *)
Example C123_ex_cayley : let a := [[1; 2; 0]; [3; 4; 1]; [0; 5; 6]]%Z in rect 3 3 a /\
  (let! p := char_poly z_ring 3 a in Ok (map p [0; 1; 2; 3; 4])) = Ok [17; 23; -11; 1; 0]%Z /\
  (let! p := char_poly z_ring 3 a in m_poly z_ops 3 p a 4) = m_zero z_ops 3 3 /\ m_det z_ops 3 a = Ok (-17)%Z.
Proof. split; [split; [reflexivity|repeat constructor]|]. vm_compute. repeat split. Qed.
Example C123_ex_values : let a := [[2; 1]; [1; 2]]%Z in (let! p := char_poly z_ring 2 a in Ok (map (poly_value z_ring p 3) [0; 1; 2; 3]%Z)) = Ok [3; 0; -1; 0]%Z /\
  m_dot_v z_ops 2 2 a [1; 1]%Z = v_smul z_ops [1; 1]%Z 3%Z /\ m_dot_v z_ops 2 2 a [1; -1]%Z = v_smul z_ops [1; -1]%Z 1%Z.
Proof. vm_compute. repeat split. Qed.
(* two matrices that do not commute *)
Example C123_ex_commuted : let a := [[1; 2]; [3; 4]]%Z in let b := [[0; 1]; [5; 7]]%Z in
  m_dot z_ops 2 2 2 a b = Ok [[10; 15]; [20; 31]]%Z /\ m_dot z_ops 2 2 2 b a = Ok [[3; 4]; [26; 38]]%Z /\
  (let! p := char_poly z_ring 2 [[10; 15]; [20; 31]]%Z in Ok (map p [0; 1; 2; 3])) = Ok [10; -41; 1; 0]%Z /\
  (let! p := char_poly z_ring 2 [[3; 4]; [26; 38]]%Z in Ok (map p [0; 1; 2; 3])) = Ok [10; -41; 1; 0]%Z.
Proof. vm_compute. repeat split. Qed.
(* the scalars of the eigenvalue theorem *)
Lemma C123_qc : forall N a p t, rect N N a -> char_poly qc_field N a = Ok p ->
  (poly_value qc_field p (S N) t = o_zero qc_ops <-> exists x, length x = N /\ nonzero qc_ops x /\ m_dot_v qc_ops N N a x =! v_smul qc_ops x t).
Proof. intros. apply (C123_eigenvalues qc_field qc_decided); auto. Qed.

Print Assumptions C123_monic.
Print Assumptions C123_coefficients.
Print Assumptions C123_cayley_hamilton.
Print Assumptions C123_transpose.
Print Assumptions C123_value.
Print Assumptions C123_commuted.
Print Assumptions C123_similar.
Print Assumptions C123_eigenvalues.
