(** C112: the determinant as a volume.  det of the matrix of dot products of the rows (Gram) is between zero and the product
    of the squared lengths of the rows; zero exactly for dependent rows, the product exactly for rows at right angles
    (Hadamard).  For integers: a release build returns the exact determinant whenever that bound fits the type, whatever
    wraps around on the way. *)
From Coq Require Import Ring Lia ZArith Reals Lra Psatz.
From Verif Require Import Spec SpecRing SpecDet SpecTransform SpecMachine AlgFacts MFacts DetFacts SqProofs MatProofs PropSquare PropLinear PropRel TransformModel Instances RealInst.
Set Implicit Arguments.
Local Open Scope R_scope.

(** ** Inner products of functions of an index, and Gram-Schmidt. *)
Local Notation sum := (bigsum r_field).
Lemma sum_ge0 : forall n f, (forall i, (i < n)%nat -> 0 <= f i) -> 0 <= sum n f.
Proof.
  induction n as [|n IH]; intros f H; cbn. { lra. }
  assert (0 <= sum n f) by (apply IH; intros; apply H; lia). assert (0 <= f n) by (apply H; lia). cbn in *. lra.
Qed.
Lemma sum_eq0 : forall n f, (forall i, (i < n)%nat -> 0 <= f i) -> sum n f = 0 -> forall i, (i < n)%nat -> f i = 0.
Proof.
  induction n as [|n IH]; intros f H E i Hi. { lia. }
  assert (P : 0 <= sum n f) by (apply sum_ge0; intros; apply H; lia). assert (Q : 0 <= f n) by (apply H; lia). cbn in E, P.
  destruct (Nat.eq_dec i n) as [->|]. { lra. } apply IH; try lia; [intros; apply H; lia|cbn; lra].
Qed.
Definition ip (N : nat) (u v : nat -> R) : R := sum N (fun k => u k * v k).
Lemma ip_sym : forall N u v, ip N u v = ip N v u.
Proof. intros. apply bigsum_ext. intros. ring. Qed.
Lemma ip_ext : forall N u u' v v', (forall k, (k < N)%nat -> u k = u' k) -> (forall k, (k < N)%nat -> v k = v' k) -> ip N u v = ip N u' v'.
Proof. intros N u u' v v' H K. apply bigsum_ext. intros. rewrite H, K; auto. Qed.
Lemma ip_ge0 : forall N u, 0 <= ip N u u.
Proof. intros. apply sum_ge0. intros. nra. Qed.
Lemma ip_eq0 : forall N u, ip N u u = 0 -> forall k, (k < N)%nat -> u k = 0.
Proof. intros N u H k Hk. assert (u k * u k = 0). { apply (@sum_eq0 N (fun k => u k * u k)); auto. intros. nra. } nra. Qed.
Lemma ip_sub_l : forall N u v w, ip N (fun k => u k - v k) w = ip N u w - ip N v w.
Proof.
  intros. unfold ip. rewrite (@bigsum_ext _ _ r_field N _ (fun k => r_add r_field (u k * w k) (r_opp r_field (v k * w k)))) by (intros; cbn; ring).
  rewrite bigsum_add, bigsum_opp. cbn. ring.
Qed.
Lemma ip_sum_l : forall N M c (B : nat -> nat -> R) w, ip N (fun k => sum M (fun j => c j * B j k)) w = sum M (fun j => c j * ip N (B j) w).
Proof.
  intros. unfold ip. rewrite (@bigsum_ext _ _ r_field N _ (fun k => sum M (fun j => c j * (B j k * w k)))).
  - rewrite bigsum_swap. apply bigsum_ext. intros j _. apply (bigsum_mul_l r_field).
  - intros k _. pose proof (bigsum_mul_r r_field M (w k) (fun j => c j * B j k)) as E. cbn in E |- *. rewrite <- E. apply bigsum_ext. intros. cbn. ring.
Qed.

Lemma gram_schmidt : forall N M (A : nat -> nat -> R), exists L B : nat -> nat -> R,
  (forall i, (i < M)%nat -> L i i = 1) /\ (forall i j, (i < M)%nat -> (j < i)%nat -> L i j = 0) /\
  (forall i k, (i < M)%nat -> sum M (fun j => L i j * A j k) = B i k) /\
  (forall i j, (i < M)%nat -> (j < M)%nat -> i <> j -> ip N (B i) (B j) = 0) /\
  (forall i, (i < M)%nat -> ip N (B i) (B i) <= ip N (A i) (A i)) /\
  (forall i, (i < M)%nat -> ip N (B i) (B i) = ip N (A i) (A i) -> forall k, (k < N)%nat -> B i k = A i k).
Proof.
  intros N. induction M as [|M IH]; intros A. { exists (fun _ _ => 0), (fun _ _ => 0). repeat split; intros; lia. }
  destruct (IH (fun i => A (S i))) as (L & B & L1 & L0 & LB & O & Le & Eq).
  set (c := fun j => if Req_EM_T (ip N (B j) (B j)) 0 then 0 else ip N (A 0%nat) (B j) / ip N (B j) (B j)).
  set (p := fun k => sum M (fun j => c j * B j k)).
  set (b0 := fun k => A 0%nat k - p k).
  assert (PB : forall i, (i < M)%nat -> ip N p (B i) = ip N (A 0%nat) (B i)).
  { intros i Hi. unfold p. rewrite ip_sum_l.
    rewrite (@bigsum_ext _ _ r_field M _ (fun j => if (j =? i)%nat then c j * ip N (B j) (B i) else o_zero r_ops)).
    2: { intros j Hj. destruct (Nat.eqb_spec j i) as [->|Q]; [reflexivity|]. rewrite O by auto. apply Rmult_0_r. }
    rewrite (@bigsum_delta _ _ r_field M i (fun j => c j * ip N (B j) (B i)) Hi). unfold c.
    destruct (Req_EM_T (ip N (B i) (B i)) 0) as [Z|Z]; [|field; auto].
    rewrite (@ip_ext N (A 0%nat) (A 0%nat) (B i) (fun _ => 0)); auto.
    - rewrite Z, Rmult_0_l. unfold ip. rewrite (@bigsum_ext _ _ r_field N _ (fun _ => o_zero r_ops)) by (intros; apply Rmult_0_r). rewrite bigsum_zero. reflexivity.
    - apply ip_eq0. auto. }
  assert (QB : forall i, (i < M)%nat -> ip N b0 (B i) = 0). { intros i Hi. unfold b0. rewrite ip_sub_l, PB by auto. ring. }
  assert (QP : ip N p b0 = 0).
  { unfold p at 1. rewrite ip_sum_l. rewrite (@bigsum_ext _ _ r_field M _ (fun _ => o_zero r_ops)). { exact (bigsum_zero r_field M). }
    intros j Hj. rewrite ip_sym, QB by auto. apply Rmult_0_r. }
  assert (PY : ip N (A 0%nat) (A 0%nat) = ip N b0 b0 + ip N p p).
  { assert (E1 : ip N b0 (A 0%nat) = ip N b0 b0).
    { transitivity (ip N (A 0%nat) b0). { apply ip_sym. } unfold b0 at 2. rewrite ip_sub_l. rewrite QP. ring. }
    assert (E2 : ip N b0 (A 0%nat) = ip N (A 0%nat) (A 0%nat) - ip N p (A 0%nat)) by apply ip_sub_l.
    assert (E3 : ip N b0 p = ip N (A 0%nat) p - ip N p p) by apply ip_sub_l.
    rewrite (ip_sym N b0 p), QP, (ip_sym N (A 0%nat) p) in E3. lra. }
  exists (fun i j => match i, j with O, O => 1 | O, S k => - sum M (fun l => c l * L l k) | S _, O => 0 | S i, S k => L i k end).
  exists (fun i => match i with O => b0 | S i => B i end).
  split; [|split; [|split; [|split; [|split]]]].
  - intros [|i] Hi; auto. apply L1. lia.
  - intros [|i] [|j] Hi Hj; auto; try lia. apply L0; lia.
  - intros [|i] k Hi; rewrite bigsum_shift.
    + unfold b0, p. rewrite (@bigsum_ext _ _ r_field M (fun i => c i * B i k) (fun i => sum M (fun j => c i * L i j * A (S j) k))).
      2: { intros i Hi'. rewrite <- LB by auto. pose proof (bigsum_mul_l r_field M (c i) (fun j => L i j * A (S j) k)) as E. cbn in E |- *. rewrite <- E.
           apply bigsum_ext. intros. cbn. ring. }
      rewrite bigsum_swap. rewrite (@bigsum_ext _ _ r_field M (fun i => - sum M (fun l => c l * L l i) * A (S i) k)
        (fun i => r_opp r_field (sum M (fun l => c l * L l i * A (S i) k)))).
      * rewrite bigsum_opp. cbn. ring.
      * intros i _. pose proof (bigsum_mul_r r_field M (A (S i) k) (fun l => c l * L l i)) as E. cbn in E |- *. rewrite E. ring.
    + rewrite LB by lia. cbn. ring.
  - intros [|i] [|j] Hi Hj Q; try lia. { apply QB. lia. } { rewrite ip_sym. apply QB. lia. } apply O; lia.
  - intros [|i] Hi. { pose proof (ip_ge0 N p). lra. } apply Le. lia.
  - intros [|i] Hi E. { intros k Hk. assert (p k = 0). { apply (@ip_eq0 N p); auto. lra. } unfold b0. lra. } apply Eq; auto. lia.
Qed.

(** ** The determinant of the Gram matrix *)
Definition gram (N : nat) (A : nat -> nat -> R) (i j : nat) : R := ip N (A i) (A j).
Lemma leibniz_unit_triangular : forall M L, (forall i, (i < M)%nat -> L i i = 1) -> (forall i j, (i < M)%nat -> (j < i)%nat -> L i j = 0) -> leibniz r_field M L = 1.
Proof.
  intros M L L1 L0. rewrite leibniz_triangular by (cbn; auto). rewrite (@lprod_ext _ _ r_field _ _ (fun _ => o_one r_ops)).
  - rewrite lprod_one. reflexivity.
  - intros i Hi. apply in_seq in Hi. apply L1. lia.
Qed.
Lemma gram_det : forall N M A L B,
  (forall i, (i < M)%nat -> L i i = 1) -> (forall i j, (i < M)%nat -> (j < i)%nat -> L i j = 0) ->
  (forall i k, (i < M)%nat -> sum M (fun j => L i j * A j k) = B i k) ->
  (forall i j, (i < M)%nat -> (j < M)%nat -> i <> j -> ip N (B i) (B j) = 0) ->
  leibniz r_field M (gram N A) = lprod r_field (fun i => ip N (B i) (B i)) (seq 0 M).
Proof.
  intros N M A L B L1 L0 LB O.
  assert (E : leibniz r_field M (gram N B) = leibniz r_field M (gram N A)).
  { unfold gram. rewrite (@leibniz_ext _ _ r_field M (fun i j => ip N (B i) (B j)) (fun i j => sum M (fun k => r_mul r_field (sum M (fun l => r_mul r_field (L i l) (ip N (A l) (A k)))) (L j k)))).
    - rewrite (leibniz_mul r_field M (fun i k => sum M (fun l => r_mul r_field (L i l) (ip N (A l) (A k)))) (fun k j => L j k)).
      rewrite (leibniz_mul r_field M L (fun l k => ip N (A l) (A k))). rewrite (leibniz_transpose r_field M L).
      rewrite (@leibniz_unit_triangular M L L1 L0). cbn. ring.
    - intros i j Hi Hj. rewrite (@ip_ext N (B i) (fun k => sum M (fun l => L i l * A l k)) (B j) (B j)) by (intros; auto; symmetry; auto).
      rewrite ip_sum_l. rewrite (@bigsum_ext _ _ r_field M (fun l => L i l * ip N (A l) (B j)) (fun l => sum M (fun k => L i l * ip N (A l) (A k) * L j k))).
      + rewrite bigsum_swap. apply bigsum_ext. intros k _. exact (bigsum_mul_r r_field M (L j k) (fun l => L i l * ip N (A l) (A k))).
      + intros l Hl. rewrite ip_sym. rewrite (@ip_ext N (B j) (fun k => sum M (fun l => L j l * A l k)) (A l) (A l)) by (intros; auto; symmetry; auto).
        rewrite ip_sum_l. pose proof (bigsum_mul_l r_field M (L i l) (fun k => L j k * ip N (A k) (A l))) as X. cbn in X |- *. rewrite <- X.
        apply bigsum_ext. intros k _. rewrite (ip_sym N (A k)). cbn. ring. }
  rewrite <- E. apply leibniz_triangular. intros i j Hi Hj. apply O; lia.
Qed.
Lemma lprod_ge0 : forall f l, (forall i : nat, In i l -> 0 <= f i) -> 0 <= lprod r_field f l.
Proof. induction l as [|a l IH]; intros H; cbn. { lra. } apply Rmult_le_pos; [apply H; left; auto|apply IH; intros; apply H; right; auto]. Qed.
Lemma lprod_le : forall f g l, (forall i : nat, In i l -> 0 <= f i <= g i) -> lprod r_field f l <= lprod r_field g l.
Proof.
  induction l as [|a l IH]; intros H; cbn. { lra. }
  assert (0 <= f a <= g a) by (apply H; left; auto). assert (lprod r_field f l <= lprod r_field g l) by (apply IH; intros; apply H; right; auto).
  assert (0 <= lprod r_field f l) by (apply lprod_ge0; intros; apply H; right; auto). apply Rmult_le_compat; tauto.
Qed.
Lemma lprod_pos : forall f l, (forall i : nat, In i l -> 0 < f i) -> 0 < lprod r_field f l.
Proof. induction l as [|a l IH]; intros H; cbn. { lra. } apply Rmult_lt_0_compat; [apply H; left; auto|apply IH; intros; apply H; right; auto]. Qed.
Lemma lprod_eq0 : forall f l, lprod r_field f l = 0 -> exists i : nat, In i l /\ f i = 0.
Proof.
  induction l as [|a l IH]; cbn; intros H. { lra. } apply Rmult_integral in H. destruct H as [H|H]; [exists a; auto|].
  destruct (IH H) as (i & Hi & E). exists i. auto.
Qed.
Lemma lprod_eq : forall f g l, (forall i : nat, In i l -> 0 <= f i <= g i) -> (forall i, In i l -> 0 < g i) ->
  lprod r_field f l = lprod r_field g l -> forall i, In i l -> f i = g i.
Proof.
  induction l as [|a l IH]; cbn; intros H P E i Hi; [tauto|].
  assert (H1 : 0 <= f a <= g a) by (apply H; auto). assert (P1 : 0 < g a) by (apply P; auto).
  assert (H2 : lprod r_field f l <= lprod r_field g l) by (apply lprod_le; intros; apply H; auto).
  assert (P2 : 0 < lprod r_field g l) by (apply lprod_pos; intros; apply P; auto).
  assert (P3 : 0 <= lprod r_field f l) by (apply lprod_ge0; intros; apply H; auto).
  set (x := lprod r_field f l) in *. set (y := lprod r_field g l) in *.
  change (f a * x = g a * y) in E. assert (EA : f a = g a).
  { destruct (Req_dec (f a) (g a)) as [|Q]; auto. exfalso. assert (f a < g a) by lra.
    assert (f a * x <= f a * y) by (apply Rmult_le_compat_l; tauto). assert (f a * y < g a * y) by (apply Rmult_lt_compat_r; auto). lra. }
  destruct Hi as [<-|Hi]; auto. apply IH; auto. fold x. fold y. rewrite EA in E. apply (Rmult_eq_reg_l (g a)); [exact E|lra].
Qed.

Lemma r_decided : forall x : R, x = o_zero r_ops \/ x <> o_zero r_ops.
Proof. intros x. destruct (Req_dec x 0); auto. Qed.
(** ** Theorems *)
(** The product of a list of numbers. *)
Definition rprod (l : list R) : R := fold_right Rmult 1 l.
Lemma rprod_vk : forall n f, rprod (vk n f) = lprod r_field f (seq 0 n).
Proof.
  intros. unfold vk, rprod, lprod. induction (seq 0 n) as [|a l IH]; cbn; [reflexivity|]. rewrite IH. reflexivity.
Qed.
Lemma squares_mk : forall M N f s, (0 < N)%nat -> map_res (v_square_length r_ops) (mk M N f) = Ok s -> s = vk M (fun i => ip N (f i) (f i)).
Proof.
  intros M N f s HN E. unfold mk, vk at 1 in E. unfold vk. revert s E. generalize (seq 0 M).
  intros l. induction l as [|a l IH]; intros s E; cbn [map map_res] in E. { apply Ok_inj in E. subst. reflexivity. }
  rewrite (v_square_length_vk r_field (f a) HN) in E. cbn [bind] in E.
  destruct (map_res _ (map _ l)) as [t| | |] eqn:K; cbn in E; try discriminate. apply Ok_inj in E. subst s. cbn [map]. f_equal. apply IH. auto.
Qed.
Lemma lengths_mk : forall M N f s, (0 < N)%nat -> map_res (v_length r_ops sqrt) (mk M N f) = Ok s -> s = vk M (fun i => sqrt (ip N (f i) (f i))).
Proof.
  intros M N f s HN E. unfold mk, vk at 1 in E. unfold vk. revert s E. generalize (seq 0 M).
  intros l. induction l as [|a l IH]; intros s E; cbn [map map_res] in E. { apply Ok_inj in E. subst. reflexivity. }
  unfold v_length in E at 1. rewrite (v_square_length_vk r_field (f a) HN) in E. cbn [bind] in E.
  destruct (map_res _ (map _ l)) as [t| | |] eqn:K; cbn in E; try discriminate. apply Ok_inj in E. subst s. cbn [map]. f_equal. apply IH. auto.
Qed.
Lemma gram_range : forall N M A, 0 <= leibniz r_field M (gram N A) <= lprod r_field (fun i => ip N (A i) (A i)) (seq 0 M).
Proof.
  intros. destruct (gram_schmidt N M A) as (L & B & L1 & L0 & LB & O & Le & _). rewrite (@gram_det N M A L B) by auto. split.
  - apply lprod_ge0. intros. apply ip_ge0.
  - apply lprod_le. intros i Hi. apply in_seq in Hi. split; [apply ip_ge0|apply Le; lia].
Qed.
Lemma gram_zero : forall N M A, leibniz r_field M (gram N A) = 0 <->
  exists x, (exists i, (i < M)%nat /\ x i <> 0) /\ forall k, (k < N)%nat -> sum M (fun i => x i * A i k) = 0.
Proof.
  intros. split.
  - intros E. destruct (gram_schmidt N M A) as (L & B & L1 & L0 & LB & O & Le & _). rewrite (@gram_det N M A L B) in E by auto.
    apply lprod_eq0 in E. destruct E as (i & Hi & E). apply in_seq in Hi. exists (L i). split.
    + exists i. split; [lia|]. rewrite L1 by lia. lra.
    + intros k Hk. rewrite LB by lia. apply (@ip_eq0 N); auto.
  - intros (x & (i & Hi & Hx) & H). 
assert (K : m_det r_ops M (mk M M (gram N A)) = Ok 0); [|rewrite (m_det_mk r_field) in K; apply Ok_inj in K; exact K].
    apply (C108_rows r_field r_decided (rect_mk M M (gram N A))). exists (vk M x). split; [|split; [apply vk_length|]].
    + apply (nonzero_vk (o := r_ops)). exists i. auto.
    + rewrite (v_sq r_field), (zeros_vk (o := r_ops)). f_equal. apply vk_ext. intros j Hj. pose proof (ip_sum_l N M x A (A j)) as X. unfold gram. cbn in X |- *. rewrite <- X.
      rewrite (@ip_ext N _ (fun _ => 0) (A j) (A j)); auto. unfold ip.
      rewrite (@bigsum_ext _ _ r_field N _ (fun _ => o_zero r_ops)) by (intros; apply Rmult_0_l). exact (bigsum_zero r_field N).
Qed.
Lemma gram_full : forall N M A, (forall i, (i < M)%nat -> 0 < ip N (A i) (A i)) ->
  (leibniz r_field M (gram N A) = lprod r_field (fun i => ip N (A i) (A i)) (seq 0 M) <->
   forall i j, (i < M)%nat -> (j < M)%nat -> i <> j -> ip N (A i) (A j) = 0).
Proof.
  intros N M A P. split.
  - intros E. destruct (gram_schmidt N M A) as (L & B & L1 & L0 & LB & O & Le & Eq). rewrite (@gram_det N M A L B) in E by auto.
    assert (K : forall i, (i < M)%nat -> ip N (B i) (B i) = ip N (A i) (A i)).
    { intros i Hi. apply (@lprod_eq (fun i => ip N (B i) (B i)) (fun i => ip N (A i) (A i)) (seq 0 M)); auto.
      - intros j Hj. apply in_seq in Hj. split; [apply ip_ge0|apply Le; lia].
      - intros j Hj. apply in_seq in Hj. apply P. lia.
      - apply in_seq. lia. }
    intros i j Hi Hj Q. rewrite <- (O i j Hi Hj Q). apply ip_ext; intros k Hk; symmetry; apply Eq; auto.
  - intros O. apply leibniz_triangular. intros i j Hi Hj. apply O; lia.
Qed.
Lemma gram_square : forall N A, leibniz r_field N (gram N A) = leibniz r_field N A * leibniz r_field N A.
Proof.
  intros. transitivity (r_mul r_field (leibniz r_field N A) (leibniz r_field N (fun i j => A j i))).
  - rewrite <- leibniz_mul. apply leibniz_ext. intros. reflexivity.
  - rewrite leibniz_transpose. reflexivity.
Qed.

Section C112.
  Context (M N : nat) (m t : list (list R)) (s : list R) (HN : (0 < N)%nat) (Rm : rect M N m) (Ht : m_transpose M N m = Ok t)
    (Hs : map_res (v_square_length r_ops) m = Ok s).
  Local Notation row i := (nth_error m i).
  (** The matrix times its transpose holds the dot products of the rows; its det is at least zero and at most the product of
      the squared lengths of the rows. *)
  Theorem C112_gram : exists g d, m_dot r_ops M N M m t = Ok g /\ rect M M g /\
    (forall i j u v, row i = Some u -> row j = Some v -> exists x, v_dot r_ops N u v = Ok x /\ elt g i j = Some x) /\
    m_det r_ops M g = Ok d /\ 0 <= d <= rprod s.
  Proof.
    destruct (mk_ex r_ops Rm) as (f & ->). rewrite m_transpose_mk in Ht. apply Ok_inj in Ht. subst t. apply squares_mk in Hs; auto. subst s.
    rewrite (m_dot_mk r_field) by auto. eexists. exists (leibniz r_field M (gram N f)). split; [reflexivity|]. split; [apply rect_mk|]. split; [|split].
    - intros i j u v Hu Hv. unfold mk in Hu, Hv. rewrite nth_error_vk in Hu, Hv. rewrite elt_mk.
      destruct (i <? M)%nat; [|discriminate]. destruct (j <? M)%nat; [|discriminate]. injection Hu as <-. injection Hv as <-.
      rewrite (v_dot_vk r_field) by auto. cbn [andb]. eexists. split; reflexivity.
    - rewrite (m_det_mk r_field). f_equal.
    - rewrite rprod_vk. apply gram_range.
  Qed.
  (** It is zero exactly when the rows are linearly dependent. *)
  Theorem C112_dependent : forall g d, m_dot r_ops M N M m t = Ok g -> m_det r_ops M g = Ok d ->
    (d = 0 <-> exists x, nonzero r_ops x /\ length x = M /\ v_dot_m r_ops M N x m = Ok (repeat 0 N)).
  Proof.
    intros g d. clear Hs. destruct (mk_ex r_ops Rm) as (f & ->). rewrite m_transpose_mk in Ht. apply Ok_inj in Ht. subst t.
    rewrite (m_dot_mk r_field) by auto. intros E. apply Ok_inj in E. subst g. rewrite (m_det_mk r_field). intros E. apply Ok_inj in E. subst d.
    transitivity (leibniz r_field M (gram N f) = 0); [reflexivity|]. rewrite gram_zero.
    assert (Z0 : repeat 0 N = vk N (fun _ => 0)) by exact (zeros_vk (o := r_ops) N). rewrite Z0. split.
    - intros (x & (i & Hi & Hx) & H). exists (vk M x). split; [|split; [apply vk_length|]].
      + apply (nonzero_vk (o := r_ops)). exists i. auto.
      + rewrite (v_dot_m_mk r_field) by lia. f_equal. apply vk_ext. intros k Hk. apply H. auto.
    - intros (x & Nx & Lx & H). destruct (vk_ex r_ops x Lx) as (u & ->). apply (nonzero_vk (o := r_ops)) in Nx. destruct Nx as (i & Hi & Hu).
      rewrite (v_dot_m_mk r_field) in H by lia. apply Ok_inj in H. exists u. split; [exists i; auto|].
      intros k Hk. exact (@vk_inj _ N _ _ H k Hk).
  Qed.
  (** It is the product exactly when the rows are at right angles to each other. *)
  Theorem C112_orthogonal : forall g d, (forall u, In u m -> v_square_length r_ops u <> Ok 0) ->
    m_dot r_ops M N M m t = Ok g -> m_det r_ops M g = Ok d ->
    (d = rprod s <-> forall i j u v, row i = Some u -> row j = Some v -> i <> j -> v_dot r_ops N u v = Ok 0).
  Proof.
    intros g d. destruct (mk_ex r_ops Rm) as (f & ->). rewrite m_transpose_mk in Ht. apply Ok_inj in Ht. subst t. apply squares_mk in Hs; auto. subst s.
    intros P. rewrite (m_dot_mk r_field) by auto. intros E. apply Ok_inj in E. subst g. rewrite (m_det_mk r_field). intros E. apply Ok_inj in E. subst d.
    rewrite rprod_vk. transitivity (leibniz r_field M (gram N f) = lprod r_field (fun i => ip N (f i) (f i)) (seq 0 M)); [reflexivity|].
    rewrite gram_full.
    - split.
      + intros O i j u v Hu Hv Q. unfold mk in Hu, Hv. rewrite nth_error_vk in Hu, Hv.
        destruct (Nat.ltb_spec i M); [|discriminate]. destruct (Nat.ltb_spec j M); [|discriminate]. injection Hu as <-. injection Hv as <-.
        rewrite (v_dot_vk r_field) by auto. f_equal. apply O; auto.
      + intros O i j Hi Hj Q. specialize (O i j (vk N (f i)) (vk N (f j))). unfold mk in O. rewrite !nth_error_vk in O.
        apply Nat.ltb_lt in Hi, Hj. rewrite Hi, Hj in O. specialize (O eq_refl eq_refl Q). rewrite (v_dot_vk r_field) in O by auto. apply Ok_inj in O. exact O.
    - intros i Hi. assert (K := ip_ge0 N (f i)). destruct (Req_dec (ip N (f i) (f i)) 0) as [Z|Z]; [|lra]. exfalso.
      apply (P (vk N (f i))).
      + unfold mk. apply (nth_error_In _ i). rewrite nth_error_vk. apply Nat.ltb_lt in Hi. rewrite Hi. reflexivity.
      + rewrite (v_square_length_vk r_field) by auto. f_equal. exact Z.
  Qed.
End C112.

(** ** Square matrices: Hadamard *)
Section Hadamard.
  Context (N : nat) (m : list (list R)) (d : R) (Rm : rect N N m) (Hd : m_det r_ops N m = Ok d).
  (** The product with the transpose has det d^2. *)
  Theorem C112_gram_square : forall t, (0 < N)%nat -> m_transpose N N m = Ok t -> (let! g := m_dot r_ops N N N m t in m_det r_ops N g) = Ok (d * d).
  Proof.
    intros t HN Ht. destruct (mk_ex r_ops Rm) as (f & ->). rewrite m_transpose_mk in Ht. apply Ok_inj in Ht. subst t.
    rewrite (m_det_mk r_field) in Hd. apply Ok_inj in Hd. subst d.
    rewrite (m_dot_mk r_field) by auto. cbn [bind]. rewrite (m_det_mk r_field). f_equal. exact (gram_square N f).
  Qed.
  (** det squared is at most the product of the squared lengths of the rows. *)
  Theorem C112_rows_squared : forall s, map_res (v_square_length r_ops) m = Ok s -> d * d <= rprod s.
  Proof.
    intros s Hs. destruct (mk_ex r_ops Rm) as (f & ->). rewrite (m_det_mk r_field) in Hd. apply Ok_inj in Hd. subst d.
    destruct (Nat.eq_dec N 0) as [->|Q]. { cbn in Hs. apply Ok_inj in Hs. subst s. cbn. lra. }
    apply squares_mk in Hs; [|lia]. subst s. rewrite rprod_vk, <- gram_square. apply gram_range.
  Qed.
  Lemma abs_le_sqrt : forall x y, x * x <= y -> Rabs x <= sqrt y.
  Proof. intros x y H. rewrite <- sqrt_Rsqr_abs. apply sqrt_le_1_alt. exact H. Qed.
  Lemma sqrt_lprod : forall f l, (forall i : nat, In i l -> 0 <= f i) -> sqrt (lprod r_field f l) = lprod r_field (fun i => sqrt (f i)) l.
  Proof.
    induction l as [|a l IH]; intros H. { apply sqrt_1. } change (sqrt (f a * lprod r_field f l) = sqrt (f a) * lprod r_field (fun i => sqrt (f i)) l). rewrite <- IH by (intros; apply H; right; auto). apply sqrt_mult; [apply H; left; auto|].
    apply lprod_ge0. intros. apply H. right. auto.
  Qed.
  (** |det| is at most the product of the lengths of the rows. *)
  Theorem C112_rows : forall l, map_res (v_length r_ops sqrt) m = Ok l -> Rabs d <= rprod l.
  Proof.
    intros l Hl. destruct (mk_ex r_ops Rm) as (f & ->). rewrite (m_det_mk r_field) in Hd. apply Ok_inj in Hd. subst d.
    destruct (Nat.eq_dec N 0) as [->|Q]. { cbn in Hl. apply Ok_inj in Hl. subst l. cbn. rewrite Rabs_pos_eq; lra. }
    apply lengths_mk in Hl; [|lia]. subst l. rewrite rprod_vk.
    rewrite <- (@sqrt_lprod (fun i => ip N (f i) (f i))) by (intros; apply ip_ge0). apply abs_le_sqrt. rewrite <- gram_square. apply gram_range.
  Qed.
End Hadamard.
(** ... and of the columns. *)
Theorem C112_columns : forall N m t d l, rect N N m -> m_det r_ops N m = Ok d -> m_transpose N N m = Ok t ->
  map_res (v_length r_ops sqrt) t = Ok l -> Rabs d <= rprod l.
Proof.
  intros N m t d l Rm Hd Ht Hl. destruct (mk_ex r_ops Rm) as (f & ->). rewrite m_transpose_mk in Ht. apply Ok_inj in Ht. subst t.
  apply (@C112_rows N (mk N N (fun i j => f j i))); auto. { apply rect_mk. }
  rewrite (m_det_mk r_field) in Hd |- *. rewrite <- Hd. f_equal. apply leibniz_transpose.
Qed.
(** Equality for rows none of which is zero: exactly when they are at right angles to each other. *)
Theorem C112_rectangular : forall N m d l, rect N N m -> m_det r_ops N m = Ok d ->
  map_res (v_length r_ops sqrt) m = Ok l -> (forall u, In u m -> v_length r_ops sqrt u <> Ok 0) ->
  (Rabs d = rprod l <-> forall i j u v, nth_error m i = Some u -> nth_error m j = Some v -> i <> j -> v_dot r_ops N u v = Ok 0).
Proof.
  intros N m d l Rm Hd Hl P. destruct (Nat.eq_dec N 0) as [->|Q].
  { destruct (mk_ex r_ops Rm) as (f & ->). cbn in Hl. apply Ok_inj in Hl. subst l. cbn in Hd. apply Ok_inj in Hd. subst d. cbn. split; intros.
    - destruct i; discriminate.
    - apply Rabs_pos_eq. lra. }
  destruct (mk_ex r_ops Rm) as (f & ->). assert (HN : (0 < N)%nat) by lia.
  assert (K : exists s, map_res (v_square_length r_ops) (mk N N f) = Ok s).
  { clear -HN. unfold mk, vk at 1. induction (seq 0 N) as [|a q IH]. { exists []. reflexivity. }
    destruct IH as (s & IH). cbn [map map_res]. rewrite IH. rewrite (v_square_length_vk r_field (f a) HN). eexists. reflexivity. }
  destruct K as (s & Hs). assert (Es := @squares_mk N N f s HN Hs). apply lengths_mk in Hl; auto. subst l.
  rewrite <- (@C112_orthogonal N N (mk N N f) (mk N N (fun i j => f j i)) s HN Rm (m_transpose_mk _ _ _) Hs (mk N N (gram N f)) (d * d)).
  - subst s. rewrite !rprod_vk. rewrite <- (@sqrt_lprod (fun i => ip N (f i) (f i))) by (intros; apply ip_ge0).
    assert (G : 0 <= lprod r_field (fun i => ip N (f i) (f i)) (seq 0 N)) by (apply lprod_ge0; intros; apply ip_ge0).
    set (y := lprod r_field (fun i => ip N (f i) (f i)) (seq 0 N)) in *. split.
    + intros E. rewrite <- (sqrt_sqrt y G), <- E. unfold Rabs. destruct (Rcase_abs d); ring.
    + intros E. rewrite <- E. symmetry. apply sqrt_Rsqr_abs.
  - intros u Hu E. apply (P u Hu). unfold v_length. rewrite E. cbn [bind]. rewrite sqrt_0. reflexivity.
  - rewrite (m_dot_mk r_field) by auto. reflexivity.
  - rewrite (m_det_mk r_field) in Hd |- *. apply Ok_inj in Hd. subst d. f_equal. apply gram_square.
Qed.
(** Entries of absolute value at most b: |det| <= (b sqrt N)^N. *)
Theorem C112_entries : forall N m d b, rect N N m -> m_det r_ops N m = Ok d -> Forall (Forall (fun x => Rabs x <= b)) m ->
  Rabs d <= (b * sqrt (INR N)) ^ N.
Proof.
  intros N m d b Rm Hd Fm. destruct (mk_ex r_ops Rm) as (f & ->). rewrite (m_det_mk r_field) in Hd. apply Ok_inj in Hd. subst d.
  destruct (Nat.eq_dec N 0) as [->|Q]. { cbn. rewrite Rabs_pos_eq; lra. }
  assert (F : forall i j, (i < N)%nat -> (j < N)%nat -> Rabs (f i j) <= b).
  { intros i j Hi Hj. rewrite Forall_forall in Fm. specialize (Fm (vk N (f i))). assert (I : In (vk N (f i)) (mk N N f)).
    { apply (nth_error_In _ i). unfold mk. rewrite nth_error_vk. apply Nat.ltb_lt in Hi. rewrite Hi. reflexivity. }
    specialize (Fm I). rewrite Forall_forall in Fm. apply Fm. apply (nth_error_In _ j). rewrite nth_error_vk. apply Nat.ltb_lt in Hj. rewrite Hj. reflexivity. }
  assert (B : 0 <= b) by (eapply Rle_trans; [apply Rabs_pos|apply (F 0%nat 0%nat); lia]).
  assert (I : forall i, (i < N)%nat -> ip N (f i) (f i) <= INR N * (b * b)).
  { intros i Hi. unfold ip. assert (K : forall n, (n <= N)%nat -> sum n (fun k => f i k * f i k) <= INR n * (b * b)); [|apply K; lia].
    induction n as [|n IH]; intros Hn. { cbn. lra. } rewrite S_INR. cbn [bigsum]. assert (K := F i n Hi ltac:(lia)). specialize (IH ltac:(lia)).
    assert (f i n * f i n <= b * b). { assert (0 <= Rabs (f i n)) by apply Rabs_pos. rewrite <- (Rabs_pos_eq (f i n * f i n)) by nra. rewrite Rabs_mult. apply Rmult_le_compat; auto. }
    cbn in *. lra. }
  assert (E : (b * sqrt (INR N)) ^ N = sqrt (lprod r_field (fun _ => INR N * (b * b)) (seq 0 N))).
  { assert (S0 : sqrt (INR N * (b * b)) = b * sqrt (INR N)). { rewrite sqrt_mult; [|apply pos_INR|nra]. rewrite sqrt_square by auto. ring. }
    rewrite (@sqrt_lprod (fun _ => INR N * (b * b))). { rewrite S0. rewrite <- (seq_length N 0) at 2. generalize (seq 0 N). induction l as [|a l IH]; cbn; [reflexivity|].
      rewrite IH. reflexivity. }
    intros. apply Rmult_le_pos; [apply pos_INR|nra]. }
  rewrite E. apply abs_le_sqrt. rewrite <- gram_square. eapply Rle_trans; [apply gram_range|]. apply lprod_le. intros i Hi. apply in_seq in Hi.
  split; [apply ip_ge0|apply I; lia].
Qed.

(** ** Integers *)
Definition zprod (l : list Z) : Z := fold_right Z.mul 1%Z l.
Lemma IZR_hom : hom IZR z_ops r_ops.
Proof. constructor; cbn; intros; unfold ok1, ok2; auto; f_equal; symmetry; [apply plus_IZR|apply minus_IZR|apply mult_IZR|apply opp_IZR]. Qed.
Lemma map_IZR_squares : forall N m s, Forall (fun u => length u = N) m -> map_res (v_square_length z_ops) m = Ok s ->
  map_res (v_square_length r_ops) (map (map IZR) m) = Ok (map IZR s).
Proof.
  intros N m. induction m as [|u m IH]; intros s F E; cbn [map_res map] in *. { apply Ok_inj in E. subst s. reflexivity. }
  inversion F; subst. rewrite (C72_v_square_length IZR_hom u eq_refl).
  destruct (v_square_length z_ops u) as [x| | |]; cbn [bind] in E; try discriminate.
  destruct (map_res (v_square_length z_ops) m) as [q| | |]; cbn [bind] in E; try discriminate. apply Ok_inj in E. subst s.
  cbn [rmap bind]. rewrite (IH q); auto.
Qed.
Lemma rprod_IZR : forall s, rprod (map IZR s) = IZR (zprod s).
Proof. induction s as [|x s IH]; [reflexivity|]. change (IZR x * rprod (map IZR s) = IZR (x * zprod s)). rewrite mult_IZR, IH. reflexivity. Qed.
Theorem C112_integer : forall N m d s, rect N N m -> m_det z_ops N m = Ok d -> map_res (v_square_length z_ops) m = Ok s -> (d * d <= zprod s)%Z.
Proof.
  intros N m d s Rm Hd Hs. apply le_IZR. rewrite mult_IZR, <- rprod_IZR. apply (@C112_rows_squared N (map (map IZR) m)).
  - destruct Rm as (L & F). split; [rewrite map_length; auto|]. rewrite Forall_map. eapply Forall_impl; [|exact F]. intros. rewrite map_length. auto.
  - rewrite (C72_m_det IZR_hom) by auto. rewrite Hd. reflexivity.
  - destruct Rm as (L & F). eapply map_IZR_squares; eauto.
Qed.

(** A release build, where arithmetic wraps around modulo 2^w, returns the exact determinant whenever the product of the
    lengths of the rows is below 2^(w-1) - also if sums and products on the way do not fit. *)
Theorem C112_release : forall w N m s, (2 <= w)%Z -> rect N N m -> Forall (Forall (in_word true w)) m ->
  map_res (v_square_length z_ops) m = Ok s -> (zprod s < 2 ^ (w - 1) * 2 ^ (w - 1))%Z ->
  exists d, m_det z_ops N m = Ok d /\ m_det (wrapping_ops true w) N m = Ok d.
Proof.
  intros w N m s Hw Rm Fm Hs B. destruct (mk_ex z_ops Rm) as (f & Ef). pose proof (m_det_mk z_ring N f) as Hd. rewrite <- Ef in Hd.
  eexists. split; [exact Hd|]. rewrite (C71_m_det (signed := true) Hw) by auto. rewrite Hd. cbn [rmap bind]. f_equal. apply wrap_id; auto.
  pose proof (C112_integer Rm Hd Hs) as K. set (d := leibniz z_ring N f) in *. clearbody d.
  assert (P : (0 < 2 ^ (w - 1))%Z) by (apply Z.pow_pos_nonneg; lia). unfold in_word, int_min, int_max. nia.
Qed.
(** ... in particular for entries of absolute value at most b with (N b^2)^N < 2^(2 w - 2). *)
Theorem C112_release_entries : forall w N m b, (2 <= w)%Z -> rect N N m -> Forall (Forall (fun x => - b <= x <= b)%Z) m ->
  (0 <= b < 2 ^ (w - 1))%Z -> ((Z.of_nat N * (b * b)) ^ Z.of_nat N < 2 ^ (w - 1) * 2 ^ (w - 1))%Z ->
  exists d, m_det z_ops N m = Ok d /\ m_det (wrapping_ops true w) N m = Ok d.
Proof.
  intros w N m b Hw Rm Fm Hb B.
  assert (K : exists s, map_res (v_square_length z_ops) m = Ok s /\ length s = length m /\ Forall (fun x => 0 <= x <= Z.of_nat N * (b * b))%Z s).
  { destruct (Nat.eq_dec N 0) as [->|Q]. { destruct Rm as (L & _). apply length_zero_iff_nil in L. subst m. exists []. repeat split; auto. }
    destruct Rm as (_ & F). clear B. induction m as [|u m IH]. { exists []. repeat split; auto. }
    inversion F; subst. inversion Fm; subst. destruct (IH H2 H3) as (s & E & Ls & Fs). 
    destruct (vk_ex z_ops u eq_refl) as (g & Eg). cbn [map_res]. rewrite E.
    assert (V : v_square_length z_ops u = Ok (bigsum z_ring (length u) (fun i => (g i * g i)%Z))).
    { rewrite Eg at 1. rewrite (v_square_length_vk z_ring) by lia. reflexivity. }
    rewrite V. cbn [bind]. eexists. split; [reflexivity|]. split; [cbn; auto|]. constructor; auto.
    assert (W : forall n, (n <= length u)%nat -> (0 <= bigsum z_ring n (fun i => (g i * g i)%Z) <= Z.of_nat n * (b * b))%Z); [|apply W; lia].
    induction n as [|n IHn]; intros Hn. { cbn. lia. } specialize (IHn ltac:(lia)). cbn [bigsum].
    assert (G : (- b <= g n <= b)%Z).
    { rewrite Forall_forall in H1. apply H1. apply (nth_error_In _ n). rewrite Eg. rewrite nth_error_vk. replace (n <? length u)%nat with true by (symmetry; apply Nat.ltb_lt; lia). reflexivity. }
    assert (0 <= g n * g n <= b * b)%Z by nia. rewrite Nat2Z.inj_succ.
    change (0 <= bigsum z_ring n (fun i => g i * g i) + g n * g n <= Z.succ (Z.of_nat n) * (b * b))%Z. lia. }
  destruct K as (s & Hs & Ls & Fs). assert (Lm : length m = N) by apply Rm. rewrite Lm in Ls. apply (C112_release (s := s)); auto.
  - eapply Forall_impl; [|exact Fm]. intros u. apply Forall_impl. intros x Hx. unfold in_word, int_min, int_max. lia.
  - eapply Z.le_lt_trans; [|exact B]. rewrite <- Ls at 2. set (c := (Z.of_nat N * (b * b))%Z) in *. clearbody c. clear -Fs.
    assert (J : (0 <= zprod s <= c ^ Z.of_nat (length s))%Z); [|lia]. induction Fs as [|x s Hx Fs IH]; cbn [length zprod fold_right]. { cbn. lia. }
    rewrite Nat2Z.inj_succ, Z.pow_succ_r by lia. fold (zprod s). nia.
Qed.

(** ** Debug builds: no overflow either *)
Section Debug.
  Local Open Scope Z_scope.
  Local Notation zlsum := (lsum z_ring).
  Local Notation zlprod := (lprod z_ring).
  Lemma zlprod_mono : forall f g (l : list nat), (forall i, In i l -> 0 <= f i <= g i) -> 0 <= zlprod f l <= zlprod g l.
  Proof.
    induction l as [|a l IH]; intros H. { cbn. lia. }
    change (0 <= f a * zlprod f l <= g a * zlprod g l). specialize (IH (fun i Hi => H i (or_intror Hi))). specialize (H a (or_introl eq_refl)). nia.
  Qed.
  Lemma zprod_map : forall F (l : list nat), zprod (map F l) = zlprod F l.
  Proof.
    intros F. induction l as [|a l IH]; [reflexivity|]. cbn [map zprod fold_right lprod]. fold (zprod (map F l)). rewrite IH. reflexivity.
  Qed.
  Lemma pdet_nth : forall (A : nat -> nat -> Z) n rows cols, length rows = n -> length cols = n ->
    pdet z_ring A rows cols = leibniz z_ring n (fun a b => A (nth a rows 0%nat) (nth b cols 0%nat)).
  Proof.
    intros A n rows cols Lr Lc. rewrite <- pdet_leibniz.
    rewrite (pdet_map_cols z_ring (fun a b => A (nth a rows 0%nat) b) (fun b => nth b cols 0%nat)).
    rewrite (pdet_map_rows z_ring A (fun a => nth a rows 0%nat)).
    assert (X : forall l, map (fun a => nth a l 0%nat) (seq 0 (length l)) = l).
    { induction l as [|x l IHl]; auto. cbn [length seq map]. f_equal. rewrite <- seq_shift, map_map. exact IHl. }
    f_equal; [rewrite <- Lr|rewrite <- Lc]; symmetry; apply X.
  Qed.
  Lemma hadamard_Z : forall n g, leibniz z_ring n g * leibniz z_ring n g <= zlprod (fun a => zlsum (fun b => g a b * g a b) (seq 0 n)) (seq 0 n).
  Proof.
    intros n g. destruct (Nat.eq_dec n 0) as [->|Q]. { cbn. lia. }
    assert (E : map_res (v_square_length z_ops) (mk n n g) = Ok (vk n (fun a => zlsum (fun b => g a b * g a b) (seq 0 n)))).
    { assert (X : forall l, map_res (v_square_length z_ops) (map (fun i => vk n (g i)) l) = Ok (map (fun a => zlsum (fun b => g a b * g a b) (seq 0 n)) l)); [|apply X].
      induction l as [|a l IH]; [reflexivity|]. cbn [map map_res].
      rewrite (v_square_length_vk z_ring) by lia. cbn [bind]. rewrite IH. cbn [bind]. do 2 f_equal. symmetry. apply (lsum_seq z_ring). }
    pose proof (C112_integer (rect_mk n n g) (m_det_mk z_ring n g) E) as H. eapply Z.le_trans; [exact H|]. apply Z.eq_le_incl.
    apply zprod_map.
  Qed.
  Context (w : Z) (Hw : 2 <= w).
  Local Notation K := (2 ^ (w - 1)).
  Local Notation chk := (checked_ops true w).
  Lemma check_sq : forall x B, x * x <= B -> B < K * K -> check true w x = Ok x.
  Proof.
    intros x B H1 H2. unfold check. replace (in_wordb true w x) with true; auto. symmetry. unfold in_wordb.
    assert (P : 0 < K) by (apply Z.pow_pos_nonneg; lia). apply andb_true_intro. unfold int_min, int_max. split; apply Z.leb_le; nia.
  Qed.
  Definition big (A : nat -> nat -> Z) (cols : list nat) (i : nat) : Z := Z.max 1 (zlsum (fun c => A i c * A i c) cols).
  Lemma zlsum_ge0 : forall f (l : list nat), (forall i, 0 <= f i) -> 0 <= zlsum f l.
  Proof. intros f l H. induction l as [|a l IH]. { cbn. lia. } change (0 <= f a + zlsum f l). specialize (H a). lia. Qed.
  Lemma zlsum_remove : forall f (l : list nat) k, (forall i, 0 <= f i) -> zlsum f (remove_at k l) <= zlsum f l.
  Proof.
    intros f l k H. revert k. induction l as [|a l IH]; intros [|k]; try (cbn; lia).
    - change (zlsum f l <= f a + zlsum f l). specialize (H a). lia.
    - change (f a + zlsum f (remove_at k l) <= f a + zlsum f l). specialize (IH k). lia.
  Qed.
  Lemma big_remove : forall A cols k rows, 0 <= zlprod (big A (remove_at k cols)) rows <= zlprod (big A cols) rows.
  Proof.
    intros. apply zlprod_mono. intros i _. unfold big.
    pose proof (@zlsum_remove (fun c => A i c * A i c) cols k ltac:(intros; nia)). lia.
  Qed.
  Lemma big_pos : forall A cols rows, 1 <= zlprod (big A cols) rows.
  Proof. intros. induction rows as [|a l IH]. { cbn. lia. } change (1 <= big A cols a * zlprod (big A cols) l). assert (1 <= big A cols a) by (unfold big; lia). nia. Qed.
  Lemma lprod_nth : forall F rows, zlprod F rows = zlprod (fun a => F (nth a rows 0%nat)) (seq 0 (length rows)).
  Proof.
    intros F rows. induction rows as [|x l IH]; [reflexivity|]. cbn [length seq]. change (F x * zlprod F l = F x * zlprod (fun a => F (nth a (x :: l) 0%nat)) (seq 1 (length l))).
    f_equal. rewrite IH, <- seq_shift, (lprod_map z_ring). reflexivity.
  Qed.
  Lemma lsum_nth : forall F cols, zlsum F cols = zlsum (fun a => F (nth a cols 0%nat)) (seq 0 (length cols)).
  Proof.
    intros F rows. induction rows as [|x l IH]; [reflexivity|]. cbn [length seq]. change (F x + zlsum F l = F x + zlsum (fun a => F (nth a (x :: l) 0%nat)) (seq 1 (length l))).
    f_equal. rewrite IH, <- seq_shift, (lsum_map z_ring). reflexivity.
  Qed.
  Lemma pdet_big : forall A rows cols, length rows = length cols -> pdet z_ring A rows cols * pdet z_ring A rows cols <= zlprod (big A cols) rows.
  Proof.
    intros A rows cols L. rewrite (@pdet_nth A (length cols)) by auto. eapply Z.le_trans; [apply hadamard_Z|]. rewrite (lprod_nth (big A cols)), L.
    apply zlprod_mono. intros a _. unfold big. rewrite (lsum_nth _ cols). split; [apply zlsum_ge0; intros; nia|lia].
  Qed.
  (** A partial sum of the expansion is the determinant of the matrix with the rest of the row set to zero. *)
  Lemma partial_big : forall A i rows cols k, S (length rows) = length cols -> (k <= length cols)%nat ->
    let P := zlsum (fun k => A i (nth k cols 0%nat) * signed z_ring k (pdet z_ring A rows (remove_at k cols))) (seq 0 k) in
    P * P <= zlprod (big A cols) (i :: rows).
  Proof.
    intros A i rows cols k L Hk P. set (n := length rows) in *.
    set (h := fun a b => match a with O => if (b <? k)%nat then A i (nth b cols 0%nat) else 0 | S a => A (nth a rows 0%nat) (nth b cols 0%nat) end).
    assert (E : P = leibniz z_ring (S n) h).
    { rewrite <- pdet_leibniz. cbn [seq pdet length]. rewrite seq_length.
      assert (S1 : seq 0 (S n) = seq 0 k ++ seq k (S n - k)) by (rewrite <- seq_app; f_equal; lia).
      rewrite (@lsum_ext _ _ z_ring _ _ (fun b => if (b <? k)%nat then A i (nth b cols 0%nat) * signed z_ring b (pdet z_ring A rows (remove_at b cols)) else 0) (0%nat :: seq 1 n)).
      - change (0%nat :: seq 1 n) with (seq 0 (S n)). rewrite S1, lsum_app.
        rewrite (@lsum_ext _ _ z_ring _ _ (fun b => A i (nth b cols 0%nat) * signed z_ring b (pdet z_ring A rows (remove_at b cols))) (seq 0 k)).
        2: { intros b Hb. apply in_seq in Hb. replace (b <? k)%nat with true by (symmetry; apply Nat.ltb_lt; lia). reflexivity. }
        rewrite (@lsum_ext _ _ z_ring _ _ (fun b => 0) (seq k (S n - k))).
        2: { intros b Hb. apply in_seq in Hb. replace (b <? k)%nat with false by (symmetry; apply Nat.ltb_ge; lia). reflexivity. }
        change (fun _ : nat => 0) with (fun _ : nat => o_zero z_ops). rewrite lsum_zero. unfold P. symmetry. apply Z.add_0_r.
      - intros b Hb. change (0%nat :: seq 1 n) with (seq 0 (S n)) in *. apply in_seq in Hb. rewrite (@seq_nth (S n) 0%nat b 0%nat) by lia. cbn [Nat.add]. unfold h at 1. destruct (b <? k)%nat; [|reflexivity].
        assert (YZ : pdet z_ring h (seq 1 n) (remove_at b (seq 0 (S n))) = pdet z_ring A rows (remove_at b cols)); [|rewrite YZ; reflexivity].
        rewrite <- (seq_shift n 0), <- (pdet_map_rows z_ring h S).
        rewrite (@pdet_nth A n rows (remove_at b cols)); auto; [|rewrite remove_at_length by lia; lia].
        rewrite (@pdet_nth (fun a => h (S a)) n) by (try rewrite remove_at_length; rewrite ?seq_length; lia).
        apply leibniz_ext. intros x y Hx Hy. unfold h. rewrite seq_nth by auto. rewrite !nth_remove_at. f_equal. f_equal. rewrite seq_nth; auto.
        unfold skip. destruct (y <? b)%nat; lia. }
    rewrite E. eapply Z.le_trans; [apply hadamard_Z|]. rewrite (lprod_nth (big A cols)). cbn [length]. fold n.
    apply zlprod_mono. intros a Ha. apply in_seq in Ha. unfold big. rewrite (lsum_nth _ cols), <- L.
    split; [apply zlsum_ge0; intros; nia|]. eapply Z.le_trans; [|apply Z.le_max_r].
    generalize (seq 0 (S n)). intros l. induction l as [|b l IH]; [cbn; lia|].
    change (h a b * h a b + zlsum (fun b => h a b * h a b) l <= A (nth a (i :: rows) 0%nat) (nth b cols 0%nat) * A (nth a (i :: rows) 0%nat) (nth b cols 0%nat) +
      zlsum (fun b => A (nth a (i :: rows) 0%nat) (nth b cols 0%nat) * A (nth a (i :: rows) 0%nat) (nth b cols 0%nat)) l).
    assert (h a b * h a b <= A (nth a (i :: rows) 0%nat) (nth b cols 0%nat) * A (nth a (i :: rows) 0%nat) (nth b cols 0%nat)); [|lia].
    unfold h. destruct a as [|a]; cbn [nth]; [|lia]. destruct (b <? k)%nat; nia.
  Qed.
  Lemma rdet_debug : forall N m, rect N N m -> forall rows cols,
    length rows = length cols -> (forall x, In x rows -> (x < N)%nat) -> (forall x, In x cols -> (x < N)%nat) ->
    zlprod (big (mget z_ops m) cols) rows < K * K -> rdet chk m rows cols = Ok (pdet z_ring (mget z_ops m) rows cols).
  Proof.
    intros N m Rm. set (A := mget z_ops m). induction rows as [|i rows IH]; intros cols L Hr Hc B; [reflexivity|].
    cbn [rdet pdet]. set (T := fun k => A i (nth k cols 0%nat) * signed z_ring k (pdet z_ring A rows (remove_at k cols))).
    assert (G : forall j k, (k + j <= length cols)%nat ->
      fold_res (fun a k =>
          let! x := m_index m (i, nth k cols 0%nat) in
          let! c := rdet chk m rows (remove_at k cols) in
          let! c1 := rneg chk k c in
          let! p := o_mul chk x c1 in
          o_add chk a p) (zlsum T (seq 0 k)) (seq k j) = Ok (zlsum T (seq 0 (k + j)))).
    { induction j as [|j IHj]; intros k Hk. { cbn [seq fold_res]. rewrite Nat.add_0_r. reflexivity. }
      cbn [seq fold_res]. assert (Hn : (nth k cols 0 < N)%nat) by (apply Hc; apply nth_In; lia).
      destruct (m_index_spec i (nth k cols 0%nat) Rm) as (X & _).
      destruct X as (x & Ex1 & Ex & _); [split; [apply Hr; left; auto|auto]|]. rewrite Ex. cbn [bind].
      assert (Ax : x = A i (nth k cols 0%nat)) by (symmetry; apply mget_elt; auto).
      assert (Lk : length rows = length (remove_at k cols)) by (rewrite remove_at_length by lia; cbn in L; lia).
      change (big A cols i * zlprod (big A cols) rows < K * K) in B.
      assert (B1 : 1 <= big A cols i) by (unfold big; lia). pose proof (big_remove A cols k rows) as B2. pose proof (big_pos A cols rows) as B3.
      rewrite IH; auto.
      2: { intros. apply Hr. right. auto. }
      2: { intros y Hy. apply Hc. clear -Hy. revert k Hy. induction cols; intros [|k] Hy; simpl in *; auto. destruct Hy; auto. right. eapply IHcols. eauto. }
      2: { nia. }
      cbn [bind]. set (c := pdet z_ring A rows (remove_at k cols)).
      assert (C : c * c <= zlprod (big A cols) rows) by (eapply Z.le_trans; [apply (@pdet_big A rows (remove_at k cols) Lk)|lia]).
      assert (E1 : rneg chk k c = Ok (signed z_ring k c)).
      { rewrite <- (rneg_ok z_ring). unfold rneg. destruct (_ =? _)%nat; auto. cbn [o_neg checked_ops]. rewrite (@check_sq (- c) (zlprod (big A cols) rows)); auto; nia. }
      rewrite E1. cbn [bind o_mul o_add checked_ops]. rewrite Ax. change (A i (nth k cols 0%nat) * signed z_ring k c) with (T k).
      assert (Q : signed z_ring k c * signed z_ring k c = c * c) by (unfold signed; destruct (Nat.even k); cbn; ring).
      assert (X2 : A i (nth k cols 0%nat) * A i (nth k cols 0%nat) <= big A cols i).
      { unfold big. eapply Z.le_trans; [|apply Z.le_max_r]. assert (I : In (nth k cols 0%nat) cols) by (apply nth_In; lia). clear -I.
        induction cols as [|y l IH]; [destruct I|]. change (A i (nth k (y :: l) 0%nat) * A i (nth k (y :: l) 0%nat) <= A i y * A i y + zlsum (fun c => A i c * A i c) l).
        pose proof (@zlsum_ge0 (fun c => A i c * A i c) l ltac:(intros; nia)) as Z0. revert I. generalize (nth k (y :: l) 0%nat). intros z [->|I]; [lia|].
        assert (V : A i z * A i z <= zlsum (fun c => A i c * A i c) l); [|nia]. clear -I. induction l as [|y l IH]; [destruct I|].
        change (A i z * A i z <= A i y * A i y + zlsum (fun c => A i c * A i c) l). pose proof (@zlsum_ge0 (fun c => A i c * A i c) l ltac:(intros; nia)) as Z0.
        destruct I as [->|I]; [lia|]. specialize (IH I). nia. }
      assert (P2 : T k * T k <= big A cols i * zlprod (big A cols) rows).
      { unfold T. fold c. replace (A i (nth k cols 0%nat) * signed z_ring k c * (A i (nth k cols 0%nat) * signed z_ring k c))
          with (A i (nth k cols 0%nat) * A i (nth k cols 0%nat) * (signed z_ring k c * signed z_ring k c)) by ring. rewrite Q. apply Z.mul_le_mono_nonneg; nia. }
      rewrite (@check_sq (T k) _ P2 B). cbn [bind].
      assert (SS : zlsum T (seq 0 k) + T k = zlsum T (seq 0 (S k))).
      { rewrite seq_S, lsum_app. cbn [Nat.add]. change (zlsum T (seq 0 k) + T k = zlsum T (seq 0 k) + (T k + 0)). ring. }
      rewrite SS. rewrite (@check_sq (zlsum T (seq 0 (S k))) (big A cols i * zlprod (big A cols) rows)); auto.
      2: { apply (@partial_big A i rows cols (S k)); auto. lia. }
      cbn [bind]. rewrite IHj by lia. do 2 f_equal. f_equal. lia. }
    exact (G (length cols) 0%nat (Nat.le_refl _)).
  Qed.
  (** The debug build computes the determinant without overflow whenever the product of the lengths of the rows, those below
      one counted as one, is below 2^(w-1). *)
  Theorem C112_debug : forall N m s, rect N N m -> map_res (v_square_length z_ops) m = Ok s ->
    zprod (map (Z.max 1) s) < K * K -> exists d, m_det z_ops N m = Ok d /\ m_det chk N m = Ok d.
  Proof.
    intros N m s Rm Hs B. exists (leibniz z_ring N (mget z_ops m)). split; [apply m_det_leibniz; auto|].
    rewrite m_det_spec, (@rdet_debug N m Rm); try (intros x Hx; apply in_seq in Hx; lia); auto. { f_equal. apply pdet_leibniz. }
    eapply Z.le_lt_trans; [|exact B]. apply Z.eq_le_incl. destruct (mk_ex z_ops Rm) as (f & Ef).
    destruct (Nat.eq_dec N 0) as [->|Q]. { subst m. cbn in Hs. apply Ok_inj in Hs. subst s. reflexivity. }
    assert (Es : s = map (fun i => zlsum (fun c => mget z_ops m i c * mget z_ops m i c) (seq 0 N)) (seq 0 N)).
    { assert (X : forall l t, (forall i, In i l -> (i < N)%nat) -> map_res (v_square_length z_ops) (map (fun i => vk N (f i)) l) = Ok t ->
        t = map (fun i => zlsum (fun c => mget z_ops m i c * mget z_ops m i c) (seq 0 N)) l).
      { induction l as [|a l IH]; intros t Hl E; cbn [map map_res] in E. { apply Ok_inj in E. subst t. reflexivity. }
        rewrite (v_square_length_vk z_ring) in E by lia. cbn [bind] in E. destruct (map_res _ (map _ l)) as [t1| | |] eqn:E1; cbn [bind] in E; try discriminate.
        apply Ok_inj in E. subst t. cbn [map]. f_equal; [|apply IH; auto; intros; apply Hl; right; auto].
        rewrite lsum_seq. apply bigsum_ext. intros j Hj. rewrite Ef. rewrite !mget_mk; auto; apply Hl; left; auto. }
      apply X; [intros i Hi; apply in_seq in Hi; lia|]. rewrite Ef in Hs. exact Hs. }
    rewrite Es, map_map. symmetry. apply zprod_map.
  Qed.
End Debug.

(** ** Examples *)
(** The unit cube turned and stretched: rows (3, 4, 0), (-4, 3, 0), (0, 0, 2) are at right angles; 50 = 5 * 5 * 2. *)
Example C112_ex_box : forall d l, m_det r_ops 3 [[3; 4; 0]; [-4; 3; 0]; [0; 0; 2]] = Ok d ->
  map_res (v_length r_ops sqrt) [[3; 4; 0]; [-4; 3; 0]; [0; 0; 2]] = Ok l -> d = 50 /\ rprod l = 50.
Proof.
  intros d l Hd Hl. split.
  - rewrite (m_det_leibniz r_ring) in Hd by (repeat constructor). apply Ok_inj in Hd. subst d. cbn. ring.
  - cbn in Hl. apply Ok_inj in Hl. subst l. cbn.
    replace (3 * 3 + 4 * 4 + 0 * 0) with (5 * 5) by ring. replace (-4 * -4 + 3 * 3 + 0 * 0) with (5 * 5) by ring. replace (0 * 0 + 0 * 0 + 2 * 2) with (2 * 2) by ring.
    rewrite !sqrt_square by lra. ring.
Qed.
(** Two vectors: the Gram determinant is |u|^2 |v|^2 - (u.v)^2, so C112_gram contains the Cauchy-Schwarz inequality. *)
Example C112_ex_cauchy : m_dot z_ops 2 3 2 [[1; 2; 2]; [2; 0; 1]]%Z [[1; 2]; [2; 0]; [2; 1]]%Z = Ok [[9; 4]; [4; 5]]%Z /\
  m_det z_ops 2 [[9; 4]; [4; 5]]%Z = Ok 29%Z /\ map_res (v_square_length z_ops) [[1; 2; 2]; [2; 0; 1]]%Z = Ok [9; 5]%Z.
Proof. repeat split. Qed.
(** i8: the rows of the first matrix have lengths 3, 3 and sqrt 106, their product is 92.7 < 128: the debug build succeeds.
    In the second a row is zero, so det is 0 although a product on the way, 12 * 12, does not fit: the debug build panics,
    the release build returns 0. *)
Example C112_ex_i8 :
  map_res (v_square_length z_ops) [[1; 2; 2]; [2; 1; -2]; [9; -5; 0]]%Z = Ok [9; 9; 106]%Z /\ (9 * 9 * 106 < 2 ^ 7 * 2 ^ 7)%Z /\
  m_det (checked_ops true 8) 3 [[1; 2; 2]; [2; 1; -2]; [9; -5; 0]]%Z = Ok (-84)%Z /\
  m_det (checked_ops true 8) 3 [[0; 0; 0]; [12; 1; 1]; [1; 12; 12]]%Z = Panic /\
  m_det (wrapping_ops true 8) 3 [[0; 0; 0]; [12; 1; 1]; [1; 12; 12]]%Z = Ok 0%Z.
Proof. vm_compute. repeat split. Qed.

Print Assumptions C112_gram.
Print Assumptions C112_dependent.
Print Assumptions C112_orthogonal.
Print Assumptions C112_gram_square.
Print Assumptions C112_rows_squared.
Print Assumptions C112_rows.
Print Assumptions C112_columns.
Print Assumptions C112_rectangular.
Print Assumptions C112_entries.
Print Assumptions C112_integer.
Print Assumptions C112_release.
Print Assumptions C112_release_entries.
Print Assumptions C112_debug.
