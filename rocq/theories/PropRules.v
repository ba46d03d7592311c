(** C116, continued: what the dual numbers compute, in terms of the operations on reals: the rules of calculus. *)
From Coq Require Import Reals Lra Lia List.
From Verif Require Import SpecFacts VFacts VecProofs MFacts MatProofs AlgFacts SquareModel SpecDet DetFacts SqProofs ComplexModel MoebiusModel TransformModel SpecMachine RealInst RelFacts PropRel PropExact PropSquare SpecDual PropDual.
Import ListNotations.
Set Implicit Arguments.
Local Open Scope list_scope.

Definition d_add (x y : dual) : dual := (fst x + fst y, snd x + snd y)%R.
Definition d_sub (x y : dual) : dual := (fst x - fst y, snd x - snd y)%R.
Definition d_mul (x y : dual) : dual := (fst x * fst y, snd x * fst y + fst x * snd y)%R.
Definition d_opp (x : dual) : dual := (- fst x, - snd x)%R.
Lemma d_ring_theory : ring_theory (o_zero dual_ops) (o_one dual_ops) d_add d_mul d_sub d_opp eq.
Proof. constructor; intros; repeat match goal with p : dual |- _ => destruct p end; unfold d_add, d_mul, d_sub, d_opp; cbn; f_equal; ring. Qed.
Definition d_ring : CRing dual_ops :=
  @CRing_of_theory dual dual_ops d_add d_mul d_sub d_opp (fun _ _ => eq_refl) (fun _ _ => eq_refl) (fun _ _ => eq_refl) (fun _ => eq_refl) d_ring_theory.
Local Notation DR := d_ring.
Local Notation RR := r_ring.

Lemma map_vk : forall A B (h : A -> B) N f, map h (vk N f) = vk N (fun i => h (f i)).
Proof. intros. unfold vk. rewrite map_map. reflexivity. Qed.
Lemma map_mk : forall A B (h : A -> B) M N f, map (map h) (mk M N f) = mk M N (fun i j => h (f i j)).
Proof. intros. unfold mk. rewrite map_vk. apply vk_ext. intros. apply map_vk. Qed.
Lemma fst_sum : forall n f, fst (bigsum DR n f) = bigsum RR n (fun i => fst (f i)).
Proof. induction n; intros; cbn; auto. cbn in IHn. rewrite IHn. reflexivity. Qed.
Lemma snd_sum : forall n f, snd (bigsum DR n f) = bigsum RR n (fun i => snd (f i)).
Proof. induction n; intros; cbn; auto. cbn in IHn. rewrite IHn. reflexivity. Qed.
Lemma sum_S : forall n (f : nat -> R), bigsum RR (S n) f = r_add RR (bigsum RR n f) (f n).
Proof. reflexivity. Qed.

(** The product rule *)
Theorem C116_rule_dot : forall N u v r, length u = N -> length v = N -> v_dot dual_ops N u v = Ok r ->
  exists a b, v_dot r_ops N (v_rate u) (v_value v) = Ok a /\ v_dot r_ops N (v_value u) (v_rate v) = Ok b /\
    v_dot r_ops N (v_value u) (v_value v) = Ok (fst r) /\ snd r = (a + b)%R.
Proof.
  intros N u v r Lu Lv E. destruct N as [|n]; [rewrite v_dot_0 in E; discriminate|]. asfun dual_ops. unfold v_rate, v_value. rewrite !map_vk. rewrite (v_dot_vk DR) in E by lia. apply Ok_inj in E. subst r.
  rewrite !(v_dot_vk RR) by lia. do 2 eexists. split; [reflexivity|]. split; [reflexivity|]. split; [rewrite fst_sum; reflexivity|].
  rewrite snd_sum. exact (bigsum_add RR (S n) (fun i => (snd (f0 i) * fst (f i))%R) (fun i => (fst (f0 i) * snd (f i))%R)).
Qed.
Theorem C116_rule_matrix_product : forall L M N u v r, rect L M u -> rect M N v -> 0 < M -> m_dot dual_ops L M N u v = Ok r ->
  exists a b, m_dot r_ops L M N (m_rate u) (m_value v) = Ok a /\ m_dot r_ops L M N (m_value u) (m_rate v) = Ok b /\
    m_dot r_ops L M N (m_value u) (m_value v) = Ok (m_value r) /\ m_add r_ops L N a b = Ok (m_rate r).
Proof.
  intros L M N u v r Ru Rv HM E. asfun dual_ops. unfold m_rate, m_value, v_rate, v_value. rewrite !map_mk. rewrite (m_dot_mk DR) in E by auto. apply Ok_inj in E. subst r.
  rewrite !(m_dot_mk RR) by auto. do 2 eexists. split; [reflexivity|]. split; [reflexivity|]. rewrite !map_mk. split.
  - f_equal. apply mk_ext. intros. rewrite fst_sum. reflexivity.
  - rewrite (m_add_mk RR). f_equal. apply mk_ext. intros i j _ _. rewrite snd_sum. symmetry.
    exact (bigsum_add RR M (fun k => (snd (f0 i k) * fst (f k j))%R) (fun k => (fst (f0 i k) * snd (f k j))%R)).
Qed.
Theorem C116_rule_cross : forall u v r, length u = 3 -> length v = 3 -> v_cross3 dual_ops u v = Ok r ->
  exists a b, v_cross3 r_ops (v_rate u) (v_value v) = Ok a /\ v_cross3 r_ops (v_value u) (v_rate v) = Ok b /\ v_add r_ops 3 a b = Ok (v_rate r).
Proof.
  intros u v r Lu Lv E. destruct u as [|(u0 & u0') [|(u1 & u1') [|(u2 & u2') [|]]]]; try discriminate. destruct v as [|(v0 & v0') [|(v1 & v1') [|(v2 & v2') [|]]]]; try discriminate.
  apply Ok_inj in E. subst r. do 2 eexists. split; [reflexivity|]. split; [reflexivity|]. match goal with |- v_add _ _ ?a ?b = Ok ?c => let a' := eval lazy -[Rplus Rminus Rmult] in a in let b' := eval lazy -[Rplus Rminus Rmult] in b in let c' := eval lazy -[Rplus Rminus Rmult] in c in change (v_add r_ops 3 a' b' = Ok c') end.
  unfold v_add. rewrite v_zip_map_res by reflexivity. cbn [map2_res o_add r_ops ok2 bind]. do 2 f_equal; [ring|]. f_equal; [ring|]. f_equal. ring.
Qed.
Definition c_value (z : complex dual) : complex R := Cx (fst (re z)) (fst (im z)).
Definition c_rate (z : complex dual) : complex R := Cx (snd (re z)) (snd (im z)).
Definition q_value (z : quat dual) : quat R := Qt (fst (qw z)) (fst (qx z)) (fst (qy z)) (fst (qz z)).
Definition q_rate (z : quat dual) : quat R := Qt (snd (qw z)) (snd (qx z)) (snd (qy z)) (snd (qz z)).
Theorem C116_rule_complex : forall u v r, c_mul dual_ops u v = Ok r ->
  exists a b, c_mul r_ops (c_rate u) (c_value v) = Ok a /\ c_mul r_ops (c_value u) (c_rate v) = Ok b /\ c_add r_ops a b = Ok (c_rate r).
Proof.
  intros [(a & a') (b & b')] [(c & c') (d & d')] r E. apply Ok_inj in E. subst r. do 2 eexists. split; [reflexivity|]. split; [reflexivity|].
  lazy -[Rplus Rminus Rmult]. f_equal. f_equal; ring.
Qed.
Theorem C116_rule_quaternion : forall u v r, q_mul dual_ops u v = Ok r ->
  exists a b, q_mul r_ops (q_rate u) (q_value v) = Ok a /\ q_mul r_ops (q_value u) (q_rate v) = Ok b /\ q_add r_ops a b = Ok (q_rate r).
Proof.
  intros [(a & a') (b & b') (c & c') (d & d')] [(e & e') (f & f') (g & g') (h & h')] r E. apply Ok_inj in E. subst r. do 2 eexists. split; [reflexivity|]. split; [reflexivity|].
  lazy -[Rplus Rminus Rmult]. f_equal. f_equal; ring.
Qed.

(** The determinant: its derivative by element (i, j) is the cofactor. *)
Lemma real_hom : hom (fun x : R => (x, 0%R)) r_ops dual_ops.
Proof. constructor; intros; cbn; auto; do 2 f_equal; ring. Qed.
Lemma leibniz_fst : forall N f, fst (leibniz DR N f) = leibniz RR N (fun i j => fst (f i j)).
Proof.
  intros. pose proof (@C72_m_det _ _ _ _ _ dual_hom N (mk N N f) (rect_mk N N f)) as H. rewrite map_mk, (m_det_mk RR), (m_det_mk DR) in H. apply Ok_inj in H. symmetry. exact H.
Qed.
Lemma leibniz_real : forall N f, leibniz DR N (fun i j => (f i j, 0%R)) = (leibniz RR N f, 0%R).
Proof.
  intros. pose proof (@C72_m_det _ _ _ _ _ real_hom N (mk N N f) (rect_mk N N f)) as H. rewrite map_mk, (m_det_mk RR), (m_det_mk DR) in H. apply Ok_inj in H. exact H.
Qed.
Lemma adjf_fst : forall N f i j, fst (adjf DR N f i j) = adjf RR N (fun i j => fst (f i j)) i j.
Proof. intros. unfold adjf, signed. destruct (Nat.even (i + j)); cbn [r_opp d_ring CRing_of_theory c_ring]; [apply leibniz_fst|]. pose proof (leibniz_fst (N - 1) (minor j i f)) as H. unfold minor in *. cbn in *. rewrite H. reflexivity. Qed.
Lemma jacobi : forall n (A H : nat -> nat -> R),
  snd (leibniz DR (S n) (fun i j => (A i j, H i j))) = bigsum RR (S n) (fun k => bigsum RR (S n) (fun j => (adjf RR (S n) A j k * H k j)%R)).
Proof.
  intros n A H. set (B := fun k i j => (A i j, if i <? k then H i j else 0%R) : dual).
  assert (E : forall k, k <= S n -> snd (leibniz DR (S n) (B k)) = bigsum RR k (fun k => bigsum RR (S n) (fun j => (adjf RR (S n) A j k * H k j)%R))).
  { induction k as [|k IH]; intros Hk.
    - unfold B. cbn [Nat.ltb Nat.leb]. rewrite leibniz_real. reflexivity.
    - assert (Ek : forall j, adjf DR (S n) (B (S k)) j k = adjf DR (S n) (B k) j k).
      { intros j. unfold adjf. f_equal. apply leibniz_ext. intros a b Ha Hb. unfold minor, B, skip. destruct (a <? k) eqn:L; [|apply Nat.ltb_ge in L].
        - apply Nat.ltb_lt in L. replace (a <? S k) with true by (symmetry; apply Nat.ltb_lt; lia). replace (a <? k) with true by (symmetry; apply Nat.ltb_lt; lia). reflexivity.
        - replace (S a <? S k) with false by (symmetry; apply Nat.ltb_ge; lia). replace (S a <? k) with false by (symmetry; apply Nat.ltb_ge; lia). reflexivity. }
      pose proof (@adj_r _ _ DR n (B (S k)) k k ltac:(lia) ltac:(lia)) as E1. pose proof (@adj_r _ _ DR n (B k) k k ltac:(lia) ltac:(lia)) as E0. rewrite Nat.eqb_refl in E0, E1.
      rewrite <- E1. rewrite sum_S. cbv beta. rewrite <- IH by lia. rewrite <- E0. rewrite !snd_sum.
      match goal with |- _ = r_add _ ?x ?y => change (r_add RR x y) with (x + y)%R end.
      pose proof (bigsum_add RR (S n) (fun i => snd (r_mul DR (B k k i) (adjf DR (S n) (B k) i k))) (fun j => (adjf RR (S n) A j k * H k j)%R)) as Sm. cbn beta in Sm.
      change (r_add RR ?x ?y) with (x + y)%R in Sm. etransitivity; [|exact Sm]. apply bigsum_ext. intros j Hj. rewrite Ek. pose proof (adjf_fst (S n) (B k) j k) as F. change (adjf RR (S n) (fun i j0 => fst (B k i j0)) j k) with (adjf RR (S n) A j k) in F.
      unfold B at 1. unfold B at 2. cbn [r_mul d_ring CRing_of_theory c_ring]. unfold d_mul. cbn [fst snd]. rewrite F. rewrite Nat.ltb_irrefl. replace (k <? S k) with true by (symmetry; apply Nat.ltb_lt; lia).
      cbn. ring. }
  rewrite <- (E (S n)) by lia. f_equal. apply leibniz_ext. intros i j Hi Hj. unfold B. replace (i <? S n) with true by (symmetry; apply Nat.ltb_lt; lia). reflexivity.
Qed.
Theorem C116_rule_det : forall N u r, rect N N u -> m_det dual_ops N u = Ok r ->
  m_det r_ops N (m_value u) = Ok (fst r) /\
  exists c, (forall i j, i < N -> j < N -> m_cofactor r_ops N (m_value u) i j = Ok (c i j)) /\
    snd r = bigsum RR N (fun i => bigsum RR N (fun j => (c i j * mget r_ops (m_rate u) i j)%R)).
Proof.
  intros N u r Ru E. asfun dual_ops. unfold m_value, m_rate, v_value, v_rate. rewrite !map_mk. rewrite (m_det_mk DR) in E. apply Ok_inj in E. subst r. split.
  - rewrite (m_det_mk RR). f_equal. symmetry. apply leibniz_fst.
  - exists (fun i j => adjf RR N (fun i j => fst (f i j)) j i). split.
    + intros i j Hi Hj. rewrite (m_cofactor_mk RR) by auto. unfold adjf. rewrite (Nat.add_comm i j). reflexivity.
    + destruct N as [|n]. { cbn. ring. }
      rewrite (@leibniz_ext _ _ DR (S n) f (fun i j => (fst (f i j), snd (f i j)))) by (intros; destruct (f i j); reflexivity). rewrite jacobi. apply bigsum_ext. intros i Hi. apply bigsum_ext. intros j Hj. rewrite mget_mk by auto. reflexivity.
Qed.

(** The inverse: (m^-1)' = - m^-1 m' m^-1. *)
Lemma r_dot_0 : forall a b, rect 0 0 a -> rect 0 0 b -> m_dot r_ops 0 0 0 a b = Ok [].
Proof. intros a b Ra Rb. apply rect_0 in Ra, Rb. subst. reflexivity. Qed.
Theorem C116_rule_inv : forall N u r, rect N N u -> m_inv dual_ops N u = Ok r ->
  m_inv r_ops N (m_value u) = Ok (m_value r) /\
  exists p q, m_dot r_ops N N N (m_value r) (m_rate u) = Ok p /\ m_dot r_ops N N N p (m_value r) = Ok q /\ m_neg r_ops q = Ok (m_rate r).
Proof.
  intros N u r Ru E. split.
  { unfold m_value, v_value. assert (H : m_inv r_ops N (map (map fst) u) = rmap (map (map fst)) (m_inv dual_ops N u)) by exact (@C72_m_inv _ _ _ _ _ dual_hom dual_hom_div N u Ru). rewrite E in H. exact H. }
  destruct N as [|n].
  { pose proof Ru as Ru'. apply rect_0 in Ru'. subst u. assert (r = []) by (cbn in E; apply Ok_inj in E; congruence). subst r. exists [], []. repeat split; reflexivity. }
  set (N := S n) in *. destruct (mk_ex dual_ops Ru) as (f & ->). unfold m_inv in E. rewrite (m_adj_mk DR) in E. cbn [bind] in E. rewrite (m_det_mk DR) in E. cbn [bind] in E.
  set (d := leibniz DR N f) in *. set (inv_d := (/ fst d, - snd d / (fst d * fst d))%R : dual).
  assert (Nz : fst d <> 0%R).
  { intros Z. unfold m_sdiv in E. rewrite m_map_res in E. unfold N, mk, vk in E. cbn [seq map map_res] in E. cbn [o_div dual_ops] in E. destruct (Req_EM_T (fst d) 0); [cbn in E; discriminate|contradiction]. }
  assert (Er : r = mk N N (fun i j => d_mul (adjf DR N f i j) inv_d)).
  { apply Ok_inj. rewrite <- E. unfold m_sdiv. apply m_map_mk. intros i j Hi Hj. cbn [o_div dual_ops]. destruct (Req_EM_T (fst d) 0); [contradiction|]. unfold d_mul, inv_d. cbn [fst snd]. match goal with |- Ok (?a, ?b) = Ok (?c, ?e) => replace c with a by (field; auto); replace e with b by (field; auto); reflexivity end. }
  subst r. clear E. unfold m_value, m_rate, v_value, v_rate. rewrite !map_mk. set (X := fun i j => d_mul (adjf DR N f i j) inv_d).
  assert (Dd : d_mul d inv_d = (1, 0)%R). { unfold d_mul, inv_d. cbn [fst snd]. f_equal; field; auto. }
  assert (PR : forall i j, i < N -> j < N -> bigsum DR N (fun k => d_mul (f i k) (X k j)) = if i =? j then (1, 0)%R else (0, 0)%R).
  { intros i j Hi Hj. unfold X. transitivity (d_mul (bigsum DR N (fun k => d_mul (f i k) (adjf DR N f k j))) inv_d).
    - pose proof (bigsum_mul_r DR N inv_d (fun k => d_mul (f i k) (adjf DR N f k j))) as Q. change (r_mul DR) with d_mul in Q. rewrite <- Q. apply bigsum_ext. intros. apply (Rmul_assoc d_ring_theory).
    - pose proof (@adj_r _ _ DR n f i j Hi Hj) as Q. change (r_mul DR) with d_mul in Q. fold N in Q. rewrite Q. destruct (i =? j); [exact Dd|]. unfold d_mul. cbn. f_equal; ring. }
  set (A := fun i j => fst (f i j)). set (H := fun i j => snd (f i j)). set (B := fun i j => fst (X i j)). set (X' := fun i j => snd (X i j)).
  assert (P2 : forall i j, i < N -> j < N -> bigsum RR N (fun k => (A i k * X' k j)%R) = (- bigsum RR N (fun k => H i k * B k j))%R).
  { intros i j Hi Hj. pose proof (f_equal snd (PR i j Hi Hj)) as Q. rewrite snd_sum in Q. cbn [snd d_mul] in Q.
    pose proof (bigsum_add RR N (fun k => (H i k * B k j)%R) (fun k => (A i k * X' k j)%R)) as S. change (r_add RR ?x ?y) with (x + y)%R in S. cbn beta in S. fold (H i) in Q.
    assert (Z : bigsum RR N (fun k => (H i k * B k j + A i k * X' k j)%R) = 0%R). { etransitivity; [exact Q|]. destruct (i =? j); reflexivity. }
    cbn beta in *. change (r_add RR) with Rplus in S. rewrite Z in S. lra. }
  assert (PL : forall i j, i < N -> j < N -> bigsum RR N (fun k => (B i k * A k j)%R) = if i =? j then 1%R else 0%R).
  { intros i j Hi Hj. pose proof (@adj_l _ _ DR n f i j Hi Hj) as Q. change (r_mul DR) with d_mul in Q. fold N in Q. apply (f_equal fst) in Q. rewrite fst_sum in Q.
    pose proof (bigsum_mul_r RR N (fst inv_d) (fun k => fst (d_mul (adjf DR N f i k) (f k j)))) as M. change (r_mul RR) with Rmult in M. cbn beta in M. rewrite Q in M.
    transitivity (fst (if i =? j then leibniz DR N f else o_zero dual_ops) * fst inv_d)%R.
    - etransitivity; [|exact M]. apply bigsum_ext. intros k Hk. unfold B, X, A, d_mul. cbn [fst snd]. ring.
    - destruct (i =? j); cbn [fst o_zero dual_ops]; [|ring]. fold d. unfold inv_d. cbn [fst]. field. auto. }
  rewrite (m_dot_mk RR) by (unfold N; lia). eexists. eexists. split; [reflexivity|]. rewrite (m_dot_mk RR) by (unfold N; lia). split; [reflexivity|]. rewrite (m_neg_mk RR). f_equal. apply mk_ext. intros l j Hl Hj.
  change (r_mul RR) with Rmult. change (r_opp RR) with Ropp. fold (B l).
  assert (E1 : X' l j = bigsum RR N (fun i => (bigsum RR N (fun k => B l k * A k i) * X' i j)%R)).
  { symmetry. etransitivity; [|apply (@bigsum_delta _ _ RR N l (fun i => X' i j) Hl)]. apply bigsum_ext. intros i Hi. rewrite PL by auto. rewrite Nat.eqb_sym. destruct (i =? l); cbn; ring. }
  transitivity (X' l j); [|reflexivity]. rewrite E1.
  transitivity (bigsum RR N (fun i => bigsum RR N (fun k => (B l k * (A k i * X' i j))%R))).
  2:{ apply bigsum_ext. intros i Hi. pose proof (bigsum_mul_r RR N (X' i j) (fun k => (B l k * A k i)%R)) as Q. change (r_mul RR) with Rmult in Q. cbn beta in Q. rewrite <- Q. apply bigsum_ext. intros. ring. }
  rewrite (@bigsum_swap _ _ RR).
  transitivity (bigsum RR N (fun k => (B l k * - bigsum RR N (fun i => H k i * B i j))%R)).
  2:{ apply bigsum_ext. intros k Hk. rewrite <- P2 by auto. pose proof (bigsum_mul_l RR N (B l k) (fun i => (A k i * X' i j)%R)) as Q. change (r_mul RR) with Rmult in Q. cbn beta in Q. symmetry. exact Q. }
  pose proof (bigsum_opp RR N (fun k => (B l k * bigsum RR N (fun i => H k i * B i j))%R)) as Q. change (r_opp RR) with Ropp in Q. cbn beta in Q.
  transitivity (- bigsum RR N (fun k => (B l k * bigsum RR N (fun i => H k i * B i j))%R))%R; [f_equal|rewrite <- Q; apply bigsum_ext; intros; ring].
  transitivity (bigsum RR N (fun i => bigsum RR N (fun k => (B l k * H k i * B i j)%R))).
  - apply bigsum_ext. intros i Hi. pose proof (bigsum_mul_r RR N (B i j) (fun k => (B l k * H k i)%R)) as Q2. change (r_mul RR) with Rmult in Q2. cbn beta in Q2. symmetry. exact Q2.
  - rewrite (@bigsum_swap _ _ RR). apply bigsum_ext. intros k Hk. pose proof (bigsum_mul_l RR N (B l k) (fun i => (H k i * B i j)%R)) as Q2. change (r_mul RR) with Rmult in Q2. cbn beta in Q2. rewrite <- Q2. apply bigsum_ext. intros. ring.
Qed.

(** Along curves *)
Section Curves.
  Context (t0 : R).
  Theorem C116_jacobi_formula : forall N U u, rect N N U -> m_moves t0 U u ->
    exists W c, (forall t, m_det r_ops N (m_at t U) = Ok (W t)) /\ (forall i j, i < N -> j < N -> m_cofactor r_ops N (m_at t0 U) i j = Ok (c i j)) /\
      derivable_pt_lim W t0 (bigsum RR N (fun i => bigsum RR N (fun j => (c i j * mget r_ops (m_rate u) i j)%R))).
  Proof.
    intros N U u RU H. pose proof (@rect_moves t0 N N U u RU H) as Ru. assert (E : exists s, m_det r_ops N (m_at t0 U) = Ok s). { destruct (mk_ex r_ops (@rect_at N N U t0 RU)) as (f & ->). rewrite (m_det_mk RR). eauto. }
    destruct E as (s & E). destruct (C116_m_det RU H E) as (r & W & Er & (_ & HW) & Et). destruct (C116_rule_det Ru Er) as (_ & c & Hc & Hr). exists W, c. split; [exact Et|]. split.
    - intros i j Hi Hj. rewrite (m_moves_at H). exact (Hc i j Hi Hj).
    - rewrite <- Hr. exact HW.
  Qed.
  Theorem C116_derivative_of_inverse : forall N U u s, rect N N U -> m_moves t0 U u -> m_inv r_ops N (m_at t0 U) = Ok s ->
    exists W r p q, near t0 (fun t => m_inv r_ops N (m_at t U) = Ok (m_at t W)) /\ m_moves t0 W r /\
      m_dot r_ops N N N s (m_rate u) = Ok p /\ m_dot r_ops N N N p s = Ok q /\ m_neg r_ops q = Ok (m_rate r).
  Proof.
    intros N U u s RU H E. pose proof (@rect_moves t0 N N U u RU H) as Ru. destruct (C116_m_inv RU H E) as (r & W & Er & HW & Hn). destruct (C116_rule_inv Ru Er) as (Ei & p & q & Ep & Eq & En).
    rewrite (m_moves_at H) in E. assert (s = m_value r). { apply Ok_inj. rewrite <- Ei. symmetry. exact E. } subst s. exists W, r, p, q. auto.
  Qed.
  Lemma square_dual : forall N u p, 0 < N -> length u = N -> v_dot r_ops N (v_value u) (v_rate u) = Ok p ->
    exists q, v_square_length r_ops (v_value u) = Ok q /\ v_square_length dual_ops u = Ok (q, 2 * p)%R.
  Proof.
    intros N u p HN Lu Ep. asfun dual_ops. unfold v_value, v_rate in *. rewrite !map_vk in *. rewrite (v_dot_vk RR) in Ep by auto. apply Ok_inj in Ep. rewrite (v_square_length_vk RR), (v_square_length_vk DR) by auto.
    eexists. split; [reflexivity|]. f_equal. rewrite (surjective_pairing (bigsum DR N _)). f_equal; [rewrite fst_sum; reflexivity|]. rewrite snd_sum. subst p.
    pose proof (bigsum_mul_l RR N 2%R (fun i => (fst (f i) * snd (f i))%R)) as Q. etransitivity; [|exact Q]. apply bigsum_ext. intros i Hi. cbn. ring.
  Qed.
  (** The length of a moving vector. *)
  Theorem C116_length : forall N U u p q, 0 < N -> length U = N -> v_moves t0 U u -> v_dot r_ops N (v_value u) (v_rate u) = Ok p ->
    v_square_length r_ops (v_value u) = Ok q -> q <> 0%R ->
    exists W, (forall t, v_length r_ops sqrt (v_at t U) = Ok (W t)) /\ derivable_pt_lim W t0 (p / sqrt q)%R.
  Proof.
    intros N U u p q HN LU H Ep Eq Nq. destruct (v_moves_in LU H) as (Lu & _). destruct (@square_dual N u p HN Lu Ep) as (q' & Eq' & Ed). rewrite Eq in Eq'. apply Ok_inj in Eq'. subst q'.
    assert (E0 : v_square_length r_ops (v_at t0 U) = Ok q) by (rewrite (v_moves_at H); exact Eq).
    destruct (C116_v_square_length LU H E0) as (r & W & Er & (W0 & HW) & Et). assert (r = (q, 2 * p)%R) by (apply Ok_inj; rewrite <- Er; exact Ed). subst r. cbn [fst snd] in *.
    exists (fun t => sqrt (W t)). split. { intros t. unfold v_length. rewrite Et. reflexivity. }
    assert (Pq : (0 < q)%R). { asfun dual_ops. unfold v_value in Eq. rewrite map_vk in Eq. rewrite (v_square_length_vk RR) in Eq by auto. apply Ok_inj in Eq.
      assert (G : forall n (g : nat -> R), (0 <= bigsum RR n (fun i => g i * g i))%R). { induction n; intros g; cbn; [lra|]. specialize (IHn g). cbn in IHn. nra. }
      specialize (G N (fun i => fst (f i))). cbn beta in G. change (bigsum RR N (fun i => (fst (f i) * fst (f i))%R)) with (bigsum RR N (fun i => r_mul RR (fst (f i)) (fst (f i)))) in G. rewrite Eq in G. lra. }
    pose proof (derivable_pt_lim_comp W sqrt t0 (2 * p)%R (/ (2 * sqrt (W t0)))%R HW) as D. rewrite W0 in D. specialize (D (derivable_pt_lim_sqrt q Pq)).
    replace (p / sqrt q)%R with (/ (2 * sqrt q) * (2 * p))%R; [exact D|]. field. apply Rgt_not_eq, sqrt_lt_R0. auto.
  Qed.
  (** The direction of a moving vector moves at a right angle to itself. *)
  Theorem C116_normalize : forall N U u q, 0 < N -> length U = N -> v_moves t0 U u -> v_square_length r_ops (v_value u) = Ok q -> q <> 0%R ->
    exists W r, near t0 (fun t => v_normalize r_ops sqrt (v_at t U) = Ok (v_at t W)) /\ v_moves t0 W r /\ v_dot r_ops N (v_value r) (v_rate r) = Ok 0%R.
  Proof.
    intros N U u q HN LU H Eq Nq. destruct (v_moves_in LU H) as (Lu & _).
    assert (P : exists p, v_dot r_ops N (v_value u) (v_rate u) = Ok p). { clear - HN Lu. asfun dual_ops. unfold v_value, v_rate. rewrite !map_vk, (v_dot_vk RR) by auto. eauto. }
    destruct P as (p & Ep). destruct (@C116_length N U u p q HN LU H Ep Eq Nq) as (L & EL & DL). set (l := sqrt q) in *.
    assert (L0 : L t0 = l). { apply Ok_inj. rewrite <- EL. unfold v_length. rewrite (v_moves_at H). unfold v_value in Eq. rewrite Eq. reflexivity. }
    assert (HL : moves t0 L (l, p / l)%R) by (split; [exact L0|exact DL]).
    assert (Sq : (0 <= q)%R /\ (l * l = q)%R /\ l <> 0%R).
    { assert (Q0 : (0 <= q)%R). { clear - Eq HN Lu. asfun dual_ops. unfold v_value in Eq. rewrite map_vk in Eq. rewrite (v_square_length_vk RR) in Eq by auto. apply Ok_inj in Eq. subst q.
        assert (G : forall n (g : nat -> R), (0 <= bigsum RR n (fun i => r_mul RR (g i) (g i)))%R). { induction n; intros g; cbn; [lra|]. specialize (IHn g). cbn in IHn. nra. } apply G. }
      assert (Q1 : (l * l = q)%R) by (apply sqrt_sqrt; auto). split; [auto|]. split; [auto|]. intros Z. rewrite Z in Q1. lra. }
    destruct Sq as (Q0 & Q1 & Q2). pose proof (@d_v_sdiv t0 U L u (l, p / l)%R H HL) as D.
    assert (Ed : exists r, v_sdiv dual_ops u (l, p / l)%R = Ok r /\ r = map (fun x => (fst x / l, (snd x * l - fst x * (p / l)) / (l * l))%R) u).
    { eexists. split; [|reflexivity]. unfold v_sdiv. rewrite v_map_res. clear - Q2. induction u as [|x u IH]; [reflexivity|]. cbn [map_res map]. rewrite IH. cbn [o_div dual_ops fst snd]. destruct (Req_EM_T l 0); [contradiction|]. reflexivity. }
    destruct Ed as (r & Er & Hr). unfold dres in D. rewrite Er in D. destruct D as (W & HW & Hn). exists W, r. split; [|split; [exact HW|]].
    - eapply near_mono; [exact Hn|]. cbn. intros t Et. unfold v_normalize. rewrite EL. cbn [bind]. exact Et.
    - subst r. clear - HN Lu Ep Eq Q1 Q2. asfun dual_ops. unfold v_value, v_rate in *. rewrite !map_vk in *. rewrite (v_square_length_vk RR) in Eq by auto. rewrite (v_dot_vk RR) in Ep by auto. rewrite (v_dot_vk RR) by auto. apply Ok_inj in Ep, Eq. f_equal. cbn [fst snd].
      change (r_mul RR) with Rmult in *. transitivity ((/ l * / l) * p + (- p / (l * l * l * l)) * q)%R; [|rewrite <- Q1; field; auto].
      rewrite <- Ep at 1. rewrite <- Eq. pose proof (bigsum_mul_l RR N (/ l * / l)%R (fun i => (fst (f i) * snd (f i))%R)) as A1. pose proof (bigsum_mul_l RR N (- p / (l * l * l * l))%R (fun i => (fst (f i) * fst (f i))%R)) as A2. change (r_mul RR) with Rmult in *. cbn beta in *.
      rewrite <- A1, <- A2. pose proof (bigsum_add RR N (fun i => (/ l * / l * (fst (f i) * snd (f i)))%R) (fun i => (- p / (l * l * l * l) * (fst (f i) * fst (f i)))%R)) as A3. change (r_add RR) with Rplus in A3. cbn beta in A3. rewrite <- A3. apply bigsum_ext. intros i Hi. field. auto.
  Qed.
End Curves.

(** * Example: a turning and growing vector *)
Example C116_ex : v_moves 0%R [(fun t => 3 + t)%R; (fun t => 4 * t)%R] [(3, 1); (0, 4)]%R.
Proof.
  constructor; [|constructor; [|constructor]]; split; cbn [fst snd]; try ring.
  - replace 1%R with (0 + 1)%R by ring. apply (derivable_pt_lim_plus (fun _ => 3%R) (fun t => t)); [apply derivable_pt_lim_const|apply derivable_pt_lim_id].
  - pose proof (derivable_pt_lim_scal (fun t => t) 4 0 1 (derivable_pt_lim_id 0)) as D. rewrite Rmult_1_r in D. exact D.
Qed.
Example C116_ex_length : exists W, (forall t, v_length r_ops sqrt [3 + t; 4 * t]%R = Ok (W t)) /\ derivable_pt_lim W 0%R 1%R.
Proof.
  destruct (@C116_length 0%R 2 [(fun t => 3 + t)%R; (fun t => 4 * t)%R] [(3, 1); (0, 4)]%R 3%R 9%R ltac:(lia) eq_refl C116_ex) as (W & E & D).
  - lazy -[Rplus Rmult IZR]. f_equal. ring.
  - lazy -[Rplus Rmult IZR]. f_equal. ring.
  - lra.
  - exists W. split; [exact E|]. replace 9%R with (3 * 3)%R in D by ring. rewrite sqrt_square in D by lra. replace (3 / 3)%R with 1%R in D by field. exact D.
Qed.

Print Assumptions C116_rule_dot.
Print Assumptions C116_rule_matrix_product.
Print Assumptions C116_rule_cross.
Print Assumptions C116_rule_complex.
Print Assumptions C116_rule_quaternion.
Print Assumptions C116_rule_det.
Print Assumptions C116_rule_inv.
Print Assumptions C116_jacobi_formula.
Print Assumptions C116_derivative_of_inverse.
Print Assumptions C116_length.
Print Assumptions C116_normalize.
