(** C103: the contracts of [Zero] and [One], and where [One] for matrices departs from them. *)
From Coq Require Import ZArith QArith.
From Verif Require Import UnitModel SpecRing AlgFacts CxFacts Instances PropParts PropAlgebra MatProofs PropMatrix.
Set Implicit Arguments.
Local Open Scope nat_scope.

Lemma rect_ext : forall A M N (a b : list (list A)), rect M N a -> rect M N b -> (forall i j, i < M -> j < N -> elt a i j = elt b i j) -> a = b.
Proof.
  intros A M N a b Ra Rb H. apply (elt_ext Ra Rb). intros i j. destruct (lt_dec i M) as [Hi|Hi]; [destruct (lt_dec j N) as [Hj|Hj]|]; auto; rewrite (elt_None _ _ Ra), (elt_None _ _ Rb) by lia; reflexivity.
Qed.
Lemma elt_some : forall A M N (a : list (list A)) i j, rect M N a -> i < M -> j < N -> exists x, elt a i j = Some x.
Proof.
  intros A M N a i j (L & F) Hi Hj. unfold elt. destruct (nth_error a i) as [r|] eqn:E; [|apply nth_error_None in E; lia].
  rewrite Forall_forall in F. assert (Lr := F r (nth_error_In _ _ E)). destruct (nth_error r j) as [x|] eqn:X; [eauto|]. apply nth_error_None in X. lia.
Qed.
Section Contracts.
  Context {T : Type} {o : Ops T} (R : Ring o).
  Ltac simp := rewrite ?(r_mul_1_l R), ?(r_mul_1_r R), ?(r_mul_0_l R), ?(r_mul_0_r R), ?(r_sub_def R), ?(r_opp_0 R), ?(r_add_0_l R), ?(r_add_0_r R).
  (** [zero()] is neutral for [+] on both sides. *)
  Theorem C103_zero_neutral : forall M N (v : list T) (m : list (list T)) (z : complex T) (q : quat T), length v = N -> rect M N m ->
    ((let! e := v_zero o N in v_add o N e v) = Ok v /\ (let! e := v_zero o N in v_add o N v e) = Ok v) /\
    ((let! e := m_zero o M N in m_add o M N e m) = Ok m /\ (let! e := m_zero o M N in m_add o M N m e) = Ok m) /\
    ((let! e := c_zero o in c_add o e z) = Ok z /\ (let! e := c_zero o in c_add o z e) = Ok z) /\
    ((let! e := q_zero o in q_add o e q) = Ok q /\ (let! e := q_zero o in q_add o q e) = Ok q).
  Proof.
    intros M N v m z q Lv Rm. assert (Lv' := Lv). assert (Rm' := Rm). asfun o. ops R. destruct z as [a b], q as [c d e' g].
    change (c_zero o) with (Ok (Cx (o_zero o) (o_zero o))); change (q_zero o) with (Ok (Qt (o_zero o) (o_zero o) (o_zero o) (o_zero o))). cbn [bind]. rewrite ?(c_add_v R), ?(q_add_v R). cbn [re im qw qx qy qz bind].
    repeat split; f_equal; try (apply mk_ext; intros); try (apply vk_ext; intros); simp; reflexivity.
  Qed.
  (** [one()] is neutral for [*] of complex numbers and quaternions. *)
  Theorem C103_one_neutral : forall (z : complex T) (q : quat T),
    ((let! e := c_one o in c_mul o e z) = Ok z /\ (let! e := c_one o in c_mul o z e) = Ok z) /\
    ((let! e := q_one o in q_mul o e q) = Ok q /\ (let! e := q_one o in q_mul o q e) = Ok q).
  Proof.
    intros [a b] [c d e' g]. change (c_one o) with (Ok (Cx (o_one o) (o_zero o))); change (q_one o) with (Ok (Qt (o_one o) (o_zero o) (o_zero o) (o_zero o))). cbn [bind]. rewrite ?(c_mul_v R), ?(q_mul_v R). cbn [re im qw qx qy qz bind].
    repeat split; repeat f_equal; simp; reflexivity.
  Qed.
  (** For matrices [*] is element-wise: multiplying by [one()] on either side keeps the diagonal and clears the rest. *)
  Theorem C103_matrix_one_mul : forall N m, rect N N m -> exists d,
    (let! e := m_one o N in m_mul o N N e m) = Ok d /\ (let! e := m_one o N in m_mul o N N m e) = Ok d /\
    rect N N d /\ forall i j, i < N -> j < N -> elt d i j = if i =? j then elt m i j else Some (o_zero o).
  Proof.
    intros N m Rm. asfun o. ops R. exists (mk N N (fun i j => if i =? j then f i j else o_zero o)). unfold m_mul. split; [|split; [|split]].
    - apply m_zip_map_mk. intros. rewrite (r_mul_ok R). f_equal. destruct (i =? j); simp; reflexivity.
    - apply m_zip_map_mk. intros. rewrite (r_mul_ok R). f_equal. destruct (i =? j); simp; reflexivity.
    - apply rect_mk.
    - intros. rewrite !elt_mk. replace ((i <? N) && (j <? N)) with true by lia. destruct (i =? j); reflexivity.
  Qed.
  (** So the contract [one() * m = m = m * one()] holds for the diagonal matrices only. *)
  Theorem C103_matrix_one_contract : forall N m, rect N N m ->
    ((let! e := m_one o N in m_mul o N N e m) = Ok m <-> (forall i j, i < N -> j < N -> i <> j -> elt m i j = Some (o_zero o))) /\
    ((let! e := m_one o N in m_mul o N N m e) = Ok m <-> (forall i j, i < N -> j < N -> i <> j -> elt m i j = Some (o_zero o))).
  Proof.
    intros N m Rm. destruct (C103_matrix_one_mul Rm) as (d & E1 & E2 & Rd & H). rewrite E1, E2.
    assert (G : d = m <-> (forall i j, i < N -> j < N -> i <> j -> elt m i j = Some (o_zero o))).
    { split.
      - intros -> i j Hi Hj n. rewrite H by auto. replace (i =? j) with false by lia. reflexivity.
      - intros K. apply (rect_ext Rd Rm). intros i j Hi Hj. rewrite H by auto. destruct (i =? j) eqn:E; auto. symmetry. apply K; lia. }
    rewrite <- G. split; split; intros X; try (apply Ok_inj in X); congruence.
  Qed.
  (** It fails for every size from 2 up, for every scalar type with [1 <> 0]. *)
  Theorem C103_matrix_one_refuted : forall N, 2 <= N -> o_one o <> o_zero o -> exists m, rect N N m /\ (let! e := m_one o N in m_mul o N N e m) <> Ok m.
  Proof.
    intros N HN n. exists (mk N N (fun _ _ => o_one o)). split; [apply rect_mk|]. intros E. apply (C103_matrix_one_contract (rect_mk _ _ _)) with (i := 0) (j := 1) in E; try lia.
    rewrite elt_mk in E. replace ((0 <? N) && (1 <? N)) with true in E by lia. congruence.
  Qed.
  (** Generic code that multiplies values together starting from [one()] gets a diagonal matrix, whatever the factors; the crate's own
      [Product] starts from the matrix of ones, and gets the element-wise product. *)
  Theorem C103_generic_product : forall N ms, Forall (rect N N) ms -> exists d,
    (let! e := m_one o N in fold_res (m_mul o N N) e ms) = Ok d /\ rect N N d /\
    forall i j, i < N -> j < N -> i <> j -> elt d i j = Some (o_zero o).
  Proof.
    intros N ms F. rewrite m_one_mk. cbn [bind].
    assert (G : forall ms, Forall (rect N N) ms -> forall f, (forall i j, i <> j -> f i j = o_zero o) -> exists d, fold_res (m_mul o N N) (mk N N f) ms = Ok d /\ rect N N d /\
      forall i j, i < N -> j < N -> i <> j -> elt d i j = Some (o_zero o)).
    { clear ms F. induction 1 as [|m ms Rm F IH]; intros f Hf; cbn [fold_res].
      - eexists. split; [reflexivity|]. split; [apply rect_mk|]. intros. rewrite elt_mk. replace ((i <? N) && (j <? N)) with true by lia. rewrite Hf by auto. reflexivity.
      - asfun o. unfold m_mul at 1. rewrite (@m_zip_map_mk _ _ _ N N (o_mul o) f f0 (fun i j => r_mul R (f i j) (f0 i j))) by (intros; apply (r_mul_ok R)). cbn [bind].
        apply IH. intros. rewrite Hf by auto. simp. reflexivity. }
    apply G; auto. intros. replace (i =? j) with false by lia. reflexivity.
  Qed.
  (** [one()] is neutral for the matrix product [dot], on both sides. *)
  Theorem C103_matrix_one_dot : forall N m, rect N N m -> 0 < N ->
    (let! e := m_one o N in m_dot o N N N e m) = Ok m /\ (let! e := m_one o N in m_dot o N N N m e) = Ok m.
  Proof. intros. split; [apply (C26_one_left R); auto | apply (C26_one_right R); auto]. Qed.
End Contracts.

(** [is_one] accepts [one()] and nothing else, when the scalar's [==] decides equality. *)
Theorem C103_is_one : forall T (o : Ops T), (forall x y, o_eq o x y = true <-> x = y) ->
  (forall z, exists b, c_is_one o z = Ok b /\ (b = true <-> Ok z = c_one o)) /\
  (forall q, exists b, q_is_one o q = Ok b /\ (b = true <-> Ok q = q_one o)) /\
  (forall N m, rect N N m -> exists b, m_is_one o N m = Ok b /\ (b = true <-> Ok m = m_one o N)).
Proof.
  intros T o He. split; [|split].
  - intros [a b]. eexists. split; [reflexivity|]. rewrite (proj1 (C84_equality o a b a a (o_one o) (o_zero o) a a)), !He. change (c_one o) with (Ok (Cx (o_one o) (o_zero o))). split; [intros (-> & ->); reflexivity|]. intros E. apply Ok_inj in E. injection E as -> ->. auto.
  - intros [a b c d]. eexists. split; [reflexivity|]. rewrite (proj1 (proj2 (C84_equality o a b c d (o_one o) (o_zero o) (o_zero o) (o_zero o)))), !He. change (q_one o) with (Ok (Qt (o_one o) (o_zero o) (o_zero o) (o_zero o))).
    split; [intros (-> & -> & -> & ->); reflexivity|]. intros E. apply Ok_inj in E. injection E as -> -> -> ->. auto.
  - intros N m Rm. unfold m_is_one. destruct (C29_one o N) as (u & E & Ru & _). rewrite E. cbn [bind]. eexists. split; [reflexivity|]. rewrite (m_eq_spec o Rm Ru).
    split; [|intros X; apply Ok_inj in X; subst u; intros; eapply He; eauto; congruence]. intros H. f_equal. apply (rect_ext Rm Ru). intros i j Hi Hj.
    destruct (elt_some Rm Hi Hj) as (x & Ex), (elt_some Ru Hi Hj) as (y & Ey). rewrite Ex, Ey. f_equal. apply He. eapply H; eauto.
Qed.
(** [set_zero] and [set_one] leave [zero()] and [one()] behind, whatever was there. *)
Theorem C103_set : forall T (o : Ops T) M N (v : list T) (m m' : list (list T)) (z : complex T) (q : quat T),
  v_set_zero o N v =! v_zero o N /\ m_set_zero o M N m =! m_zero o M N /\ c_set_zero o z =! c_zero o /\ q_set_zero o q =! q_zero o /\
  m_set_one o N m' =! m_one o N /\ c_set_one o z =! c_one o /\ q_set_one o q =! q_one o.
Proof.
  intros. unfold v_set_zero, m_set_zero, m_set_one. rewrite v_zero_vk, m_zero_mk, m_one_mk. cbn [bind]. repeat split; eexists; split; reflexivity.
Qed.
(** A matrix without rows: [is_zero] panics (C20), so the test after [set_zero] is stated for [0 < M]. After [set_zero], [is_zero] holds; after [set_one], [is_one] holds: for scalars whose tests accept their own constants. *)
Theorem C103_set_test : forall T (o : Ops T) M N (v : list T) (m m' : list (list T)) (z : complex T) (q : quat T), 0 < M ->
  o_is_zero o (o_zero o) = true -> o_eq o (o_zero o) (o_zero o) = true -> o_eq o (o_one o) (o_one o) = true ->
  (let! r := v_set_zero o N v in Ok (v_is_zero o r)) = Ok true /\ (let! r := m_set_zero o M N m in m_is_zero o M N r) = Ok true /\
  (let! r := c_set_zero o z in Ok (c_is_zero o r)) = Ok true /\ (let! r := q_set_zero o q in Ok (q_is_zero o r)) = Ok true /\
  (let! r := m_set_one o N m' in m_is_one o N r) = Ok true /\ (let! r := c_set_one o z in c_is_one o r) = Ok true /\ (let! r := q_set_one o q in q_is_one o r) = Ok true.
Proof.
  intros T o M N v m m' z q HM Hz E0 E1. unfold v_set_zero, m_set_zero, m_set_one. rewrite v_zero_vk, m_zero_mk, m_one_mk. cbn [bind]. repeat split.
  - f_equal. unfold v_is_zero. apply forallb_forall. intros x Hx. apply In_nth_error in Hx. destruct Hx as (i & Hi). rewrite nth_error_vk in Hi. destruct (i <? N); congruence.
  - destruct (proj2 (C20_is_zero o (rect_mk M N (fun _ _ => o_zero o))) HM) as (b & -> & Hb). f_equal. apply Hb. intros i j x. rewrite elt_mk. destruct ((i <? M) && (j <? N)); congruence.
  - cbn. rewrite Hz. reflexivity.
  - cbn. rewrite Hz. reflexivity.
  - unfold m_is_one. rewrite m_one_mk. cbn [bind]. f_equal. apply (m_eq_spec o (rect_mk _ _ _) (rect_mk _ _ _)). intros i j x y. rewrite elt_mk. destruct ((i <? N) && (j <? N)); [|discriminate]. destruct (i =? j); congruence.
  - cbn. rewrite E0, E1. reflexivity.
  - cbn. rewrite E0, E1. reflexivity.
Qed.

Example C103_example :
  (let! e := m_one z_ops 2 in m_mul z_ops 2 2 e [[1; 2]; [3; 4]]%Z) = Ok [[1; 0]; [0; 4]]%Z /\
  (let! e := m_one z_ops 2 in m_dot z_ops 2 2 2 e [[1; 2]; [3; 4]]%Z) = Ok [[1; 2]; [3; 4]]%Z /\
  m_iter_product z_ops 2 2 [[[1; 2]; [3; 4]]; [[5; 6]; [7; 8]]]%Z = Ok [[5; 12]; [21; 32]]%Z /\
  (let! e := m_one z_ops 2 in fold_res (m_mul z_ops 2 2) e [[[1; 2]; [3; 4]]; [[5; 6]; [7; 8]]]%Z) = Ok [[5; 0]; [0; 32]]%Z /\
  m_is_one z_ops 2 [[1; 0]; [0; 1]]%Z = Ok true /\ m_is_one z_ops 2 [[1; 1]; [1; 1]]%Z = Ok false /\
  c_is_one z_ops (Cx 1 0)%Z = Ok true /\ q_is_one z_ops (Qt 1 0 0 2)%Z = Ok false /\ q_set_one z_ops (Qt 4 5 6 7)%Z = Ok (Qt 1 0 0 0)%Z.
Proof. repeat split. Qed.

Print Assumptions C103_zero_neutral.
Print Assumptions C103_one_neutral.
Print Assumptions C103_matrix_one_mul.
Print Assumptions C103_matrix_one_contract.
Print Assumptions C103_matrix_one_refuted.
Print Assumptions C103_generic_product.
Print Assumptions C103_matrix_one_dot.
Print Assumptions C103_is_one.
Print Assumptions C103_set.
Print Assumptions C103_set_test.
