(** C77: approximate comparison. *)
From Coq Require Import Reals Lra Lia.
From Verif Require Import SpecFacts VFacts VecProofs PropVector MFacts MatProofs PropMatrix MathModel SpecDistr.
Set Implicit Arguments.
Local Open Scope nat_scope.
Local Open Scope list_scope.

(* ------------------------------------------------------------------------- *)
(** * Component-wise meaning, for any scalar test                              *)
Section Meaning.
  Context {T : Type} (ade : T -> T -> bool).

  Lemma v_ade_F2 : forall N u v, length u = N -> length v = N ->
    exists b, v_abs_diff_eq N ade u v = Ok b /\ (b = true <-> Forall2 (fun x y => ade x y = true) u v).
  Proof.
    intros N u v Hu Hv. unfold v_abs_diff_eq. rewrite v_zip_map_pure by auto. cbn [bind]. eexists. split; [reflexivity|].
    assert (L : length u = length v) by lia. clear N Hu Hv. rewrite (proj1 (v_any_all_spec _)).
    revert v L. induction u as [|x u IH]; intros [|y v] L; try discriminate.
    - split; [constructor|]. intros _ [|i]; discriminate.
    - injection L as L. cbn [map2]. split; intros H.
      + constructor; [apply (H 0 _ eq_refl)|]. apply IH; auto. intros i b Hb. apply (H (S i) b Hb).
      + inversion H; subst. intros [|i] b Hb; [cbn in Hb; congruence|]. apply (proj2 (IH v L) H5 i b Hb).
  Qed.
  Lemma F2_nth : forall (P : T -> T -> Prop) u v, length u = length v ->
    (Forall2 P u v <-> forall i x y, nth_error u i = Some x -> nth_error v i = Some y -> P x y).
  Proof.
    intros P u. induction u as [|x u IH]; intros [|y v] L; try discriminate.
    - split; [|constructor]. intros _ [|i]; discriminate.
    - injection L as L. split; intros H.
      + inversion H; subst. intros [|i] a b Ha Hb; cbn in *; [congruence|]. eapply (proj1 (IH v L) H5); eauto.
      + constructor; [apply (H 0); reflexivity|]. apply IH; auto. intros i. apply (H (S i)).
  Qed.

  Theorem C77_vector : forall N u v, length u = N -> length v = N ->
    exists b, v_abs_diff_eq N ade u v = Ok b /\
      (b = true <-> forall i x y, nth_error u i = Some x -> nth_error v i = Some y -> ade x y = true).
  Proof.
    intros N u v Hu Hv. destruct (v_ade_F2 u v Hu Hv) as (b & E & Hb). exists b. split; auto. rewrite Hb. apply F2_nth. lia.
  Qed.
  Lemma F2_elt : forall (P : T -> T -> Prop) M N a b, rect M N a -> rect M N b ->
    (Forall2 (Forall2 P) a b <-> forall i j x y, elt a i j = Some x -> elt b i j = Some y -> P x y).
  Proof.
    intros P M N a b [La Fa] [Lb Fb]. assert (L : length a = length b) by lia. clear La Lb. revert b Fb L.
    induction Fa as [|r a Hr Fa IH]; intros [|s b] Fb L; try discriminate.
    - split; [|constructor]. intros _ [|i] j x; cbn; discriminate.
    - injection L as L. inversion Fb; subst. specialize (IH b H2 L). split; intros H.
      + inversion H; subst. intros [|i] j x y; [|apply (proj1 IH H7 i j)]. apply (proj1 (@F2_nth _ r s ltac:(lia)) H5 j).
      + constructor; [|apply IH; intros i; apply (H (S i))]. apply F2_nth; [lia|]. intros j. apply (H 0 j).
  Qed.

  (** Matrices without rows panic, as their [all] does. *)
  Theorem C77_matrix : forall M N a b, rect M N a -> rect M N b ->
    (M = 0 -> m_abs_diff_eq M N ade a b = Panic) /\
    (0 < M -> exists r, m_abs_diff_eq M N ade a b = Ok r /\
      (r = true <-> forall i j x y, elt a i j = Some x -> elt b i j = Some y -> ade x y = true)).
  Proof.
    intros M N a b Ha Hb. unfold m_abs_diff_eq. destruct (m_zip_map_pure ade Ha Hb) as (w & Ew & Rw & Hw). rewrite Ew. cbn [bind].
    destruct (m_any_all_spec Rw) as [S0 S]. split; [apply S0|]. intros HM. destruct (S HM) as (r & e & E & _ & Hr & _). exists r. split; auto. rewrite Hr. split.
    - intros H i j x y Hx Hy. apply (H i j). apply Hw; auto.
    - intros H i j x Hx. destruct (elt_Some_lt i j Rw Hx) as (Hi & Hj). destruct (elt_lt Ha Hi Hj) as (u & Eu), (elt_lt Hb Hi Hj) as (v & Ev).
      pose proof (Hw i j u v Eu Ev) as Z. rewrite Hx in Z. injection Z as ->. eauto.
  Qed.
  Lemma m_ade_F2 : forall M N a b, rect M N a -> rect M N b -> 0 < M ->
    exists r, m_abs_diff_eq M N ade a b = Ok r /\ (r = true <-> Forall2 (Forall2 (fun x y => ade x y = true)) a b).
  Proof.
    intros M N a b Ha Hb HM. destruct (C77_matrix Ha Hb) as [_ S]. destruct (S HM) as (r & E & Hr). exists r. split; auto. rewrite Hr.
    symmetry. eapply F2_elt; eauto.
  Qed.

  Theorem C77_complex : forall a b, exists r, c_abs_diff_eq ade a b = Ok r /\
    (r = true <-> ade (re a) (re b) = true /\ ade (im a) (im b) = true).
  Proof.
    intros [x y] [z w]. cbn [re im]. unfold c_abs_diff_eq. cbn [c_into_vector]. destruct (@v_ade_F2 2 [x; y] [z; w] eq_refl eq_refl) as (r & E & Hr).
    exists r. split; auto. rewrite Hr. split.
    - intros H. inversion H; subst. inversion H5; subst. auto.
    - intros (H1 & H2). auto.
  Qed.
  Theorem C77_quaternion : forall a b, exists r, q_abs_diff_eq ade a b = Ok r /\
    (r = true <-> ade (qw a) (qw b) = true /\ ade (qx a) (qx b) = true /\ ade (qy a) (qy b) = true /\ ade (qz a) (qz b) = true).
  Proof.
    intros [x y z w] [x' y' z' w']. cbn [qw qx qy qz]. unfold q_abs_diff_eq. cbn [q_into_vector].
    destruct (@v_ade_F2 4 [x; y; z; w] [x'; y'; z'; w'] eq_refl eq_refl) as (r & E & Hr).
    exists r. split; auto. rewrite Hr. split.
    - intros H. repeat match goal with H : Forall2 _ (_ :: _) _ |- _ => inversion H; clear H; subst end. auto.
    - intros (H1 & H2 & H3 & H4). auto.
  Qed.

  (** A Moebius transformation compares its four coefficients. *)
  Theorem C77_moebius : forall a b, rect 2 2 a -> rect 2 2 b -> exists r, mo_abs_diff_eq ade a b = Ok r /\
    (r = true <-> forall i j x y, elt a i j = Some x -> elt b i j = Some y -> ade x y = true).
  Proof. intros a b Ha Hb. apply (proj2 (C77_matrix Ha Hb)). lia. Qed.
  Theorem C77_linear : forall N a b, rect N N a -> rect N N b -> 0 < N -> exists r, linear_abs_diff_eq N ade a b = Ok r /\
    (r = true <-> forall i j x y, elt a i j = Some x -> elt b i j = Some y -> ade x y = true).
  Proof. intros N a b Ha Hb. apply (proj2 (C77_matrix Ha Hb)). Qed.
  Theorem C77_shift : forall N u v, length u = N -> length v = N -> exists b, shift_abs_diff_eq N ade u v = Ok b /\
    (b = true <-> forall i x y, nth_error u i = Some x -> nth_error v i = Some y -> ade x y = true).
  Proof. exact C77_vector. Qed.
  Theorem C77_scale : forall a b, exists r, scale_abs_diff_eq ade a b = Ok r /\ (r = true <-> ade a b = true).
  Proof. intros a b. eexists. split; [reflexivity|tauto]. Qed.
  Theorem C77_rotation2 : forall a b, exists r, rot2_abs_diff_eq ade a b = Ok r /\
    (r = true <-> ade (re a) (re b) = true /\ ade (im a) (im b) = true).
  Proof.
    intros [x y] [z w]. unfold rot2_abs_diff_eq. cbn. destruct (ade x z) eqn:E; (eexists; split; [reflexivity|]); intuition congruence.
  Qed.
  Theorem C77_rotation3 : forall a b, exists r, rot3_abs_diff_eq ade a b = Ok r /\
    (r = true <-> ade (qw a) (qw b) = true /\ ade (qx a) (qx b) = true /\ ade (qy a) (qy b) = true /\ ade (qz a) (qz b) = true).
  Proof. exact C77_quaternion. Qed.
  (** A chain: both parts; a failing outer part is reported, the inner one is not examined when the outer test is false. *)
  Theorem C77_chain : forall A B (ea : A -> A -> res bool) (eb : B -> B -> res bool) c d,
    (~ returns (ea (fst c) (fst d)) -> fails_like (chain_abs_diff_eq ea eb c d) (ea (fst c) (fst d))) /\
    (forall x, ea (fst c) (fst d) = Ok x ->
       (x = false -> chain_abs_diff_eq ea eb c d = Ok false) /\
       (x = true -> chain_abs_diff_eq ea eb c d = eb (snd c) (snd d))) /\
    (chain_abs_diff_eq ea eb c d = Ok true <-> ea (fst c) (fst d) = Ok true /\ eb (snd c) (snd d) = Ok true).
  Proof.
    intros A B ea eb c d. unfold chain_abs_diff_eq. destruct (ea (fst c) (fst d)) as [[|]| | |] eqn:E; cbn [bind].
    all: split; [intros H; try (destruct H; eexists; reflexivity); try constructor|].
    all: split; [intros x X; try discriminate; apply Ok_inj in X; subst; split; intros; congruence|].
    all: intuition congruence.
  Qed.
End Meaning.

(* ------------------------------------------------------------------------- *)
(** * Over the reals, with the scalar test |x - y| <= eps                      *)
Section Reals.
  Local Open Scope R_scope.
  Lemma within_i : forall e x y, within e x y = true <-> Rabs (x - y) <= e.
  Proof. intros. unfold within. destruct (Rle_dec _ _); split; auto; discriminate. Qed.
  Lemma within_tol : tolerance (fun _ : R => True) (fun e x y => within e x y = true).
  Proof.
    repeat split; intros; rewrite ?within_i in *; unfold Rabs in *; repeat destruct (Rcase_abs _); lra.
  Qed.
  Lemma F2_tol : forall A (okA : A -> Prop) near, tolerance okA near -> tolerance (Forall okA) (fun e => Forall2 (near e)).
  Proof.
    intros A okA near (R1 & R2 & R3 & R4 & R5). repeat split.
    - intros e x Hx He. induction Hx; constructor; auto.
    - intros e x y Hx Hy H. induction H; constructor; inversion Hx; inversion Hy; subst; auto.
    - intros e e' x y Hx Hy He H. induction H; constructor; inversion Hx; inversion Hy; subst; eauto.
    - intros e e' x y z Hx Hy Hz H. revert z Hz. induction H; intros z Hz H'; inversion H'; subst; constructor; inversion Hx; inversion Hy; inversion Hz; subst; eauto.
    - intros x y Hx Hy H. induction H; auto. inversion Hx; inversion Hy; subst. f_equal; auto.
  Qed.
  Lemma tol_iff : forall A (ok ok' : A -> Prop) near near', tolerance ok near -> (forall x, ok' x -> ok x) ->
    (forall e x y, ok' x -> ok' y -> (near' e x y <-> near e x y)) -> tolerance ok' near'.
  Proof.
    intros A ok ok' near near' (R1 & R2 & R3 & R4 & R5) Hok Hi. repeat split.
    - intros e x Hx He. apply Hi; auto.
    - intros e x y Hx Hy H. apply Hi in H; auto. apply Hi; auto.
    - intros e e' x y Hx Hy He H. apply Hi in H; auto. apply Hi; eauto.
    - intros e e' x y z Hx Hy Hz H H'. apply Hi in H; auto. apply Hi in H'; auto. apply Hi; eauto.
    - intros x y Hx Hy H. apply Hi in H; auto.
  Qed.
  Lemma all_True : forall A (l : list A), Forall (fun _ => True) l. Proof. intros. apply Forall_forall. auto. Qed.
  Lemma all_True2 : forall A (l : list (list A)), Forall (Forall (fun _ => True)) l. Proof. intros. apply Forall_forall. intros. apply all_True. Qed.
  Lemma Ok_true_iff : forall (r : res bool) P, (exists b, r = Ok b /\ (b = true <-> P)) -> (r = Ok true <-> P).
  Proof. intros r P (b & -> & H). rewrite <- H. split; congruence. Qed.

  Theorem C77_tolerance_vector : forall N,
    tolerance (fun v : list R => length v = N) (fun e u v => v_abs_diff_eq N (within e) u v = Ok true).
  Proof.
    intros N. eapply tol_iff. apply (F2_tol within_tol). intros; apply all_True. intros e u v Hu Hv.
    apply Ok_true_iff. apply v_ade_F2; auto.
  Qed.
  Theorem C77_tolerance_matrix : forall M N, (0 < M)%nat ->
    tolerance (fun m : list (list R) => rect M N m) (fun e a b => m_abs_diff_eq M N (within e) a b = Ok true).
  Proof.
    intros M N HM. eapply tol_iff. apply (F2_tol (F2_tol within_tol)). intros; apply all_True2. intros e u v Hu Hv.
    apply Ok_true_iff. apply m_ade_F2; auto.
  Qed.
  Theorem C77_tolerance_complex : tolerance (fun _ : complex R => True) (fun e a b => c_abs_diff_eq (within e) a b = Ok true).
  Proof.
    pose proof (C77_tolerance_vector 2) as (R1 & R2 & R3 & R4 & R5).
    assert (L : forall z : complex R, length (c_into_vector z) = 2%nat) by (intros []; reflexivity).
    repeat split; unfold c_abs_diff_eq.
    - intros e x _ He. apply R1; auto.
    - intros e x y _ _. apply R2; auto.
    - intros e e' x y _ _ He. apply R3; auto.
    - intros e e' x y z _ _ _. apply R4; auto.
    - intros [] [] _ _ H. apply R5 in H; auto. cbn in H. injection H as <- <-; reflexivity.
  Qed.
  Theorem C77_tolerance_quaternion : tolerance (fun _ : quat R => True) (fun e a b => q_abs_diff_eq (within e) a b = Ok true).
  Proof.
    pose proof (C77_tolerance_vector 4) as (R1 & R2 & R3 & R4 & R5).
    assert (L : forall z : quat R, length (q_into_vector z) = 4%nat) by (intros []; reflexivity).
    repeat split; unfold q_abs_diff_eq.
    - intros e x _ He. apply R1; auto.
    - intros e x y _ _. apply R2; auto.
    - intros e e' x y _ _ He. apply R3; auto.
    - intros e e' x y z _ _ _. apply R4; auto.
    - intros [] [] _ _ H. apply R5 in H; auto. cbn in H. injection H as <- <- <- <-; reflexivity.
  Qed.
  Theorem C77_tolerance_moebius : tolerance (fun m : list (list R) => rect 2 2 m) (fun e a b => mo_abs_diff_eq (within e) a b = Ok true).
  Proof. apply C77_tolerance_matrix. lia. Qed.
  Theorem C77_tolerance_linear : forall N, (0 < N)%nat ->
    tolerance (fun m : list (list R) => rect N N m) (fun e a b => linear_abs_diff_eq N (within e) a b = Ok true).
  Proof. intros N H. apply C77_tolerance_matrix. exact H. Qed.
  Theorem C77_tolerance_shift : forall N,
    tolerance (fun v : list R => length v = N) (fun e u v => shift_abs_diff_eq N (within e) u v = Ok true).
  Proof. exact C77_tolerance_vector. Qed.
  Theorem C77_tolerance_scale : tolerance (fun _ : R => True) (fun e a b => scale_abs_diff_eq (within e) a b = Ok true).
  Proof.
    eapply tol_iff. apply within_tol. auto. intros e x y _ _. unfold scale_abs_diff_eq. split; congruence.
  Qed.
  Theorem C77_tolerance_rotation2 : tolerance (fun _ : complex R => True) (fun e a b => rot2_abs_diff_eq (within e) a b = Ok true).
  Proof.
    eapply tol_iff. apply C77_tolerance_complex. auto. intros e x y _ _.
    rewrite (Ok_true_iff (C77_rotation2 (within e) x y)), (Ok_true_iff (C77_complex (within e) x y)). tauto.
  Qed.
  Theorem C77_tolerance_rotation3 : tolerance (fun _ : quat R => True) (fun e a b => rot3_abs_diff_eq (within e) a b = Ok true).
  Proof. exact C77_tolerance_quaternion. Qed.
  (** Chains of any two types whose comparisons behave. *)
  Theorem C77_tolerance_chain : forall A B (okA : A -> Prop) (okB : B -> Prop) (ea : R -> A -> A -> res bool) (eb : R -> B -> B -> res bool),
    tolerance okA (fun e x y => ea e x y = Ok true) -> tolerance okB (fun e x y => eb e x y = Ok true) ->
    tolerance (fun c => okA (fst c) /\ okB (snd c)) (fun e c d => chain_abs_diff_eq (ea e) (eb e) c d = Ok true).
  Proof.
    intros A B okA okB ea eb (R1 & R2 & R3 & R4 & R5) (S1 & S2 & S3 & S4 & S5).
    assert (I : forall e c d, chain_abs_diff_eq (ea e) (eb e) c d = Ok true <-> ea e (fst c) (fst d) = Ok true /\ eb e (snd c) (snd d) = Ok true)
      by (intros; apply C77_chain).
    repeat split.
    - intros e x (P1 & P2) He. apply I. auto.
    - intros e x y (P1 & P2) (Q1 & Q2) H. apply I in H as (H1 & H2). apply I. auto.
    - intros e e' x y (P1 & P2) (Q1 & Q2) He H. apply I in H as (H1 & H2). apply I. split; [eapply R3|eapply S3]; eassumption.
    - intros e e' x y z (P1 & P2) (Q1 & Q2) (O1 & O2) H H'. apply I in H as (H1 & H2), H' as (H3 & H4). apply I. split; [eapply R4; [| | |apply H1|apply H3]|eapply S4; [| | |apply H2|apply H4]]; eassumption.
    - intros [a b] [c d] (P1 & P2) (Q1 & Q2) H. apply I in H as (H1 & H2). cbn [fst snd] in *. f_equal; auto.
  Qed.

  Example C77_ex : v_abs_diff_eq 3 (within (1/2)) [1; 2; 3] [1.25; 2; 2.5] = Ok true /\ v_abs_diff_eq 3 (within (1/2)) [1; 2; 3] [1; 2; 4] = Ok false.
  Proof.
    destruct (@v_ade_F2 R (within (1/2)) 3 [1; 2; 3] [1.25; 2; 2.5] eq_refl eq_refl) as (b & E & Hb).
    destruct (@v_ade_F2 R (within (1/2)) 3 [1; 2; 3] [1; 2; 4] eq_refl eq_refl) as (c & Ec & Hc). split.
    - rewrite E. f_equal. apply Hb. repeat constructor; apply within_i; unfold Rabs; destruct (Rcase_abs _); lra.
    - rewrite Ec. f_equal. destruct c; auto. exfalso. pose proof (proj1 Hc eq_refl) as H. pose proof (proj1 (@F2_nth R _ [1; 2; 3] [1; 2; 4] eq_refl) H) as K.
      pose proof (K 2%nat 3 4 eq_refl eq_refl) as Z. apply within_i in Z. unfold Rabs in Z. destruct (Rcase_abs _); lra.
  Qed.
  Example C77_matrix_empty : m_abs_diff_eq 0 3 (within 1) [] [] = Panic.
  Proof. apply C77_matrix; repeat constructor. Qed.
End Reals.

Print Assumptions C77_vector.
Print Assumptions C77_matrix.
Print Assumptions C77_complex.
Print Assumptions C77_quaternion.
Print Assumptions C77_moebius.
Print Assumptions C77_linear.
Print Assumptions C77_shift.
Print Assumptions C77_scale.
Print Assumptions C77_rotation2.
Print Assumptions C77_rotation3.
Print Assumptions C77_chain.
Print Assumptions C77_tolerance_vector.
Print Assumptions C77_tolerance_matrix.
Print Assumptions C77_tolerance_complex.
Print Assumptions C77_tolerance_quaternion.
Print Assumptions C77_tolerance_moebius.
Print Assumptions C77_tolerance_linear.
Print Assumptions C77_tolerance_shift.
Print Assumptions C77_tolerance_scale.
Print Assumptions C77_tolerance_rotation2.
Print Assumptions C77_tolerance_rotation3.
Print Assumptions C77_tolerance_chain.
