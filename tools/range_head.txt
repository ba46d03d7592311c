(** C109: range analysis of machine integer computations.  (The list of theorems, one per operation of the API, was produced by
    tools/gen_range.py; every statement is spelled out here.) *)
From Coq Require Import ZArith Lia Factorial.
From Verif Require Import SpecFacts VFacts MFacts MatProofs AlgFacts SquareModel SpecDet DetFacts SqProofs MoebiusModel TransformModel SpecRing SpecRange RelFacts PropRel PropExact.
Set Implicit Arguments.
Local Open Scope list_scope.
Local Open Scope Z_scope.

Section Rg.
  Context (signed : bool) (w : Z) (Hw : width signed w).
  Local Notation rg := (range_ops signed w).
  Local Notation chk := (checked_ops signed w).
  Lemma lax_panic : forall A B (S : A -> B -> Prop) b, rrel false S Panic b.
  Proof. intros. destruct b; cbn; auto. Qed.
  Lemma clip_sound : forall lo hi x, lo <= x <= hi -> rrel false inside (clip signed w lo hi) (check signed w x).
  Proof.
    intros lo hi x H. unfold clip. destruct (_ && _)%bool eqn:E; [|apply lax_panic]. apply andb_prop in E as (A & B). apply Z.leb_le in A, B.
    unfold check. replace (in_wordb signed w x) with true. { exact H. } symmetry. apply in_wordb_spec. split; lia.
  Qed.
  Lemma mul_mid : forall a b x y, a <= x <= b -> Z.min (a * y) (b * y) <= x * y <= Z.max (a * y) (b * y).
  Proof.
    intros a b x y H. destruct (Z_le_gt_dec 0 y) as [P|P].
    - pose proof (Z.mul_le_mono_nonneg_r a x y P ltac:(lia)). pose proof (Z.mul_le_mono_nonneg_r x b y P ltac:(lia)). lia.
    - pose proof (Z.mul_le_mono_nonpos_r a x y ltac:(lia) ltac:(lia)). pose proof (Z.mul_le_mono_nonpos_r x b y ltac:(lia) ltac:(lia)). lia.
  Qed.
  Lemma corner_mul : forall a b c d x y, a <= x <= b -> c <= y <= d ->
    min4 (a * c) (a * d) (b * c) (b * d) <= x * y <= max4 (a * c) (a * d) (b * c) (b * d).
  Proof.
    intros a b c d x y H1 H2. unfold min4, max4.
    pose proof (@mul_mid a b x y H1). pose proof (@mul_mid c d y a H2) as K2. pose proof (@mul_mid c d y b H2) as K3.
    rewrite !(Z.mul_comm _ a) in K2. rewrite !(Z.mul_comm _ b) in K3. lia.
  Qed.
  Lemma quot_mid_num : forall a b x y, a <= x <= b -> y <> 0 -> Z.min (Z.quot a y) (Z.quot b y) <= Z.quot x y <= Z.max (Z.quot a y) (Z.quot b y).
  Proof.
    intros a b x y H N. destruct (Z_lt_le_dec 0 y) as [P|P].
    - pose proof (Z.quot_le_mono a x y P ltac:(lia)). pose proof (Z.quot_le_mono x b y P ltac:(lia)). lia.
    - assert (Q : 0 < - y) by lia. pose proof (Z.quot_le_mono a x (- y) Q ltac:(lia)) as A. pose proof (Z.quot_le_mono x b (- y) Q ltac:(lia)) as B.
      rewrite !Z.quot_opp_r in A, B by auto. lia.
  Qed.
  Lemma quot_mid_den_pos : forall a c d y, 0 < c -> c <= y <= d -> Z.min (Z.quot a c) (Z.quot a d) <= Z.quot a y <= Z.max (Z.quot a c) (Z.quot a d).
  Proof.
    intros a c d y P H. destruct (Z_le_gt_dec 0 a) as [Q|Q].
    - pose proof (Z.quot_le_compat_l a c y Q ltac:(lia)). pose proof (Z.quot_le_compat_l a y d Q ltac:(lia)). lia.
    - assert (Q' : 0 <= - a) by lia. pose proof (Z.quot_le_compat_l (- a) c y Q' ltac:(lia)) as A. pose proof (Z.quot_le_compat_l (- a) y d Q' ltac:(lia)) as B.
      rewrite !Z.quot_opp_l in A, B by lia. lia.
  Qed.
  Lemma quot_mid_den : forall a c d y, (0 < c \/ d < 0) -> c <= y <= d -> Z.min (Z.quot a c) (Z.quot a d) <= Z.quot a y <= Z.max (Z.quot a c) (Z.quot a d).
  Proof.
    intros a c d y [P|P] H. { apply quot_mid_den_pos; auto. }
    pose proof (@quot_mid_den_pos a (- d) (- c) (- y) ltac:(lia) ltac:(lia)) as K. rewrite !Z.quot_opp_r in K by lia. lia.
  Qed.
  Lemma corner_quot : forall a b c d x y, a <= x <= b -> c <= y <= d -> (0 < c \/ d < 0) ->
    min4 (Z.quot a c) (Z.quot a d) (Z.quot b c) (Z.quot b d) <= Z.quot x y <= max4 (Z.quot a c) (Z.quot a d) (Z.quot b c) (Z.quot b d).
  Proof.
    intros a b c d x y H1 H2 N. unfold min4, max4. pose proof (@quot_mid_num a b x y H1 ltac:(lia)).
    pose proof (@quot_mid_den a c d y N H2). pose proof (@quot_mid_den b c d y N H2). lia.
  Qed.
  Lemma range_rel : OpsRel false inside rg chk.
  Proof.
    constructor; cbn [o_zero o_one o_add o_sub o_mul o_neg range_ops checked_ops].
    - unfold inside. cbn. lia.
    - unfold inside. cbn. lia.
    - intros [a b] x [c d] y H1 H2. unfold inside in *. cbn [fst snd] in *. apply clip_sound. lia.
    - intros [a b] x [c d] y H1 H2. unfold inside in *. cbn [fst snd] in *. apply clip_sound. lia.
    - intros [a b] x [c d] y H1 H2. unfold inside in *. cbn [fst snd] in *. apply clip_sound. apply corner_mul; auto.
    - intros [a b] x H1. unfold inside in *. cbn [fst snd] in *. apply clip_sound. lia.
  Qed.
  Lemma range_divrel : DivRel false inside rg chk.
  Proof.
    intros [a b] x [c d] y H1 H2. unfold inside in H1, H2. cbn [fst snd o_div range_ops checked_ops] in *.
    destruct (_ && _)%bool eqn:E; [apply lax_panic|]. assert (N : 0 < c \/ d < 0).
    { apply Bool.andb_false_iff in E as [E|E]; apply Z.leb_gt in E; lia. }
    replace (y =? 0) with false by (symmetry; apply Z.eqb_neq; lia). apply clip_sound. apply corner_quot; auto.
  Qed.
  Lemma range_remrel : RemRel false inside rg chk.
  Proof.
    intros [a b] x [c d] y H1 H2. unfold inside in H1, H2. cbn [fst snd o_rem range_ops checked_ops] in *.
    destruct (_ && _)%bool eqn:E; [apply lax_panic|]. assert (N : 0 < c \/ d < 0).
    { apply Bool.andb_false_iff in E as [E|E]; apply Z.leb_gt in E; lia. }
    replace (y =? 0) with false by (symmetry; apply Z.eqb_neq; lia).
    pose proof (clip_sound (corner_quot H1 H2 N)) as K. unfold clip in K |- *. clear E. destruct ((int_min signed w <=? _) && _)%bool; cbn [bind]; [|apply lax_panic].
    unfold check in K. destruct (in_wordb signed w (Z.quot x y)); cbn in K; [|contradiction]. unfold inside. cbn [fst snd].
    assert (Y : y <> 0) by lia. pose proof (Z.rem_bound_abs x y Y) as B. assert (S1 : 0 <= x -> 0 <= Z.rem x y) by (apply Z.rem_nonneg; auto). assert (S2 : x <= 0 -> Z.rem x y <= 0) by (apply Z.rem_nonpos; auto).
    assert (L : Z.abs (Z.rem x y) <= Z.abs x).
    { rewrite <- Z.rem_abs by auto. rewrite Z.rem_mod_nonneg by lia. apply Z.mod_le; lia. }
    clear K. generalize dependent (Z.rem x y). intros q B S1 S2 L. clear N.
    destruct (Z.ltb_spec a 0), (Z.ltb_spec 0 b); cbn [rrel fst snd]; lia.
  Qed.
End Rg.
Section ExactIn.
  Context (signed : bool) (w : Z) {X : Type} (f : Ops Z -> res X) (P : X -> Prop).
  Lemma exact_in_intro : (exists s, f (checked_ops signed w) = Ok s /\ P s) ->
    (forall s, f (checked_ops signed w) = Ok s -> f z_ops = Ok s) -> (forall s, f (checked_ops signed w) = Ok s -> f (wrapping_ops signed w) = Ok s) ->
    exact_in signed w f P.
  Proof. intros (s & E & K) A B. exists s. auto. Qed.
End ExactIn.
Lemma exact_in_mono : forall signed w X (f : Ops Z -> res X) (P Q : X -> Prop), (forall s, P s -> Q s) -> exact_in signed w f P -> exact_in signed w f Q.
Proof. intros signed w X f P Q H (s & A & B & C & D). exists s. auto. Qed.
Lemma v_inside_length : forall u x, v_inside u x -> length u = length x.
Proof. intros u x H. exact (Forall2_len H). Qed.
Lemma m_inside_rect : forall M N u x, rect M N u -> m_inside u x -> rect M N x.
Proof.
  intros M N u x (L & F) H. split. { rewrite <- L. symmetry. exact (Forall2_len H). }
  clear L. induction H; constructor; inversion F; subst; auto. erewrite <- v_inside_length; eauto.
Qed.
Ltac in_length := lazymatch goal with K : v_inside _ ?x |- length ?x = _ => rewrite <- (v_inside_length K); assumption end.
Ltac in_rect := lazymatch goal with K : m_inside ?u ?x |- rect _ _ ?x => apply (@m_inside_rect _ _ u x); assumption end.
Local Open Scope nat_scope.
