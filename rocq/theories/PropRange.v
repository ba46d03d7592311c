(** C109: range analysis of machine integer computations.  (The list of theorems, one per operation of the API, was produced by
    tools/gen_range.py; every statement is spelled out here.) *)
From Coq Require Import ZArith Lia Factorial.
From Verif Require Import SpecFacts VFacts MFacts MatProofs AlgFacts SquareModel SpecDet DetFacts SqProofs MoebiusModel TransformModel SpecRing SpecRange RelFacts PropRel PropExact.
Set Implicit Arguments.
Local Open Scope list_scope.
Local Open Scope Z_scope.

Section Rg.
  Context (signed : bool) (w : Z) (Hw : width signed w).
  Local Notation rg := (range_ops signed w).
  Local Notation chk := (checked_ops signed w).
  Lemma lax_panic : forall A B (S : A -> B -> Prop) b, rrel false S Panic b.
  Proof. intros. destruct b; cbn; auto. Qed.
  Lemma clip_sound : forall lo hi x, lo <= x <= hi -> rrel false inside (clip signed w lo hi) (check signed w x).
  Proof.
    intros lo hi x H. unfold clip. destruct (_ && _)%bool eqn:E; [|apply lax_panic]. apply andb_prop in E as (A & B). apply Z.leb_le in A, B.
    unfold check. replace (in_wordb signed w x) with true. { exact H. } symmetry. apply in_wordb_spec. split; lia.
  Qed.
  Lemma mul_mid : forall a b x y, a <= x <= b -> Z.min (a * y) (b * y) <= x * y <= Z.max (a * y) (b * y).
  Proof.
    intros a b x y H. destruct (Z_le_gt_dec 0 y) as [P|P].
    - pose proof (Z.mul_le_mono_nonneg_r a x y P ltac:(lia)). pose proof (Z.mul_le_mono_nonneg_r x b y P ltac:(lia)). lia.
    - pose proof (Z.mul_le_mono_nonpos_r a x y ltac:(lia) ltac:(lia)). pose proof (Z.mul_le_mono_nonpos_r x b y ltac:(lia) ltac:(lia)). lia.
  Qed.
  Lemma corner_mul : forall a b c d x y, a <= x <= b -> c <= y <= d ->
    min4 (a * c) (a * d) (b * c) (b * d) <= x * y <= max4 (a * c) (a * d) (b * c) (b * d).
  Proof.
    intros a b c d x y H1 H2. unfold min4, max4.
    pose proof (@mul_mid a b x y H1). pose proof (@mul_mid c d y a H2) as K2. pose proof (@mul_mid c d y b H2) as K3.
    rewrite !(Z.mul_comm _ a) in K2. rewrite !(Z.mul_comm _ b) in K3. lia.
  Qed.
  Lemma quot_mid_num : forall a b x y, a <= x <= b -> y <> 0 -> Z.min (Z.quot a y) (Z.quot b y) <= Z.quot x y <= Z.max (Z.quot a y) (Z.quot b y).
  Proof.
    intros a b x y H N. destruct (Z_lt_le_dec 0 y) as [P|P].
    - pose proof (Z.quot_le_mono a x y P ltac:(lia)). pose proof (Z.quot_le_mono x b y P ltac:(lia)). lia.
    - assert (Q : 0 < - y) by lia. pose proof (Z.quot_le_mono a x (- y) Q ltac:(lia)) as A. pose proof (Z.quot_le_mono x b (- y) Q ltac:(lia)) as B.
      rewrite !Z.quot_opp_r in A, B by auto. lia.
  Qed.
  Lemma quot_mid_den_pos : forall a c d y, 0 < c -> c <= y <= d -> Z.min (Z.quot a c) (Z.quot a d) <= Z.quot a y <= Z.max (Z.quot a c) (Z.quot a d).
  Proof.
    intros a c d y P H. destruct (Z_le_gt_dec 0 a) as [Q|Q].
    - pose proof (Z.quot_le_compat_l a c y Q ltac:(lia)). pose proof (Z.quot_le_compat_l a y d Q ltac:(lia)). lia.
    - assert (Q' : 0 <= - a) by lia. pose proof (Z.quot_le_compat_l (- a) c y Q' ltac:(lia)) as A. pose proof (Z.quot_le_compat_l (- a) y d Q' ltac:(lia)) as B.
      rewrite !Z.quot_opp_l in A, B by lia. lia.
  Qed.
  Lemma quot_mid_den : forall a c d y, (0 < c \/ d < 0) -> c <= y <= d -> Z.min (Z.quot a c) (Z.quot a d) <= Z.quot a y <= Z.max (Z.quot a c) (Z.quot a d).
  Proof.
    intros a c d y [P|P] H. { apply quot_mid_den_pos; auto. }
    pose proof (@quot_mid_den_pos a (- d) (- c) (- y) ltac:(lia) ltac:(lia)) as K. rewrite !Z.quot_opp_r in K by lia. lia.
  Qed.
  Lemma corner_quot : forall a b c d x y, a <= x <= b -> c <= y <= d -> (0 < c \/ d < 0) ->
    min4 (Z.quot a c) (Z.quot a d) (Z.quot b c) (Z.quot b d) <= Z.quot x y <= max4 (Z.quot a c) (Z.quot a d) (Z.quot b c) (Z.quot b d).
  Proof.
    intros a b c d x y H1 H2 N. unfold min4, max4. pose proof (@quot_mid_num a b x y H1 ltac:(lia)).
    pose proof (@quot_mid_den a c d y N H2). pose proof (@quot_mid_den b c d y N H2). lia.
  Qed.
  Lemma range_rel : OpsRel false inside rg chk.
  Proof.
    constructor; cbn [o_zero o_one o_add o_sub o_mul o_neg range_ops checked_ops].
    - unfold inside. cbn. lia.
    - unfold inside. cbn. lia.
    - intros [a b] x [c d] y H1 H2. unfold inside in *. cbn [fst snd] in *. apply clip_sound. lia.
    - intros [a b] x [c d] y H1 H2. unfold inside in *. cbn [fst snd] in *. apply clip_sound. lia.
    - intros [a b] x [c d] y H1 H2. unfold inside in *. cbn [fst snd] in *. apply clip_sound. apply corner_mul; auto.
    - intros [a b] x H1. unfold inside in *. cbn [fst snd] in *. apply clip_sound. lia.
  Qed.
  Lemma range_divrel : DivRel false inside rg chk.
  Proof.
    intros [a b] x [c d] y H1 H2. unfold inside in H1, H2. cbn [fst snd o_div range_ops checked_ops] in *.
    destruct (_ && _)%bool eqn:E; [apply lax_panic|]. assert (N : 0 < c \/ d < 0).
    { apply Bool.andb_false_iff in E as [E|E]; apply Z.leb_gt in E; lia. }
    replace (y =? 0) with false by (symmetry; apply Z.eqb_neq; lia). apply clip_sound. apply corner_quot; auto.
  Qed.
  Lemma range_remrel : RemRel false inside rg chk.
  Proof.
    intros [a b] x [c d] y H1 H2. unfold inside in H1, H2. cbn [fst snd o_rem range_ops checked_ops] in *.
    destruct (_ && _)%bool eqn:E; [apply lax_panic|]. assert (N : 0 < c \/ d < 0).
    { apply Bool.andb_false_iff in E as [E|E]; apply Z.leb_gt in E; lia. }
    replace (y =? 0) with false by (symmetry; apply Z.eqb_neq; lia).
    pose proof (clip_sound (corner_quot H1 H2 N)) as K. unfold clip in K |- *. clear E. destruct ((int_min signed w <=? _) && _)%bool; cbn [bind]; [|apply lax_panic].
    unfold check in K. destruct (in_wordb signed w (Z.quot x y)); cbn in K; [|contradiction]. unfold inside. cbn [fst snd].
    assert (Y : y <> 0) by lia. pose proof (Z.rem_bound_abs x y Y) as B. assert (S1 : 0 <= x -> 0 <= Z.rem x y) by (apply Z.rem_nonneg; auto). assert (S2 : x <= 0 -> Z.rem x y <= 0) by (apply Z.rem_nonpos; auto).
    assert (L : Z.abs (Z.rem x y) <= Z.abs x).
    { rewrite <- Z.rem_abs by auto. rewrite Z.rem_mod_nonneg by lia. apply Z.mod_le; lia. }
    clear K. generalize dependent (Z.rem x y). intros q B S1 S2 L. clear N.
    destruct (Z.ltb_spec a 0), (Z.ltb_spec 0 b); cbn [rrel fst snd]; lia.
  Qed.
End Rg.
Section ExactIn.
  Context (signed : bool) (w : Z) {X : Type} (f : Ops Z -> res X) (P : X -> Prop).
  Lemma exact_in_intro : (exists s, f (checked_ops signed w) = Ok s /\ P s) ->
    (forall s, f (checked_ops signed w) = Ok s -> f z_ops = Ok s) -> (forall s, f (checked_ops signed w) = Ok s -> f (wrapping_ops signed w) = Ok s) ->
    exact_in signed w f P.
  Proof. intros (s & E & K) A B. exists s. auto. Qed.
End ExactIn.
Lemma exact_in_mono : forall signed w X (f : Ops Z -> res X) (P Q : X -> Prop), (forall s, P s -> Q s) -> exact_in signed w f P -> exact_in signed w f Q.
Proof. intros signed w X f P Q H (s & A & B & C & D). exists s. auto. Qed.
Lemma v_inside_length : forall u x, v_inside u x -> length u = length x.
Proof. intros u x H. exact (Forall2_len H). Qed.
Lemma m_inside_rect : forall M N u x, rect M N u -> m_inside u x -> rect M N x.
Proof.
  intros M N u x (L & F) H. split. { rewrite <- L. symmetry. exact (Forall2_len H). }
  clear L. induction H; constructor; inversion F; subst; auto. erewrite <- v_inside_length; eauto.
Qed.
Ltac in_length := lazymatch goal with K : v_inside _ ?x |- length ?x = _ => rewrite <- (v_inside_length K); assumption end.
Ltac in_rect := lazymatch goal with K : m_inside ?u ?x |- rect _ _ ?x => apply (@m_inside_rect _ _ u x); assumption end.
Local Open Scope nat_scope.

(* ------------------------------------------------------------------------- *)
(** * C109: if interval arithmetic finds no overflow, there is none            *)
Section C109.
  Context (signed : bool) (w : Z) (Hw : width signed w).
  Local Notation ranges := (range_ops signed w).

  Theorem C109_v_add : forall N u v x y r, length u = N -> length v = N -> v_inside u x -> v_inside v y -> v_add ranges N u v = Ok r -> exact_in signed w (fun o => v_add o N x y) (v_inside r).
  Proof. intros. assert (length x = N) by in_length. assert (length y = N) by in_length. apply exact_in_intro; [|intros s Hs; eapply C70_v_add; eassumption|intros s Hs; eapply C71_release_v_add; eassumption]. eapply v_rel_out; [|eassumption]. eapply (rr_v_add (@range_rel signed w)); ex_args. Qed.
  Theorem C109_v_sub : forall N u v x y r, length u = N -> length v = N -> v_inside u x -> v_inside v y -> v_sub ranges N u v = Ok r -> exact_in signed w (fun o => v_sub o N x y) (v_inside r).
  Proof. intros. assert (length x = N) by in_length. assert (length y = N) by in_length. apply exact_in_intro; [|intros s Hs; eapply C70_v_sub; eassumption|intros s Hs; eapply C71_release_v_sub; eassumption]. eapply v_rel_out; [|eassumption]. eapply (rr_v_sub (@range_rel signed w)); ex_args. Qed.
  Theorem C109_v_mul : forall N u v x y r, length u = N -> length v = N -> v_inside u x -> v_inside v y -> v_mul ranges N u v = Ok r -> exact_in signed w (fun o => v_mul o N x y) (v_inside r).
  Proof. intros. assert (length x = N) by in_length. assert (length y = N) by in_length. apply exact_in_intro; [|intros s Hs; eapply C70_v_mul; eassumption|intros s Hs; eapply C71_release_v_mul; eassumption]. eapply v_rel_out; [|eassumption]. eapply (rr_v_mul (@range_rel signed w)); ex_args. Qed.
  Theorem C109_v_neg : forall N u x r, length u = N -> v_inside u x -> v_neg ranges u = Ok r -> exact_in signed w (fun o => v_neg o x) (v_inside r).
  Proof. intros. assert (length x = N) by in_length. apply exact_in_intro; [|intros s Hs; eapply C70_v_neg; eassumption|intros s Hs; eapply C71_release_v_neg; eassumption]. eapply v_rel_out; [|eassumption]. eapply (rr_v_neg (@range_rel signed w)); ex_args. Qed.
  Theorem C109_v_smul : forall N u v x y r, length u = N -> v_inside u x -> inside v y -> v_smul ranges u v = Ok r -> exact_in signed w (fun o => v_smul o x y) (v_inside r).
  Proof. intros. assert (length x = N) by in_length. apply exact_in_intro; [|intros s Hs; eapply C70_v_smul; eassumption|intros s Hs; eapply C71_release_v_smul; eassumption]. eapply v_rel_out; [|eassumption]. eapply (rr_v_smul (@range_rel signed w)); ex_args. Qed.
  Theorem C109_v_sum : forall N u x r, length u = N -> v_inside u x -> v_sum ranges u = Ok r -> exact_in signed w (fun o => v_sum o x) (inside r).
  Proof. intros. assert (length x = N) by in_length. apply exact_in_intro; [|intros s Hs; eapply C70_v_sum; eassumption|intros s Hs; eapply C71_release_v_sum; eassumption]. eapply s_rel_out; [|eassumption]. eapply (rr_v_sum (@range_rel signed w)); ex_args. Qed.
  Theorem C109_v_dot : forall N u v x y r, length u = N -> length v = N -> v_inside u x -> v_inside v y -> v_dot ranges N u v = Ok r -> exact_in signed w (fun o => v_dot o N x y) (inside r).
  Proof. intros. assert (length x = N) by in_length. assert (length y = N) by in_length. apply exact_in_intro; [|intros s Hs; eapply C70_v_dot; eassumption|intros s Hs; eapply C71_release_v_dot; eassumption]. eapply s_rel_out; [|eassumption]. eapply (rr_v_dot (@range_rel signed w)); ex_args. Qed.
  Theorem C109_v_square_length : forall N u x r, length u = N -> v_inside u x -> v_square_length ranges u = Ok r -> exact_in signed w (fun o => v_square_length o x) (inside r).
  Proof. intros. assert (length x = N) by in_length. apply exact_in_intro; [|intros s Hs; eapply C70_v_square_length; eassumption|intros s Hs; eapply C71_release_v_square_length; eassumption]. eapply s_rel_out; [|eassumption]. eapply (rr_v_square_length (@range_rel signed w)); ex_args. Qed.
  Theorem C109_v_cross2 : forall u v x y r, length u = 2 -> length v = 2 -> v_inside u x -> v_inside v y -> v_cross2 ranges u v = Ok r -> exact_in signed w (fun o => v_cross2 o x y) (inside r).
  Proof. intros. assert (length x = 2) by in_length. assert (length y = 2) by in_length. apply exact_in_intro; [|intros s Hs; eapply C70_v_cross2; eassumption|intros s Hs; eapply C71_release_v_cross2; eassumption]. eapply s_rel_out; [|eassumption]. eapply (rr_v_cross2 (@range_rel signed w)); ex_args. Qed.
  Theorem C109_v_cross3 : forall u v x y r, length u = 3 -> length v = 3 -> v_inside u x -> v_inside v y -> v_cross3 ranges u v = Ok r -> exact_in signed w (fun o => v_cross3 o x y) (v_inside r).
  Proof. intros. assert (length x = 3) by in_length. assert (length y = 3) by in_length. apply exact_in_intro; [|intros s Hs; eapply C70_v_cross3; eassumption|intros s Hs; eapply C71_release_v_cross3; eassumption]. eapply v_rel_out; [|eassumption]. eapply (rr_v_cross3 (@range_rel signed w)); ex_args. Qed.
  Theorem C109_v_cross4 : forall u v x y r, length u = 4 -> length v = 4 -> v_inside u x -> v_inside v y -> v_cross4 ranges u v = Ok r -> exact_in signed w (fun o => v_cross4 o x y) (v_inside r).
  Proof. intros. assert (length x = 4) by in_length. assert (length y = 4) by in_length. apply exact_in_intro; [|intros s Hs; eapply C70_v_cross4; eassumption|intros s Hs; eapply C71_release_v_cross4; eassumption]. eapply v_rel_out; [|eassumption]. eapply (rr_v_cross4 (@range_rel signed w)); ex_args. Qed.
  Theorem C109_v_div : forall N u v x y r, length u = N -> length v = N -> v_inside u x -> v_inside v y -> v_div ranges N u v = Ok r -> exact_in signed w (fun o => v_div o N x y) (v_inside r).
  Proof. intros. assert (length x = N) by in_length. assert (length y = N) by in_length. apply exact_in_intro; [|intros s Hs; eapply C70_v_div; eassumption|intros s Hs; eapply C71_release_v_div; eassumption]. eapply v_rel_out; [|eassumption]. eapply (rr_v_div (@range_divrel signed w)); ex_args. Qed.
  Theorem C109_v_sdiv : forall N u v x y r, length u = N -> v_inside u x -> inside v y -> v_sdiv ranges u v = Ok r -> exact_in signed w (fun o => v_sdiv o x y) (v_inside r).
  Proof. intros. assert (length x = N) by in_length. apply exact_in_intro; [|intros s Hs; eapply C70_v_sdiv; eassumption|intros s Hs; eapply C71_release_v_sdiv; eassumption]. eapply v_rel_out; [|eassumption]. eapply (rr_v_sdiv (@range_divrel signed w)); ex_args. Qed.
  Theorem C109_v_rem : forall N u v x y r, length u = N -> length v = N -> v_inside u x -> v_inside v y -> v_rem ranges N u v = Ok r -> exact_in signed w (fun o => v_rem o N x y) (v_inside r).
  Proof. intros. assert (length x = N) by in_length. assert (length y = N) by in_length. apply exact_in_intro; [|intros s Hs; eapply C70_v_rem; eassumption|intros s Hs; eapply C71_release_v_rem; eassumption]. eapply v_rel_out; [|eassumption]. eapply (rr_v_rem (@range_remrel signed w)); ex_args. Qed.
  Theorem C109_m_add : forall M N u v x y r, rect M N u -> rect M N v -> m_inside u x -> m_inside v y -> m_add ranges M N u v = Ok r -> exact_in signed w (fun o => m_add o M N x y) (m_inside r).
  Proof. intros. assert (rect M N x) by in_rect. assert (rect M N y) by in_rect. apply exact_in_intro; [|intros s Hs; eapply C70_m_add; eassumption|intros s Hs; eapply C71_release_m_add; eassumption]. eapply m_rel_out; [|eassumption]. eapply (rr_m_add (@range_rel signed w)); ex_args. Qed.
  Theorem C109_m_sub : forall M N u v x y r, rect M N u -> rect M N v -> m_inside u x -> m_inside v y -> m_sub ranges M N u v = Ok r -> exact_in signed w (fun o => m_sub o M N x y) (m_inside r).
  Proof. intros. assert (rect M N x) by in_rect. assert (rect M N y) by in_rect. apply exact_in_intro; [|intros s Hs; eapply C70_m_sub; eassumption|intros s Hs; eapply C71_release_m_sub; eassumption]. eapply m_rel_out; [|eassumption]. eapply (rr_m_sub (@range_rel signed w)); ex_args. Qed.
  Theorem C109_m_mul : forall M N u v x y r, rect M N u -> rect M N v -> m_inside u x -> m_inside v y -> m_mul ranges M N u v = Ok r -> exact_in signed w (fun o => m_mul o M N x y) (m_inside r).
  Proof. intros. assert (rect M N x) by in_rect. assert (rect M N y) by in_rect. apply exact_in_intro; [|intros s Hs; eapply C70_m_mul; eassumption|intros s Hs; eapply C71_release_m_mul; eassumption]. eapply m_rel_out; [|eassumption]. eapply (rr_m_mul (@range_rel signed w)); ex_args. Qed.
  Theorem C109_m_neg : forall M N u x r, rect M N u -> m_inside u x -> m_neg ranges u = Ok r -> exact_in signed w (fun o => m_neg o x) (m_inside r).
  Proof. intros. assert (rect M N x) by in_rect. apply exact_in_intro; [|intros s Hs; eapply C70_m_neg; eassumption|intros s Hs; eapply C71_release_m_neg; eassumption]. eapply m_rel_out; [|eassumption]. eapply (rr_m_neg (@range_rel signed w)); ex_args. Qed.
  Theorem C109_m_smul : forall M N u v x y r, rect M N u -> m_inside u x -> inside v y -> m_smul ranges u v = Ok r -> exact_in signed w (fun o => m_smul o x y) (m_inside r).
  Proof. intros. assert (rect M N x) by in_rect. apply exact_in_intro; [|intros s Hs; eapply C70_m_smul; eassumption|intros s Hs; eapply C71_release_m_smul; eassumption]. eapply m_rel_out; [|eassumption]. eapply (rr_m_smul (@range_rel signed w)); ex_args. Qed.
  Theorem C109_m_sum : forall M N u x r, rect M N u -> m_inside u x -> m_sum ranges u = Ok r -> exact_in signed w (fun o => m_sum o x) (inside r).
  Proof. intros. assert (rect M N x) by in_rect. apply exact_in_intro; [|intros s Hs; eapply C70_m_sum; eassumption|intros s Hs; eapply C71_release_m_sum; eassumption]. eapply s_rel_out; [|eassumption]. eapply (rr_m_sum (@range_rel signed w)); ex_args. Qed.
  Theorem C109_m_div : forall M N u v x y r, rect M N u -> rect M N v -> m_inside u x -> m_inside v y -> m_div ranges M N u v = Ok r -> exact_in signed w (fun o => m_div o M N x y) (m_inside r).
  Proof. intros. assert (rect M N x) by in_rect. assert (rect M N y) by in_rect. apply exact_in_intro; [|intros s Hs; eapply C70_m_div; eassumption|intros s Hs; eapply C71_release_m_div; eassumption]. eapply m_rel_out; [|eassumption]. eapply (rr_m_div (@range_divrel signed w)); ex_args. Qed.
  Theorem C109_m_sdiv : forall M N u v x y r, rect M N u -> m_inside u x -> inside v y -> m_sdiv ranges u v = Ok r -> exact_in signed w (fun o => m_sdiv o x y) (m_inside r).
  Proof. intros. assert (rect M N x) by in_rect. apply exact_in_intro; [|intros s Hs; eapply C70_m_sdiv; eassumption|intros s Hs; eapply C71_release_m_sdiv; eassumption]. eapply m_rel_out; [|eassumption]. eapply (rr_m_sdiv (@range_divrel signed w)); ex_args. Qed.
  Theorem C109_m_rem : forall M N u v x y r, rect M N u -> rect M N v -> m_inside u x -> m_inside v y -> m_rem ranges M N u v = Ok r -> exact_in signed w (fun o => m_rem o M N x y) (m_inside r).
  Proof. intros. assert (rect M N x) by in_rect. assert (rect M N y) by in_rect. apply exact_in_intro; [|intros s Hs; eapply C70_m_rem; eassumption|intros s Hs; eapply C71_release_m_rem; eassumption]. eapply m_rel_out; [|eassumption]. eapply (rr_m_rem (@range_remrel signed w)); ex_args. Qed.
  Theorem C109_m_dot : forall L M N u v x y r, rect L M u -> rect M N v -> m_inside u x -> m_inside v y -> m_dot ranges L M N u v = Ok r -> exact_in signed w (fun o => m_dot o L M N x y) (m_inside r).
  Proof. intros. assert (rect L M x) by in_rect. assert (rect M N y) by in_rect. apply exact_in_intro; [|intros s Hs; eapply C70_m_dot; eassumption|intros s Hs; eapply C71_release_m_dot; eassumption]. eapply m_rel_out; [|eassumption]. eapply (rr_m_dot (@range_rel signed w)); ex_args. Qed.
  Theorem C109_m_dot_v : forall M N u v x y r, rect M N u -> length v = N -> m_inside u x -> v_inside v y -> m_dot_v ranges M N u v = Ok r -> exact_in signed w (fun o => m_dot_v o M N x y) (v_inside r).
  Proof. intros. assert (rect M N x) by in_rect. assert (length y = N) by in_length. apply exact_in_intro; [|intros s Hs; eapply C70_m_dot_v; eassumption|intros s Hs; eapply C71_release_m_dot_v; eassumption]. eapply v_rel_out; [|eassumption]. eapply (rr_m_dot_v (@range_rel signed w)); ex_args. Qed.
  Theorem C109_v_dot_m : forall M N u v x y r, length u = M -> rect M N v -> v_inside u x -> m_inside v y -> v_dot_m ranges M N u v = Ok r -> exact_in signed w (fun o => v_dot_m o M N x y) (v_inside r).
  Proof. intros. assert (length x = M) by in_length. assert (rect M N y) by in_rect. apply exact_in_intro; [|intros s Hs; eapply C70_v_dot_m; eassumption|intros s Hs; eapply C71_release_v_dot_m; eassumption]. eapply v_rel_out; [|eassumption]. eapply (rr_v_dot_m (@range_rel signed w)); ex_args. Qed.
  Theorem C109_m_outer : forall M N u v x y r, length u = M -> length v = N -> v_inside u x -> v_inside v y -> m_outer ranges M N u v = Ok r -> exact_in signed w (fun o => m_outer o M N x y) (m_inside r).
  Proof. intros. assert (length x = M) by in_length. assert (length y = N) by in_length. apply exact_in_intro; [|intros s Hs; eapply C70_m_outer; eassumption|intros s Hs; eapply C71_release_m_outer; eassumption]. eapply m_rel_out; [|eassumption]. eapply (rr_m_outer (@range_rel signed w)); ex_args. Qed.
  Theorem C109_m_det : forall N u x r, rect N N u -> m_inside u x -> m_det ranges N u = Ok r -> exact_in signed w (fun o => m_det o N x) (inside r).
  Proof. intros. assert (rect N N x) by in_rect. apply exact_in_intro; [|intros s Hs; eapply C70_m_det; eassumption|intros s Hs; eapply C71_release_m_det; eassumption]. eapply s_rel_out; [|eassumption]. eapply (rr_m_det (@range_rel signed w)); ex_args. Qed.
  Theorem C109_m_cofactor : forall N i j u x r, rect N N u -> m_inside u x -> m_cofactor ranges N u i j = Ok r -> exact_in signed w (fun o => m_cofactor o N x i j) (inside r).
  Proof. intros. assert (rect N N x) by in_rect. apply exact_in_intro; [|intros s Hs; eapply C70_m_cofactor; eassumption|intros s Hs; eapply C71_release_m_cofactor; eassumption]. eapply s_rel_out; [|eassumption]. eapply (rr_m_cofactor (@range_rel signed w)); ex_args. Qed.
  Theorem C109_m_adj : forall N u x r, rect N N u -> m_inside u x -> m_adj ranges N u = Ok r -> exact_in signed w (fun o => m_adj o N x) (m_inside r).
  Proof. intros. assert (rect N N x) by in_rect. apply exact_in_intro; [|intros s Hs; eapply C70_m_adj; eassumption|intros s Hs; eapply C71_release_m_adj; eassumption]. eapply m_rel_out; [|eassumption]. eapply (rr_m_adj (@range_rel signed w)); ex_args. Qed.
  Theorem C109_m_inv : forall N u x r, rect N N u -> m_inside u x -> m_inv ranges N u = Ok r -> exact_in signed w (fun o => m_inv o N x) (m_inside r).
  Proof. intros. assert (rect N N x) by in_rect. apply exact_in_intro; [|intros s Hs; eapply C70_m_inv; eassumption|intros s Hs; eapply C71_release_m_inv; eassumption]. eapply m_rel_out; [|eassumption]. eapply (rr_m_inv (@range_rel signed w) (@range_divrel signed w)); ex_args. Qed.
  Theorem C109_c_add : forall u v x y r, c_inside u x -> c_inside v y -> c_add ranges u v = Ok r -> exact_in signed w (fun o => c_add o x y) (c_inside r).
  Proof. intros. apply exact_in_intro; [|intros s Hs; eapply C70_c_add; eassumption|intros s Hs; eapply C71_release_c_add; eassumption]. eapply c_rel_out; [|eassumption]. eapply (rr_c_add (@range_rel signed w)); ex_args. Qed.
  Theorem C109_c_sub : forall u v x y r, c_inside u x -> c_inside v y -> c_sub ranges u v = Ok r -> exact_in signed w (fun o => c_sub o x y) (c_inside r).
  Proof. intros. apply exact_in_intro; [|intros s Hs; eapply C70_c_sub; eassumption|intros s Hs; eapply C71_release_c_sub; eassumption]. eapply c_rel_out; [|eassumption]. eapply (rr_c_sub (@range_rel signed w)); ex_args. Qed.
  Theorem C109_c_mul : forall u v x y r, c_inside u x -> c_inside v y -> c_mul ranges u v = Ok r -> exact_in signed w (fun o => c_mul o x y) (c_inside r).
  Proof. intros. apply exact_in_intro; [|intros s Hs; eapply C70_c_mul; eassumption|intros s Hs; eapply C71_release_c_mul; eassumption]. eapply c_rel_out; [|eassumption]. eapply (rr_c_mul (@range_rel signed w)); ex_args. Qed.
  Theorem C109_c_neg : forall u x r, c_inside u x -> c_neg ranges u = Ok r -> exact_in signed w (fun o => c_neg o x) (c_inside r).
  Proof. intros. apply exact_in_intro; [|intros s Hs; eapply C70_c_neg; eassumption|intros s Hs; eapply C71_release_c_neg; eassumption]. eapply c_rel_out; [|eassumption]. eapply (rr_c_neg (@range_rel signed w)); ex_args. Qed.
  Theorem C109_c_conj : forall u x r, c_inside u x -> c_conj ranges u = Ok r -> exact_in signed w (fun o => c_conj o x) (c_inside r).
  Proof. intros. apply exact_in_intro; [|intros s Hs; eapply C70_c_conj; eassumption|intros s Hs; eapply C71_release_c_conj; eassumption]. eapply c_rel_out; [|eassumption]. eapply (rr_c_conj (@range_rel signed w)); ex_args. Qed.
  Theorem C109_c_mul_s : forall u v x y r, c_inside u x -> inside v y -> c_mul_s ranges u v = Ok r -> exact_in signed w (fun o => c_mul_s o x y) (c_inside r).
  Proof. intros. apply exact_in_intro; [|intros s Hs; eapply C70_c_mul_s; eassumption|intros s Hs; eapply C71_release_c_mul_s; eassumption]. eapply c_rel_out; [|eassumption]. eapply (rr_c_mul_s (@range_rel signed w)); ex_args. Qed.
  Theorem C109_c_norm_sqr : forall u x r, c_inside u x -> c_norm_sqr ranges u = Ok r -> exact_in signed w (fun o => c_norm_sqr o x) (inside r).
  Proof. intros. apply exact_in_intro; [|intros s Hs; eapply C70_c_norm_sqr; eassumption|intros s Hs; eapply C71_release_c_norm_sqr; eassumption]. eapply s_rel_out; [|eassumption]. eapply (rr_c_norm_sqr (@range_rel signed w)); ex_args. Qed.
  Theorem C109_c_dot : forall u v x y r, c_inside u x -> c_inside v y -> c_dot ranges u v = Ok r -> exact_in signed w (fun o => c_dot o x y) (inside r).
  Proof. intros. apply exact_in_intro; [|intros s Hs; eapply C70_c_dot; eassumption|intros s Hs; eapply C71_release_c_dot; eassumption]. eapply s_rel_out; [|eassumption]. eapply (rr_c_dot (@range_rel signed w)); ex_args. Qed.
  Theorem C109_c_inv : forall u x r, c_inside u x -> c_inv ranges u = Ok r -> exact_in signed w (fun o => c_inv o x) (c_inside r).
  Proof. intros. apply exact_in_intro; [|intros s Hs; eapply C70_c_inv; eassumption|intros s Hs; eapply C71_release_c_inv; eassumption]. eapply c_rel_out; [|eassumption]. eapply (rr_c_inv (@range_rel signed w) (@range_divrel signed w)); ex_args. Qed.
  Theorem C109_c_div : forall u v x y r, c_inside u x -> c_inside v y -> c_div ranges u v = Ok r -> exact_in signed w (fun o => c_div o x y) (c_inside r).
  Proof. intros. apply exact_in_intro; [|intros s Hs; eapply C70_c_div; eassumption|intros s Hs; eapply C71_release_c_div; eassumption]. eapply c_rel_out; [|eassumption]. eapply (rr_c_div (@range_rel signed w) (@range_divrel signed w)); ex_args. Qed.
  Theorem C109_q_add : forall u v x y r, q_inside u x -> q_inside v y -> q_add ranges u v = Ok r -> exact_in signed w (fun o => q_add o x y) (q_inside r).
  Proof. intros. apply exact_in_intro; [|intros s Hs; eapply C70_q_add; eassumption|intros s Hs; eapply C71_release_q_add; eassumption]. eapply q_rel_out; [|eassumption]. eapply (rr_q_add (@range_rel signed w)); ex_args. Qed.
  Theorem C109_q_sub : forall u v x y r, q_inside u x -> q_inside v y -> q_sub ranges u v = Ok r -> exact_in signed w (fun o => q_sub o x y) (q_inside r).
  Proof. intros. apply exact_in_intro; [|intros s Hs; eapply C70_q_sub; eassumption|intros s Hs; eapply C71_release_q_sub; eassumption]. eapply q_rel_out; [|eassumption]. eapply (rr_q_sub (@range_rel signed w)); ex_args. Qed.
  Theorem C109_q_mul : forall u v x y r, q_inside u x -> q_inside v y -> q_mul ranges u v = Ok r -> exact_in signed w (fun o => q_mul o x y) (q_inside r).
  Proof. intros. apply exact_in_intro; [|intros s Hs; eapply C70_q_mul; eassumption|intros s Hs; eapply C71_release_q_mul; eassumption]. eapply q_rel_out; [|eassumption]. eapply (rr_q_mul (@range_rel signed w)); ex_args. Qed.
  Theorem C109_q_neg : forall u x r, q_inside u x -> q_neg ranges u = Ok r -> exact_in signed w (fun o => q_neg o x) (q_inside r).
  Proof. intros. apply exact_in_intro; [|intros s Hs; eapply C70_q_neg; eassumption|intros s Hs; eapply C71_release_q_neg; eassumption]. eapply q_rel_out; [|eassumption]. eapply (rr_q_neg (@range_rel signed w)); ex_args. Qed.
  Theorem C109_q_conj : forall u x r, q_inside u x -> q_conj ranges u = Ok r -> exact_in signed w (fun o => q_conj o x) (q_inside r).
  Proof. intros. apply exact_in_intro; [|intros s Hs; eapply C70_q_conj; eassumption|intros s Hs; eapply C71_release_q_conj; eassumption]. eapply q_rel_out; [|eassumption]. eapply (rr_q_conj (@range_rel signed w)); ex_args. Qed.
  Theorem C109_q_mul_s : forall u v x y r, q_inside u x -> inside v y -> q_mul_s ranges u v = Ok r -> exact_in signed w (fun o => q_mul_s o x y) (q_inside r).
  Proof. intros. apply exact_in_intro; [|intros s Hs; eapply C70_q_mul_s; eassumption|intros s Hs; eapply C71_release_q_mul_s; eassumption]. eapply q_rel_out; [|eassumption]. eapply (rr_q_mul_s (@range_rel signed w)); ex_args. Qed.
  Theorem C109_q_mul_c : forall u v x y r, q_inside u x -> c_inside v y -> q_mul_c ranges u v = Ok r -> exact_in signed w (fun o => q_mul_c o x y) (q_inside r).
  Proof. intros. apply exact_in_intro; [|intros s Hs; eapply C70_q_mul_c; eassumption|intros s Hs; eapply C71_release_q_mul_c; eassumption]. eapply q_rel_out; [|eassumption]. eapply (rr_q_mul_c (@range_rel signed w)); ex_args. Qed.
  Theorem C109_c_mul_q : forall u v x y r, c_inside u x -> q_inside v y -> c_mul_q ranges u v = Ok r -> exact_in signed w (fun o => c_mul_q o x y) (q_inside r).
  Proof. intros. apply exact_in_intro; [|intros s Hs; eapply C70_c_mul_q; eassumption|intros s Hs; eapply C71_release_c_mul_q; eassumption]. eapply q_rel_out; [|eassumption]. eapply (rr_c_mul_q (@range_rel signed w)); ex_args. Qed.
  Theorem C109_q_norm_sqr : forall u x r, q_inside u x -> q_norm_sqr ranges u = Ok r -> exact_in signed w (fun o => q_norm_sqr o x) (inside r).
  Proof. intros. apply exact_in_intro; [|intros s Hs; eapply C70_q_norm_sqr; eassumption|intros s Hs; eapply C71_release_q_norm_sqr; eassumption]. eapply s_rel_out; [|eassumption]. eapply (rr_q_norm_sqr (@range_rel signed w)); ex_args. Qed.
  Theorem C109_q_dot : forall u v x y r, q_inside u x -> q_inside v y -> q_dot ranges u v = Ok r -> exact_in signed w (fun o => q_dot o x y) (inside r).
  Proof. intros. apply exact_in_intro; [|intros s Hs; eapply C70_q_dot; eassumption|intros s Hs; eapply C71_release_q_dot; eassumption]. eapply s_rel_out; [|eassumption]. eapply (rr_q_dot (@range_rel signed w)); ex_args. Qed.
  Theorem C109_q_inv : forall u x r, q_inside u x -> q_inv ranges u = Ok r -> exact_in signed w (fun o => q_inv o x) (q_inside r).
  Proof. intros. apply exact_in_intro; [|intros s Hs; eapply C70_q_inv; eassumption|intros s Hs; eapply C71_release_q_inv; eassumption]. eapply q_rel_out; [|eassumption]. eapply (rr_q_inv (@range_rel signed w) (@range_divrel signed w)); ex_args. Qed.
  Theorem C109_q_div : forall u v x y r, q_inside u x -> q_inside v y -> q_div ranges u v = Ok r -> exact_in signed w (fun o => q_div o x y) (q_inside r).
  Proof. intros. apply exact_in_intro; [|intros s Hs; eapply C70_q_div; eassumption|intros s Hs; eapply C71_release_q_div; eassumption]. eapply q_rel_out; [|eassumption]. eapply (rr_q_div (@range_rel signed w) (@range_divrel signed w)); ex_args. Qed.
  Theorem C109_rot2_apply : forall u v x y r, length v = 2 -> c_inside u x -> v_inside v y -> rot2_apply ranges u v = Ok r -> exact_in signed w (fun o => rot2_apply o x y) (v_inside r).
  Proof. intros. assert (length y = 2) by in_length. apply exact_in_intro; [|intros s Hs; eapply C70_rot2_apply; eassumption|intros s Hs; eapply C71_release_rot2_apply; eassumption]. eapply v_rel_out; [|eassumption]. eapply (rr_rot2_apply (@range_rel signed w)); ex_args. Qed.
  Theorem C109_rot3_apply : forall u v x y r, length v = 3 -> q_inside u x -> v_inside v y -> rot3_apply ranges u v = Ok r -> exact_in signed w (fun o => rot3_apply o x y) (v_inside r).
  Proof. intros. assert (length y = 3) by in_length. apply exact_in_intro; [|intros s Hs; eapply C70_rot3_apply; eassumption|intros s Hs; eapply C71_release_rot3_apply; eassumption]. eapply v_rel_out; [|eassumption]. eapply (rr_rot3_apply (@range_rel signed w)); ex_args. Qed.
  Theorem C109_mo_apply_self : forall u v x y r, rect 2 2 u -> m_inside u x -> inside v y -> mo_apply_self ranges u v = Ok r -> exact_in signed w (fun o => mo_apply_self o x y) (inside r).
  Proof. intros. assert (rect 2 2 x) by in_rect. apply exact_in_intro; [|intros s Hs; eapply C70_mo_apply_self; eassumption|intros s Hs; eapply C71_release_mo_apply_self; eassumption]. eapply s_rel_out; [|eassumption]. eapply (rr_mo_apply_self (@range_rel signed w) (@range_divrel signed w)); ex_args. Qed.
End C109.

(* ------------------------------------------------------------------------- *)
(** * Explicit conditions: how large the numbers may be                        *)
Local Open Scope Z_scope.
Section Const.
  Context {T : Type} (o : Ops T).
  (** Operations on arguments all of whose components are equal. *)
  Lemma fold_const : forall n z t, (forall k, (k < n)%nat -> o_add o (t k) z = Ok (t (S k))) -> fold_res (o_add o) (t 0%nat) (vk n (fun _ => z)) = Ok (t n).
  Proof.
    induction n as [|n IH]; intros z t H; auto. rewrite vk_S. cbn [fold_res]. rewrite H by lia. cbn [bind].
    apply (IH z (fun k => t (S k))). intros k Hk. apply H. lia.
  Qed.
  Lemma c_mul_const : forall a b p d s, o_mul o a b = Ok p -> o_sub o p p = Ok d -> o_add o p p = Ok s -> c_mul o (Cx a a) (Cx b b) = Ok (Cx d s).
  Proof. intros a b p d s E F G. unfold c_mul. cbn. rewrite !E. cbn. rewrite F, G. reflexivity. Qed.
  Lemma q_mul_const : forall a b p p2 p3 p4, o_mul o a b = Ok p -> o_sub o p p = Ok p2 -> o_add o p p = Ok p2 ->
    o_sub o p2 p = Ok p3 -> o_add o p2 p = Ok p3 -> o_sub o p3 p = Ok p4 -> o_add o p3 p = Ok p4 ->
    q_mul o (Qt a a a a) (Qt b b b b) = Ok (Qt p4 p4 p4 p4).
  Proof. intros a b p p2 p3 p4 E F1 F2 G1 G2 H1 H2. unfold q_mul. cbn. rewrite !E. cbn. rewrite F1, F2. cbn. rewrite G1, G2. cbn. rewrite H1, H2. reflexivity. Qed.
  Lemma cross3_const : forall a b p d, o_mul o a b = Ok p -> o_sub o p p = Ok d -> v_cross3 o [a; a; a] [b; b; b] = Ok [d; d; d].
  Proof. intros a b p d E F. unfold v_cross3. cbn. rewrite !E. cbn. rewrite !F. reflexivity. Qed.
  Lemma cross2_const : forall a b p d, o_mul o a b = Ok p -> o_sub o p p = Ok d -> v_cross2 o [a; a] [b; b] = Ok d.
  Proof. intros a b p d E F. unfold v_cross2. cbn. rewrite !E. cbn. rewrite !F. reflexivity. Qed.
End Const.

Section Size.
  Context (signed : bool) (w : Z) (Hw : width signed w).
  Local Notation K := (int_max signed w).
  Local Notation ranges := (range_ops signed w).
  Local Notation small := (small signed).
  Let sg (B : Z) : range := ((if signed then - B else 0), B).

  Lemma max_pos : 1 <= K.
  Proof.
    unfold width, int_max in *. destruct signed.
    - assert (2 ^ 1 <= 2 ^ (w - 1)) by (apply Z.pow_le_mono_r; lia). lia.
    - assert (2 ^ 1 <= 2 ^ w) by (apply Z.pow_le_mono_r; lia). lia.
  Qed.
  Lemma sg_clip : forall B, 0 <= B <= K -> clip signed w (if signed then - B else 0) B = Ok (sg B).
  Proof.
    intros B H. unfold clip. replace (_ && _)%bool with true; auto. symmetry. apply andb_true_intro. split; apply Z.leb_le; [|lia].
    unfold int_max, int_min in *. destruct signed; lia.
  Qed.
  Lemma sg_add : forall A B, 0 <= A -> 0 <= B -> A + B <= K -> o_add ranges (sg A) (sg B) = Ok (sg (A + B)).
  Proof. intros A B HA HB H. rewrite <- sg_clip by lia. unfold sg. cbn. f_equal. destruct signed; lia. Qed.
  Lemma sg_mul : forall A B, 0 <= A -> 0 <= B -> A * B <= K -> o_mul ranges (sg A) (sg B) = Ok (sg (A * B)).
  Proof.
    intros A B HA HB H. rewrite <- sg_clip by nia. unfold sg. cbn. assert (0 <= A * B) by nia. unfold min4, max4.
    destruct signed; f_equal; rewrite ?Z.mul_opp_l, ?Z.mul_opp_r, ?Z.mul_0_l, ?Z.mul_0_r; lia.
  Qed.
  Lemma sg_sub : forall A B, signed = true -> 0 <= A -> 0 <= B -> A + B <= K -> o_sub ranges (sg A) (sg B) = Ok (sg (A + B)).
  Proof. intros A B S HA HB H. rewrite <- sg_clip by lia. unfold sg. rewrite S. cbn. f_equal; lia. Qed.
  Lemma v_small : forall N B x, length x = N -> Forall (small B) x -> v_inside (vk N (fun _ => sg B)) x.
  Proof.
    intros N B x L F. subst N. unfold vk. generalize 0%nat as s. induction F as [|y x Hy F IH]; intros s; cbn; constructor; auto. apply IH.
  Qed.
  Lemma v_small_inv : forall N B x, v_inside (vk N (fun _ => sg B)) x -> Forall (small B) x.
  Proof.
    intros N B x. unfold vk. generalize 0%nat as s. revert N. induction x as [|y x IH]; intros [|N] s H; inversion H; subst; constructor; auto. eapply IH. eassumption.
  Qed.
  Lemma m_small : forall M N B x, rect M N x -> Forall (Forall (small B)) x -> m_inside (mk M N (fun _ _ => sg B)) x.
  Proof.
    intros M N B x (L & R) F. subst M. unfold mk. unfold vk at 1. generalize 0%nat as s. induction F as [|y x Hy F IH]; intros s; cbn [seq length map]; constructor.
    - apply v_small; auto. inversion R; auto.
    - apply IH. inversion R; auto.
  Qed.
  Lemma m_small_inv : forall M N B x, m_inside (mk M N (fun _ _ => sg B)) x -> Forall (Forall (small B)) x.
  Proof.
    intros M N B x. unfold mk. unfold vk at 1. generalize 0%nat as s. revert M. induction x as [|y x IH]; intros [|M] s H; inversion H; subst; constructor.
    - eapply v_small_inv. eassumption.
    - eapply IH. eassumption.
  Qed.

  Lemma sum_ranges : forall N B, (0 < N)%nat -> 0 <= B -> Z.of_nat N * B <= K -> v_sum ranges (vk N (fun _ => sg B)) = Ok (sg (Z.of_nat N * B)).
  Proof.
    intros [|n] B HN HB H; [lia|]. rewrite vk_S. unfold v_sum. rewrite v_fold_first_cons.
    replace (sg B) with (sg (Z.of_nat 1 * B)) at 1 by (f_equal; lia).
    rewrite (@fold_const _ ranges n (sg B) (fun k => sg (Z.of_nat (S k) * B))); auto. intros k Hk.
    replace (Z.of_nat (S (S k)) * B) with (Z.of_nat (S k) * B + B) by lia. apply sg_add; nia.
  Qed.
  Lemma dot_ranges : forall N A B, (0 < N)%nat -> 0 <= A -> 0 <= B -> Z.of_nat N * (A * B) <= K ->
    v_dot ranges N (vk N (fun _ => sg A)) (vk N (fun _ => sg B)) = Ok (sg (Z.of_nat N * (A * B))).
  Proof.
    intros N A B HN HA HB H. unfold v_dot. rewrite v_zip_map_res by apply vk_length.
    rewrite (@map2_res_vk _ _ _ _ N _ _ (fun _ => sg (A * B))). 2: { intros. apply sg_mul; auto. nia. }
    cbn [bind]. apply sum_ranges; auto. nia.
  Qed.

  (** ** Element-wise operations *)
  Theorem C109_add_size : forall N A B x y, length x = N -> length y = N -> 0 <= A -> 0 <= B ->
    Forall (small A) x -> Forall (small B) y -> A + B <= K -> exact_in signed w (fun o => v_add o N x y) (Forall (small (A + B))).
  Proof.
    intros N A B x y Lx Ly HA HB Fx Fy H. apply exact_in_mono with (P := v_inside (vk N (fun _ => sg (A + B)))). { apply v_small_inv. }
    eapply (@C109_v_add signed w Hw); [apply vk_length|apply vk_length|apply v_small; eassumption|apply v_small; eassumption|]; auto.
    unfold v_add. rewrite v_zip_map_res by apply vk_length. apply map2_res_vk. intros. apply sg_add; auto.
  Qed.
  Theorem C109_mul_size : forall N A B x y, length x = N -> length y = N -> 0 <= A -> 0 <= B ->
    Forall (small A) x -> Forall (small B) y -> A * B <= K -> exact_in signed w (fun o => v_mul o N x y) (Forall (small (A * B))).
  Proof.
    intros N A B x y Lx Ly HA HB Fx Fy H. apply exact_in_mono with (P := v_inside (vk N (fun _ => sg (A * B)))). { apply v_small_inv. }
    eapply (@C109_v_mul signed w Hw); [apply vk_length|apply vk_length|apply v_small; eassumption|apply v_small; eassumption|]; auto.
    unfold v_mul. rewrite v_zip_map_res by apply vk_length. apply map2_res_vk. intros. apply sg_mul; auto.
  Qed.
  (** ** Sums, dot products and products of matrices: the number of terms times the bound on one *)
  Theorem C109_sum_size : forall N B x, length x = N -> (0 < N)%nat -> 0 <= B -> Forall (small B) x -> Z.of_nat N * B <= K ->
    exact_in signed w (fun o => v_sum o x) (small (Z.of_nat N * B)).
  Proof.
    intros N B x Lx HN HB Fx H. apply exact_in_mono with (P := inside (sg (Z.of_nat N * B))). { auto. }
    eapply (@C109_v_sum signed w Hw N); [apply vk_length|apply v_small; eassumption|]. apply sum_ranges; auto.
  Qed.
  Theorem C109_dot_size : forall N A B x y, length x = N -> length y = N -> (0 < N)%nat -> 0 <= A -> 0 <= B ->
    Forall (small A) x -> Forall (small B) y -> Z.of_nat N * (A * B) <= K ->
    exact_in signed w (fun o => v_dot o N x y) (small (Z.of_nat N * (A * B))).
  Proof.
    intros N A B x y Lx Ly HN HA HB Fx Fy H. apply exact_in_mono with (P := inside (sg (Z.of_nat N * (A * B)))). { auto. }
    eapply (@C109_v_dot signed w Hw); [apply vk_length|apply vk_length|apply v_small; eassumption|apply v_small; eassumption|]; auto. apply dot_ranges; auto.
  Qed.
  Theorem C109_square_length_size : forall N A x, length x = N -> (0 < N)%nat -> 0 <= A -> Forall (small A) x -> Z.of_nat N * (A * A) <= K ->
    exact_in signed w (fun o => v_square_length o x) (small (Z.of_nat N * (A * A))).
  Proof.
    intros N A x Lx HN HA Fx H. apply exact_in_mono with (P := inside (sg (Z.of_nat N * (A * A)))). { auto. }
    eapply (@C109_v_square_length signed w Hw N); [apply vk_length|apply v_small; eassumption|]. unfold v_square_length. rewrite v_map_res.
    unfold vk. rewrite map_res_map. erewrite map_res_ext. 2: { intros. apply sg_mul with (A := A) (B := A); auto. nia. }
    rewrite map_res_ok. cbn [bind]. exact (@sum_ranges N (A * A) HN ltac:(nia) H).
  Qed.
  Theorem C109_product_size : forall L M N A B x y, rect L M x -> rect M N y -> (0 < M)%nat -> 0 <= A -> 0 <= B ->
    Forall (Forall (small A)) x -> Forall (Forall (small B)) y -> Z.of_nat M * (A * B) <= K ->
    exact_in signed w (fun o => m_dot o L M N x y) (Forall (Forall (small (Z.of_nat M * (A * B))))).
  Proof.
    intros L M N A B x y Rx Ry HM HA HB Fx Fy H. apply exact_in_mono with (P := m_inside (mk L N (fun _ _ => sg (Z.of_nat M * (A * B))))). { apply m_small_inv. }
    eapply (@C109_m_dot signed w Hw); [apply rect_mk|apply rect_mk|apply m_small; eassumption|apply m_small; eassumption|]; auto.
    unfold m_dot. rewrite m_indices_mk. cbn [bind]. apply m_map_mk. intros i j Hi Hj. rewrite m_row_mk, m_col_mk by auto. cbn [bind]. apply dot_ranges; auto.
  Qed.
  Theorem C109_matrix_vector_size : forall M N A B x y, rect M N x -> length y = N -> (0 < N)%nat -> 0 <= A -> 0 <= B ->
    Forall (Forall (small A)) x -> Forall (small B) y -> Z.of_nat N * (A * B) <= K ->
    exact_in signed w (fun o => m_dot_v o M N x y) (Forall (small (Z.of_nat N * (A * B)))).
  Proof.
    intros M N A B x y Rx Ly HN HA HB Fx Fy H. apply exact_in_mono with (P := v_inside (vk M (fun _ => sg (Z.of_nat N * (A * B))))). { apply v_small_inv. }
    eapply (@C109_m_dot_v signed w Hw); [apply rect_mk|apply vk_length|apply m_small; eassumption|apply v_small; eassumption|]; auto.
    unfold m_dot_v. rewrite v_indices_seq. cbn [bind]. rewrite <- vk_seq. apply v_map_vk. intros i Hi. rewrite m_row_mk by auto. cbn [bind]. apply dot_ranges; auto.
  Qed.
  (** ** The condition on dot products cannot be weakened: with full-size arguments a larger product overflows *)
  Theorem C109_dot_sharp : forall N A B, (0 < N)%nat -> 0 <= A -> 0 <= B ->
    ((forall x y, length x = N -> length y = N -> Forall (small A) x -> Forall (small B) y -> returns (v_dot (checked_ops signed w) N x y)) <->
     Z.of_nat N * (A * B) <= K).
  Proof.
    intros N A B HN HA HB. split.
    - intros H. destruct (H (vk N (fun _ => A)) (vk N (fun _ => B)) (vk_length _ _) (vk_length _ _)) as (r & E).
      1,2: apply Forall_forall; intros z Hz; apply in_map_iff in Hz as (i & <- & _); unfold SpecRange.small; destruct signed; lia.
      apply C70_dot_exact in E; try apply vk_length. destruct E as (_ & -> & P1 & P2).
      assert (E : forall k, (k <= N)%nat -> bigsum z_ring k (fun i => vget z_ops (vk N (fun _ => A)) i * vget z_ops (vk N (fun _ => B)) i) = Z.of_nat k * (A * B)).
      { induction k as [|k IH]; intros Hk; [reflexivity|]. cbn [bigsum]. rewrite IH by lia. rewrite !vget_vk by lia. change (r_add z_ring) with Z.add. lia. }
      destruct (Nat.eq_dec N 1) as [->|Ne].
      + specialize (P1 0%nat ltac:(lia)). rewrite !vget_vk in P1 by lia. unfold in_word in P1. lia.
      + specialize (P2 N ltac:(lia)). rewrite E in P2 by lia. unfold in_word in P2. lia.
    - intros H x y Lx Ly Fx Fy. destruct (@C109_dot_size N A B x y Lx Ly HN HA HB Fx Fy H) as (s & _ & E & _). exists s. exact E.
  Qed.
End Size.

(** ** Signed types: products of complex numbers and quaternions, cross products, determinants, adjugates and inverses *)
Section SignedSize.
  Context (w : Z) (Hw : width true w).
  Local Notation K := (int_max true w).
  Local Notation small := (small true).
  Local Notation ranges := (range_ops true w).
  Local Notation chk := (checked_ops true w).
  Let sg (B : Z) : range := (- B, B).
  Theorem C109_complex_mul_size : forall A B x y, 0 <= A -> 0 <= B -> c_all (small A) x -> c_all (small B) y -> 2 * (A * B) <= K ->
    exact_in true w (fun o => c_mul o x y) (c_all (small (2 * (A * B)))).
  Proof.
    intros A B x y HA HB (X1 & X2) (Y1 & Y2) H. apply exact_in_mono with (P := c_inside (Cx (sg (2 * (A * B))) (sg (2 * (A * B))))). { auto. }
    apply (@C109_c_mul true w Hw (Cx (sg A) (sg A)) (Cx (sg B) (sg B))). { split; auto. } { split; auto. }
    apply c_mul_const with (p := sg (A * B)).
    - apply (@sg_mul true w Hw); auto. nia.
    - replace (2 * (A * B)) with (A * B + A * B) by lia. apply (@sg_sub true w Hw); [reflexivity|..]; nia.
    - replace (2 * (A * B)) with (A * B + A * B) by lia. apply (@sg_add true w Hw); nia.
  Qed.
  Theorem C109_quaternion_mul_size : forall A B x y, 0 <= A -> 0 <= B -> q_all (small A) x -> q_all (small B) y -> 4 * (A * B) <= K ->
    exact_in true w (fun o => q_mul o x y) (q_all (small (4 * (A * B)))).
  Proof.
    intros A B x y HA HB (X1 & X2 & X3 & X4) (Y1 & Y2 & Y3 & Y4) H. set (s := sg (4 * (A * B))). apply exact_in_mono with (P := q_inside (Qt s s s s)). { auto. }
    apply (@C109_q_mul true w Hw (Qt (sg A) (sg A) (sg A) (sg A)) (Qt (sg B) (sg B) (sg B) (sg B))). { repeat split; apply X1 || apply X2 || apply X3 || apply X4. } { repeat split; apply Y1 || apply Y2 || apply Y3 || apply Y4. }
    unfold s. clear s. assert (P : 0 <= A * B) by nia.
    apply q_mul_const with (p := sg (A * B)) (p2 := sg (2 * (A * B))) (p3 := sg (3 * (A * B))).
    - apply (@sg_mul true w Hw); auto. lia.
    - replace (2 * (A * B)) with (A * B + A * B) by lia. apply (@sg_sub true w Hw); [reflexivity|..]; lia.
    - replace (2 * (A * B)) with (A * B + A * B) by lia. apply (@sg_add true w Hw); lia.
    - replace (3 * (A * B)) with (2 * (A * B) + A * B) by lia. apply (@sg_sub true w Hw); [reflexivity|..]; lia.
    - replace (3 * (A * B)) with (2 * (A * B) + A * B) by lia. apply (@sg_add true w Hw); lia.
    - replace (4 * (A * B)) with (3 * (A * B) + A * B) by lia. apply (@sg_sub true w Hw); [reflexivity|..]; lia.
    - replace (4 * (A * B)) with (3 * (A * B) + A * B) by lia. apply (@sg_add true w Hw); lia.
  Qed.
  Theorem C109_cross3_size : forall A B x y, length x = 3%nat -> length y = 3%nat -> 0 <= A -> 0 <= B ->
    Forall (small A) x -> Forall (small B) y -> 2 * (A * B) <= K ->
    exact_in true w (fun o => v_cross3 o x y) (Forall (small (2 * (A * B)))).
  Proof.
    intros A B x y Lx Ly HA HB Fx Fy H. apply exact_in_mono with (P := v_inside (vk 3 (fun _ => sg (2 * (A * B))))). { apply (@v_small_inv true). }
    apply (@C109_v_cross3 true w Hw (vk 3 (fun _ => sg A)) (vk 3 (fun _ => sg B))); auto; try (apply (@v_small true); auto).
    apply cross3_const with (p := sg (A * B)).
    - apply (@sg_mul true w Hw); auto. nia.
    - replace (2 * (A * B)) with (A * B + A * B) by lia. apply (@sg_sub true w Hw); [reflexivity|..]; nia.
  Qed.

  (** The determinant: N! B^N. *)
  Definition det_size (n : nat) (B : Z) : Z := Z.of_nat (fact n) * B ^ Z.of_nat n.
  Lemma det_size_pos : forall n B, 0 <= B -> 0 <= det_size n B.
  Proof. intros. unfold det_size. apply Z.mul_nonneg_nonneg; [lia|]. apply Z.pow_nonneg. auto. Qed.
  Lemma det_size_S : forall n B, det_size (S n) B = Z.of_nat (S n) * (B * det_size n B).
  Proof.
    intros. unfold det_size. rewrite Nat2Z.inj_succ, Z.pow_succ_r by lia. change (fact (S n)) with (S n * fact n)%nat. rewrite Nat2Z.inj_mul, Nat2Z.inj_succ. ring.
  Qed.
  Lemma det_size_mono : forall n B, 0 <= B -> det_size (S n) B <= K -> det_size n B <= K.
  Proof.
    intros n B HB H. pose proof (@max_pos true w Hw) as M. pose proof (@det_size_pos n _ HB) as P. rewrite det_size_S in H.
    destruct (Z.eq_dec B 0) as [->|].
    - clear H. destruct n; [change (det_size 0 0) with 1; lia|]. rewrite det_size_S. lia.
    - assert (0 < Z.of_nat (S n) * B) by nia. rewrite Z.mul_assoc in H. nia.
  Qed.
  Lemma check_small : forall x B, Z.abs x <= B -> B <= K -> check true w x = Ok x.
  Proof.
    intros x B H1 H2. unfold check. replace (in_wordb true w x) with true; auto. symmetry. apply in_wordb_spec. unfold in_word, int_min, int_max in *. lia.
  Qed.
  Lemma rneg_small : forall k c B, Z.abs c <= B -> B <= K -> exists c1, rneg chk k c = Ok c1 /\ Z.abs c1 <= B.
  Proof.
    intros k c B H1 H2. unfold rneg. destruct (_ =? _)%nat. { eauto. } cbn [o_neg checked_ops]. rewrite (@check_small (- c) B) by lia. exists (- c). split; auto. lia.
  Qed.
  Lemma rdet_small : forall N m B, rect N N m -> 0 <= B -> Forall (Forall (small B)) m ->
    forall rows cols, length rows = length cols -> (forall x, In x rows -> (x < N)%nat) -> (forall x, In x cols -> (x < N)%nat) ->
    det_size (length rows) B <= K -> exists d, rdet chk m rows cols = Ok d /\ Z.abs d <= det_size (length rows) B.
  Proof.
    intros N m B Rm HB Fm. induction rows as [|i rows IH]; intros cols L Hr Hc H. { exists 1. split; auto. cbn. lia. }
    cbn [rdet]. cbn [length] in H, L |- *. pose proof (@det_size_mono _ _ HB H) as H1. rewrite det_size_S in H |- *. set (D := det_size (length rows) B) in *.
    assert (PD : 0 <= D) by (apply det_size_pos; auto). assert (PBD : 0 <= B * D) by nia.
    assert (G : forall l a n, (forall k, In k l -> (k < length cols)%nat) -> Z.abs a <= Z.of_nat n * (B * D) -> (n + length l <= S (length rows))%nat ->
      exists d, fold_res (fun a k =>
          let! x := m_index m (i, nth k cols 0%nat) in
          let! c := rdet chk m rows (remove_at k cols) in
          let! c1 := rneg chk k c in
          let! p := o_mul chk x c1 in
          o_add chk a p) a l = Ok d /\ Z.abs d <= Z.of_nat (n + length l) * (B * D)).
    { induction l as [|k l IHl]; intros a n Hl Ha Hn. { exists a. split; auto. cbn [length]. replace (n + 0)%nat with n by lia. auto. }
      cbn [fold_res]. assert (Hk : (k < length cols)%nat) by (apply Hl; left; auto).
      assert (Hk2 : (nth k cols 0 < N)%nat) by (apply Hc; apply nth_In; auto).
      destruct (m_index_spec i (nth k cols 0%nat) Rm) as (X & _).
      destruct X as (x & Ex1 & Ex & _); [split; [apply Hr; left; auto|auto]|]. rewrite Ex. cbn [bind].
      assert (Sx : Z.abs x <= B).
      { assert (Q : small B x). { unfold elt in Ex1. destruct (nth_error m i) as [r|] eqn:Er; [|discriminate]. cbn in Ex1.
          apply nth_error_In in Er, Ex1. rewrite Forall_forall in Fm. specialize (Fm r Er). rewrite Forall_forall in Fm. auto. }
        unfold SpecRange.small in Q. lia. }
      destruct (IH (remove_at k cols)) as (c & Ec & Sc); auto.
      { rewrite remove_at_length by auto. lia. } { intros. apply Hr. right. auto. }
      { intros y Hy. apply Hc. clear -Hy. revert k Hy. induction cols; intros [|k] Hy; simpl in *; auto. destruct Hy; auto. right. eapply IHcols. eauto. }
      rewrite Ec. cbn [bind]. destruct (@rneg_small k c D Sc H1) as (c1 & E1 & S1). rewrite E1. cbn [bind o_mul o_add checked_ops].
      assert (P : Z.abs (x * c1) <= B * D) by (rewrite Z.abs_mul; nia).
      assert (BK : B * D <= K) by (cbn [length] in Hn; nia).
      rewrite (@check_small (x * c1) (B * D)) by auto. cbn [bind].
      assert (A1 : Z.abs (a + x * c1) <= Z.of_nat (S n) * (B * D)) by lia.
      rewrite (@check_small (a + x * c1) (Z.of_nat (S n) * (B * D))); auto. 2: { cbn [length] in Hn. nia. }
      cbn [bind]. destruct (IHl (a + x * c1) (S n)) as (d & Ed & Sd); auto. { intros. apply Hl. right. auto. } { cbn [length] in Hn. lia. }
      exists d. split; auto. cbn [length]. replace (n + S (length l))%nat with (S n + length l)%nat by lia. auto. }
    destruct (G (seq 0 (length cols)) 0 0%nat) as (d & Ed & Sd).
    - intros k Hk. apply in_seq in Hk. lia.
    - cbn. lia.
    - rewrite seq_length. lia.
    - exists d. split; auto. rewrite seq_length in Sd. replace (S (length rows)) with (0 + length cols)%nat by lia. auto.
  Qed.
  Theorem C109_det_size : forall N m B, rect N N m -> 0 <= B -> Forall (Forall (small B)) m -> Z.of_nat (fact N) * B ^ Z.of_nat N <= K ->
    exact_in true w (fun o => m_det o N m) (small (Z.of_nat (fact N) * B ^ Z.of_nat N)).
  Proof.
    intros N m B Rm HB Fm H. apply exact_in_intro; [|intros s Hs; eapply C70_m_det; eassumption|intros s Hs; eapply C71_release_m_det; eassumption].
    rewrite m_det_spec. destruct (@rdet_small N m B Rm HB Fm (seq 0 N) (seq 0 N)) as (d & Ed & Sd); auto.
    1,2: intros x Hx; apply in_seq in Hx; lia.
    { rewrite seq_length. exact H. }
    exists d. split; auto. rewrite seq_length in Sd. unfold det_size in Sd. unfold SpecRange.small. lia.
  Qed.
  Lemma cofactor_small : forall n m B i j, rect (S n) (S n) m -> 0 <= B -> Forall (Forall (small B)) m -> det_size n B <= K -> (i < S n)%nat -> (j < S n)%nat ->
    exists c, m_cofactor chk (S n) m i j = Ok c /\ Z.abs c <= det_size n B.
  Proof.
    intros n m B i j Rm HB Fm H Hi Hj. rewrite m_cofactor_spec by auto.
    assert (Q : forall k x, (k < S n)%nat -> In x (remove_at k (seq 0 (S n))) -> (x < S n)%nat).
    { intros k x Hk Hx. rewrite remove_at_seq in Hx by auto. apply in_map_iff in Hx as (y & <- & Hy). apply in_seq in Hy. unfold skip. destruct (y <? k)%nat; lia. }
    destruct (@rdet_small (S n) m B Rm HB Fm (remove_at i (seq 0 (S n))) (remove_at j (seq 0 (S n)))) as (d & Ed & Sd); eauto.
    { rewrite !remove_at_length by (rewrite seq_length; auto). auto. }
    { rewrite remove_at_length by (rewrite seq_length; auto). rewrite seq_length. replace (S n - 1)%nat with n by lia. auto. }
    rewrite remove_at_length in Sd by (rewrite seq_length; auto). rewrite seq_length in Sd. replace (S n - 1)%nat with n in Sd by lia.
    rewrite Ed. cbn [bind]. apply rneg_small; auto.
  Qed.
  Lemma adj_small : forall n m B, rect (S n) (S n) m -> 0 <= B -> Forall (Forall (small B)) m -> det_size n B <= K ->
    exists a, m_adj chk (S n) m = Ok a /\ rect (S n) (S n) a /\ Forall (Forall (small (det_size n B))) a.
  Proof.
    intros n m B Rm HB Fm H. set (c := fun i j => match m_cofactor chk (S n) m j i with Ok x => x | _ => 0 end).
    exists (mk (S n) (S n) c). split; [|split; [apply rect_mk|]].
    - unfold m_adj. rewrite m_indices_mk. cbn [bind]. apply m_map_mk. intros i j Hi Hj. unfold c.
      destruct (@cofactor_small n m B j i Rm HB Fm H Hj Hi) as (x & -> & _). reflexivity.
    - apply Forall_forall. intros r Hr. apply in_map_iff in Hr as (i & <- & Hi). apply in_seq in Hi. apply Forall_forall. intros x Hx.
      apply in_map_iff in Hx as (j & <- & Hj). apply in_seq in Hj. unfold c.
      destruct (@cofactor_small n m B j i Rm HB Fm H) as (x & -> & S); try lia. unfold SpecRange.small. lia.
  Qed.
  Theorem C109_adj_size : forall n m B, rect (S n) (S n) m -> 0 <= B -> Forall (Forall (small B)) m -> Z.of_nat (fact n) * B ^ Z.of_nat n <= K ->
    exact_in true w (fun o => m_adj o (S n) m) (Forall (Forall (small (Z.of_nat (fact n) * B ^ Z.of_nat n)))).
  Proof.
    intros n m B Rm HB Fm H. apply exact_in_intro; [|intros s Hs; eapply C70_m_adj; eassumption|intros s Hs; eapply C71_release_m_adj; eassumption].
    destruct (@adj_small n m B Rm HB Fm H) as (a & E & _ & F). eauto.
  Qed.
  (** The inverse, which truncates each quotient: no overflow if the determinant and the cofactors fit; it panics only if det is zero. *)
  Theorem C109_inv_size : forall n m B d, rect (S n) (S n) m -> 0 <= B -> Forall (Forall (small B)) m -> Z.of_nat (fact (S n)) * B ^ Z.of_nat (S n) <= K ->
    m_det z_ops (S n) m = Ok d -> d <> 0 ->
    exact_in true w (fun o => m_inv o (S n) m) (Forall (Forall (small (Z.of_nat (fact n) * B ^ Z.of_nat n)))).
  Proof.
    intros n m B d Rm HB Fm H Hd Hz. apply exact_in_intro; [|intros s Hs; eapply C70_m_inv; eassumption|intros s Hs; eapply C71_release_m_inv; eassumption].
    destruct (@C109_det_size (S n) m B Rm HB Fm H) as (d' & E1 & E2 & _ & _). rewrite Hd in E1. apply Ok_inj in E1. subst d'.
    pose proof (@det_size_mono _ _ HB H) as H1. destruct (@adj_small n m B Rm HB Fm H1) as (a & E & Ra & F).
    unfold m_inv. rewrite E, E2. cbn [bind]. unfold m_sdiv.
    destruct (mk_ex z_ops Ra) as (f & ->). exists (mk (S n) (S n) (fun i j => Z.quot (f i j) d)).
    assert (Sf : forall i j, (i < S n)%nat -> (j < S n)%nat -> Z.abs (Z.quot (f i j) d) <= det_size n B).
    { intros i j Hi Hj. assert (Q : small (det_size n B) (f i j)).
      { rewrite Forall_forall in F. specialize (F (vk (S n) (f i))). rewrite Forall_forall in F. apply F.
        - apply in_map_iff. exists i. split; auto. apply in_seq. lia.
        - apply in_map_iff. exists j. split; auto. apply in_seq. lia. }
      unfold SpecRange.small in Q. rewrite <- Z.quot_abs by auto. assert (Z.quot (Z.abs (f i j)) (Z.abs d) <= Z.abs (f i j)); [|lia].
      rewrite Z.quot_div_nonneg by lia. apply Z.div_le_upper_bound; nia. }
    split.
    - apply m_map_mk. intros i j Hi Hj. cbn [o_div checked_ops]. replace (d =? 0) with false by (symmetry; apply Z.eqb_neq; auto). eapply check_small; eauto.
    - apply Forall_forall. intros r Hr. apply in_map_iff in Hr as (i & <- & Hi). apply in_seq in Hi. apply Forall_forall. intros x Hx.
      apply in_map_iff in Hx as (j & <- & Hj). apply in_seq in Hj. specialize (Sf i j ltac:(lia) ltac:(lia)). unfold SpecRange.small. unfold det_size in Sf. lia.
  Qed.
End SignedSize.

(** Chaining: the product of k + 1 matrices with elements up to B has elements up to N^k B^(k+1). *)
Section Powers.
  Context (signed : bool) (w : Z) (Hw : width signed w).
  Local Notation small := (small signed).
  Theorem C109_chain_size : forall N B x xs, rect N N x -> Forall (rect N N) xs -> (0 < N)%nat -> 1 <= B ->
    Forall (Forall (small B)) x -> Forall (Forall (Forall (small B))) xs ->
    Z.of_nat N ^ Z.of_nat (length xs) * B ^ Z.of_nat (S (length xs)) <= int_max signed w ->
    exact_in signed w (fun o => fold_res (fun a b => m_dot o N N N a b) x xs)
      (Forall (Forall (small (Z.of_nat N ^ Z.of_nat (length xs) * B ^ Z.of_nat (S (length xs)))))).
  Proof.
    intros N B x xs Rx Rxs HN HB Fx Fxs.
    assert (G : forall C xs x, 0 <= C -> rect N N x -> Forall (rect N N) xs -> Forall (Forall (small C)) x -> Forall (Forall (Forall (small B))) xs ->
      C * (Z.of_nat N * B) ^ Z.of_nat (length xs) <= int_max signed w ->
      exact_in signed w (fun o => fold_res (fun a b => m_dot o N N N a b) x xs) (Forall (Forall (small (C * (Z.of_nat N * B) ^ Z.of_nat (length xs)))))).
    { clear x xs Rx Rxs Fx Fxs. intros C xs. revert C. induction xs as [|y xs IH]; intros C x HC Rx Rxs Fx Fxs H.
      { exists x. cbn [length]. change (Z.of_nat 0) with 0. rewrite Z.pow_0_r, Z.mul_1_r. auto. }
      inversion Rxs as [|? ? Ry Rys]; subst. inversion Fxs as [|? ? Fy Fys]; subst.
      cbn [length] in *. rewrite Nat2Z.inj_succ, Z.pow_succ_r in H |- * by lia.
      set (q := (Z.of_nat N * B) ^ Z.of_nat (length xs)) in *.
      assert (Q : 1 <= q). { unfold q. assert (0 < (Z.of_nat N * B) ^ Z.of_nat (length xs)) by (apply Z.pow_pos_nonneg; nia). lia. }
      assert (E : C * (Z.of_nat N * B * q) = Z.of_nat N * (C * B) * q) by ring. rewrite E in H |- *.
      assert (H1 : Z.of_nat N * (C * B) <= int_max signed w). { assert (0 <= Z.of_nat N * (C * B)) by nia. nia. }
      destruct (@C109_product_size signed w Hw N N N C B x y Rx Ry HN HC ltac:(lia) Fx Fy H1) as (p & P1 & P2 & P3 & Fp).
      assert (Rp : rect N N p).
      { destruct (mk_ex z_ops Rx) as (f & ->). destruct (mk_ex z_ops Ry) as (g & ->). rewrite (m_dot_mk z_ring) in P1 by auto. apply Ok_inj in P1. subst p. apply rect_mk. }
      destruct (IH (Z.of_nat N * (C * B)) p ltac:(nia) Rp Rys Fp Fys H) as (s & S1 & S2 & S3 & S4).
      exists s. cbn [fold_res]. rewrite P1, P2, P3. auto. }
    intros H. assert (E : Z.of_nat N ^ Z.of_nat (length xs) * B ^ Z.of_nat (S (length xs)) = B * (Z.of_nat N * B) ^ Z.of_nat (length xs)).
    { rewrite Nat2Z.inj_succ, Z.pow_succ_r by lia. rewrite Z.pow_mul_l. ring. }
    rewrite E in H |- *. apply G; auto. lia.
  Qed.
End Powers.

(** i32: 4 by 4 determinants are exact for elements up to 97 in size (24 * 97^4 < 2^31), 3 by 3 for elements up to 710, 2 by 2 up to 32767. *)
Example C109_ex_i32 : forall m, 
  (rect 4 4 m -> Forall (Forall (small true 97)) m -> exact_in true 32 (fun o => m_det o 4 m) (small true (24 * 97 ^ 4))) /\
  (rect 3 3 m -> Forall (Forall (small true 710)) m -> exact_in true 32 (fun o => m_det o 3 m) (small true (6 * 710 ^ 3))) /\
  (rect 2 2 m -> Forall (Forall (small true 32767)) m -> exact_in true 32 (fun o => m_det o 2 m) (small true (2 * 32767 ^ 2))).
Proof.
  intros m. assert (Hw : width true 32) by (cbn; lia).
  repeat split; intros R F; [apply (@C109_det_size 32 Hw 4 m 97)|apply (@C109_det_size 32 Hw 3 m 710)|apply (@C109_det_size 32 Hw 2 m 32767)]; auto; vm_compute; discriminate.
Qed.
(** Ranges computed by the library itself: elements of known signs, u8 and i8; a difference that may be negative is rejected. *)
Example C109_ex_ranges :
  v_dot (range_ops true 8) 3 [(0, 5); (-2, 3); (1, 1)] [(4, 6); (-7, 7); (-10, 10)] = Ok (-31, 61) /\
  m_det (range_ops true 8) 2 [[(5, 7); (0, 2)]; (0, 3) :: [(4, 5)]] = Ok (14, 35) /\
  m_inv (range_ops true 8) 2 [[(1, 1); (0, 2)]; [(0, 3); (8, 9)]] = Ok [[(0, 4); (-1, 0)]; [(-1, 0); (0, 0)]] /\
  v_sub (range_ops false 8) 2 [(10, 20); (0, 9)] [(0, 10); (0, 1)] = Panic /\
  v_div (range_ops true 8) 2 [(-9, 10); (-128, 0)] [(2, 3); (1, 5)] = Ok [(-4, 5); (-128, 0)] /\
  v_div (range_ops true 8) 1 [(-128, 0)] [(-1, -1)] = Panic /\
  v_rem (range_ops true 8) 2 [(-9, 10); (20, 30)] [(2, 3); (-7, -5)] = Ok [(-2, 2); (0, 6)].
Proof. vm_compute. repeat split; reflexivity. Qed.
Example C109_ex_use : exact_in true 8 (fun o => v_dot o 3 [3; -2; 1] [4; 6; -10]) (inside (-31, 61)).
Proof.
  apply (@C109_v_dot true 8 ltac:(cbn; lia) 3 [(0, 5); (-2, 3); (1, 1)] [(4, 6); (-7, 7); (-10, 10)]); auto; repeat constructor; cbn; lia.
Qed.

Print Assumptions C109_v_add.
Print Assumptions C109_v_sub.
Print Assumptions C109_v_mul.
Print Assumptions C109_v_neg.
Print Assumptions C109_v_smul.
Print Assumptions C109_v_sum.
Print Assumptions C109_v_dot.
Print Assumptions C109_v_square_length.
Print Assumptions C109_v_cross2.
Print Assumptions C109_v_cross3.
Print Assumptions C109_v_cross4.
Print Assumptions C109_v_div.
Print Assumptions C109_v_sdiv.
Print Assumptions C109_v_rem.
Print Assumptions C109_m_add.
Print Assumptions C109_m_sub.
Print Assumptions C109_m_mul.
Print Assumptions C109_m_neg.
Print Assumptions C109_m_smul.
Print Assumptions C109_m_sum.
Print Assumptions C109_m_div.
Print Assumptions C109_m_sdiv.
Print Assumptions C109_m_rem.
Print Assumptions C109_m_dot.
Print Assumptions C109_m_dot_v.
Print Assumptions C109_v_dot_m.
Print Assumptions C109_m_outer.
Print Assumptions C109_m_det.
Print Assumptions C109_m_cofactor.
Print Assumptions C109_m_adj.
Print Assumptions C109_m_inv.
Print Assumptions C109_c_add.
Print Assumptions C109_c_sub.
Print Assumptions C109_c_mul.
Print Assumptions C109_c_neg.
Print Assumptions C109_c_conj.
Print Assumptions C109_c_mul_s.
Print Assumptions C109_c_norm_sqr.
Print Assumptions C109_c_dot.
Print Assumptions C109_c_inv.
Print Assumptions C109_c_div.
Print Assumptions C109_q_add.
Print Assumptions C109_q_sub.
Print Assumptions C109_q_mul.
Print Assumptions C109_q_neg.
Print Assumptions C109_q_conj.
Print Assumptions C109_q_mul_s.
Print Assumptions C109_q_mul_c.
Print Assumptions C109_c_mul_q.
Print Assumptions C109_q_norm_sqr.
Print Assumptions C109_q_dot.
Print Assumptions C109_q_inv.
Print Assumptions C109_q_div.
Print Assumptions C109_rot2_apply.
Print Assumptions C109_rot3_apply.
Print Assumptions C109_mo_apply_self.
Print Assumptions C109_add_size.
Print Assumptions C109_mul_size.
Print Assumptions C109_sum_size.
Print Assumptions C109_dot_size.
Print Assumptions C109_square_length_size.
Print Assumptions C109_product_size.
Print Assumptions C109_matrix_vector_size.
Print Assumptions C109_dot_sharp.
Print Assumptions C109_complex_mul_size.
Print Assumptions C109_quaternion_mul_size.
Print Assumptions C109_cross3_size.
Print Assumptions C109_det_size.
Print Assumptions C109_adj_size.
Print Assumptions C109_inv_size.
Print Assumptions C109_chain_size.
