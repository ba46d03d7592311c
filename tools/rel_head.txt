(** C70 - C72: machine integers and ring homomorphisms.  (The lists of theorems, one per operation of the API,
    were produced by tools/gen_rel.py; every statement is spelled out here.) *)
From Coq Require Import ZArith Lia QArith Qcanon.
From Verif Require Import SpecFacts VFacts VecProofs MFacts MatProofs AlgFacts MoebiusModel TransformModel SpecMachine SpecDet CxFacts PropComplex PropAlgebra PropSquare RelFacts.
Set Implicit Arguments.
Local Open Scope nat_scope.
Local Open Scope list_scope.

(** ** From relations to equations *)
Section Glue.
  Context {T U : Type} (h : T -> U).
  Let Rh : T -> U -> Prop := fun x y => y = h x.
  Lemma forall2_map : forall u v, Forall2 Rh u v <-> v = map h u.
  Proof.
    intros u v. split.
    - intros F. induction F; cbn; [auto|]. unfold Rh in *. congruence.
    - intros ->. induction u; cbn; constructor; auto. reflexivity.
  Qed.
  Lemma vrel_map : forall N u, length u = N -> vrel N Rh u (map h u).
  Proof. intros N u L. split; auto. apply forall2_map. auto. Qed.
  Lemma mrel_map : forall M N a, rect M N a -> mrel M N Rh a (map (map h) a).
  Proof.
    intros M N a (L & F). split; auto. clear L. induction F; cbn; constructor; auto. apply vrel_map. auto.
  Qed.
  Lemma crel_map : forall z, crel Rh z (c_map h z).
  Proof. intros. split; reflexivity. Qed.
  Lemma qrel_map : forall z, qrel Rh z (q_map h z).
  Proof. intros. repeat split; reflexivity. Qed.
  Lemma srel_map : forall z : T, Rh z (h z).
  Proof. intros. reflexivity. Qed.
  Lemma rr_hom : forall A B (R : A -> B -> Prop) (g : A -> B) a b, rrel true R a b -> (forall x y, R x y -> y = g x) -> b = rmap g a.
  Proof. intros A B R g a b H K. destruct a, b; cbn in H |- *; try contradiction; try discriminate; auto. f_equal. auto. Qed.
  Lemma s_rel_hom : forall a b, rrel true Rh a b -> b = rmap h a.
  Proof. intros. eapply rr_hom; eauto. Qed.
  Lemma v_rel_hom : forall N a b, rrel true (vrel N Rh) a b -> b = rmap (map h) a.
  Proof. intros. eapply rr_hom; eauto. intros x y (_ & F). apply forall2_map. auto. Qed.
  Lemma m_rel_hom : forall M N a b, rrel true (mrel M N Rh) a b -> b = rmap (map (map h)) a.
  Proof.
    intros. eapply rr_hom; eauto. intros x y (_ & F). clear H. induction F as [|u v x y (_ & Huv) F IH]; cbn; auto. f_equal; auto. apply forall2_map. auto.
  Qed.
  Lemma c_rel_hom : forall a b, rrel true (crel Rh) a b -> b = rmap (c_map h) a.
  Proof. intros. eapply rr_hom; eauto. intros [] [] (E & F). cbv in E, F. subst. reflexivity. Qed.
  Lemma q_rel_hom : forall a b, rrel true (qrel Rh) a b -> b = rmap (q_map h) a.
  Proof. intros. eapply rr_hom; eauto. intros [] [] (E & F & G & K). cbv in E, F, G, K. subst. reflexivity. Qed.

  Context {o : Ops T} {o' : Ops U}.
  Lemma rr_rmap : forall A B (g : A -> B) a, rrel true (fun x y => y = g x) a (rmap g a).
  Proof. intros A B g []; cbn; auto. Qed.
  Lemma hom_rel : hom h o o' -> OpsRel true Rh o o'.
  Proof.
    intros [H0 H1 Ha Hs Hm Hn]. constructor; unfold Rh; intros; subst; auto; rewrite ?Ha, ?Hs, ?Hm, ?Hn; apply rr_rmap.
  Qed.
  Lemma hom_divrel : hom_div h o o' -> DivRel true Rh o o'.
  Proof. intros H x x' y y' -> ->. rewrite H. apply rr_rmap. Qed.
  Lemma hom_remrel : hom_rem h o o' -> RemRel true Rh o o'.
  Proof. intros H x x' y y' -> ->. rewrite H. apply rr_rmap. Qed.
End Glue.
Ltac hom_args := first [eapply vrel_map; eassumption | eapply mrel_map; eassumption | apply crel_map | apply qrel_map | apply srel_map].

Lemma forall2_eq : forall A (u v : list A), Forall2 eq u v -> u = v.
Proof. intros A u v F. induction F; congruence. Qed.
Lemma rr_lax : forall A (R : A -> A -> Prop) a b r, rrel false R a b -> (forall x y, R x y -> x = y) -> a = Ok r -> b = Ok r.
Proof. intros A R a b r H K ->. destruct b; cbn in H; try contradiction. f_equal. symmetry. auto. Qed.
Lemma s_rel_lax : forall A (a b : res A) r, rrel false eq a b -> a = Ok r -> b = Ok r.
Proof. intros. eapply rr_lax; eauto. Qed.
Lemma v_rel_lax : forall A N (a b : res (list A)) r, rrel false (vrel N eq) a b -> a = Ok r -> b = Ok r.
Proof. intros. eapply rr_lax; eauto. intros x y (_ & F). apply forall2_eq. auto. Qed.
Lemma m_rel_lax : forall A M N (a b : res (list (list A))) r, rrel false (mrel M N eq) a b -> a = Ok r -> b = Ok r.
Proof.
  intros. eapply rr_lax; eauto. intros x y (_ & F). clear - F. induction F as [|u v x y (_ & Huv) F IH]; auto. f_equal; auto. apply forall2_eq. auto.
Qed.
Lemma c_rel_lax : forall A (a b : res (complex A)) r, rrel false (crel eq) a b -> a = Ok r -> b = Ok r.
Proof. intros. eapply rr_lax; eauto. intros [] [] (E & F). cbn in *. congruence. Qed.
Lemma q_rel_lax : forall A (a b : res (quat A)) r, rrel false (qrel eq) a b -> a = Ok r -> b = Ok r.
Proof. intros. eapply rr_lax; eauto. intros [] [] (E & F & G & K). cbn in *. congruence. Qed.
Lemma crel_eq : forall A (z : complex A), crel eq z z.
Proof. intros. split; reflexivity. Qed.
Lemma qrel_eq : forall A (z : quat A), qrel eq z z.
Proof. intros. repeat split; reflexivity. Qed.
Ltac lax_args := first [eapply vrel_refl; eassumption | eapply mrel_refl; eassumption | apply crel_eq | apply qrel_eq | reflexivity].

(** ** Machine integers *)
Lemma pow_half : forall w, width true w -> (2 ^ w = 2 * 2 ^ (w - 1) /\ 0 < 2 ^ (w - 1))%Z.
Proof.
  intros w Hw. unfold width in Hw. split; [|apply Z.pow_pos_nonneg; lia].
  rewrite <- Z.pow_succ_r by lia. f_equal. lia.
Qed.
Section Word.
  Local Open Scope Z_scope.
  Context (signed : bool) (w : Z).
  Lemma in_wordb_spec : forall x, in_wordb signed w x = true <-> in_word signed w x.
  Proof. intros. unfold in_wordb, in_word. rewrite andb_true_iff, !Z.leb_le. tauto. Qed.
  Lemma check_lax : forall x, rrel false eq (check signed w x) (Ok x).
  Proof. intros. unfold check. destruct (in_wordb signed w x); cbn; auto. Qed.
  Lemma checked_rel : OpsRel false eq (checked_ops signed w) z_ops.
  Proof. constructor; intros; subst; cbn [o_zero o_one o_add o_sub o_mul o_neg checked_ops z_ops ok1 ok2]; auto; apply check_lax. Qed.
  Lemma checked_divrel : DivRel false eq (checked_ops signed w) z_ops.
  Proof. intros x x' y y' -> ->. cbn. destruct (y' =? 0); cbn; auto. apply check_lax. Qed.
  Lemma checked_remrel : RemRel false eq (checked_ops signed w) z_ops.
  Proof. intros x x' y y' -> ->. cbn. destruct (y' =? 0); cbn; auto. destruct (in_wordb signed w (x' ÷ y')); cbn; auto. Qed.

  Context (Hw : width signed w).
  Lemma pow_pos : 0 < 2 ^ w.
  Proof. apply Z.pow_pos_nonneg; destruct signed; unfold width in Hw; lia. Qed.
  Lemma pow_one : 2 ^ (if signed then w - 1 else w) > 1.
  Proof.
    assert (1 < 2 ^ (if signed then w - 1 else w)); [|lia]. apply Z.pow_gt_1; [lia|]. destruct signed; unfold width in Hw; lia.
  Qed.
  (** [wrap] is the representable representative modulo 2^w. *)
  Lemma wrap_spec : forall x, in_word signed w (wrap signed w x) /\ (exists k, wrap signed w x = x + k * 2 ^ w).
  Proof.
    intros x. pose proof pow_pos as P. unfold in_word, wrap, int_min, int_max. destruct signed.
    - destruct (pow_half Hw) as (E & P1). pose proof (Z.mod_pos_bound (x + 2 ^ (w - 1)) (2 ^ w) P). split; [lia|].
      exists (- ((x + 2 ^ (w - 1)) / 2 ^ w)). rewrite Z.mod_eq by lia. lia.
    - pose proof (Z.mod_pos_bound x (2 ^ w) P). split; [lia|]. exists (- (x / 2 ^ w)). rewrite Z.mod_eq by lia. lia.
  Qed.
  Lemma wrap_cong : forall x y k, x = y + k * 2 ^ w -> wrap signed w x = wrap signed w y.
  Proof.
    intros x y k ->. pose proof pow_pos as P. unfold wrap. destruct signed.
    - replace (y + k * 2 ^ w + 2 ^ (w - 1)) with (y + 2 ^ (w - 1) + k * 2 ^ w) by lia. rewrite Z.mod_add by lia. reflexivity.
    - rewrite Z.mod_add by lia. reflexivity.
  Qed.
  Lemma wrap_id : forall x, in_word signed w x -> wrap signed w x = x.
  Proof.
    intros x H. unfold in_word, wrap, int_min, int_max in *. destruct signed.
    - destruct (pow_half Hw) as (E & P1). rewrite Z.mod_small by lia. lia.
    - apply Z.mod_small. lia.
  Qed.
  Lemma word_0_1 : in_word signed w 0 /\ in_word signed w 1.
  Proof. pose proof pow_one. unfold in_word, int_min, int_max. destruct signed; lia. Qed.
  Lemma wrap_hom : hom (wrap signed w) z_ops (wrapping_ops signed w).
  Proof.
    destruct word_0_1 as (W0 & W1).
    constructor; intros; cbn [o_zero o_one o_add o_sub o_mul o_neg wrapping_ops z_ops ok1 ok2 rmap bind];
      try (symmetry; apply wrap_id; assumption); f_equal;
      try (destruct (wrap_spec x) as (_ & k & ->)); try (destruct (wrap_spec y) as (_ & l & ->)).
    - apply wrap_cong with (k := k + l). ring.
    - apply wrap_cong with (k := k - l). ring.
    - apply wrap_cong with (k := k * y + l * x + k * l * 2 ^ w). ring.
    - apply wrap_cong with (k := - k). ring.
  Qed.
  Lemma check_wrap : forall x, rrel false eq (check signed w x) (Ok (wrap signed w x)).
  Proof.
    intros. unfold check. destruct (in_wordb signed w x) eqn:E; cbn; auto. symmetry. apply wrap_id. apply in_wordb_spec. auto.
  Qed.
  Lemma checked_wrap_rel : OpsRel false eq (checked_ops signed w) (wrapping_ops signed w).
  Proof. constructor; intros; subst; cbn [o_zero o_one o_add o_sub o_mul o_neg checked_ops wrapping_ops]; auto; apply check_wrap. Qed.
  Lemma wr_v : forall u, Forall (in_word signed w) u -> map (wrap signed w) u = u.
  Proof. intros u H. induction H; cbn; auto. rewrite wrap_id by auto. congruence. Qed.
  Lemma wr_s : forall x, in_word signed w x -> wrap signed w x = x.
  Proof. exact wrap_id. Qed.
  Lemma wr_m : forall u, Forall (Forall (in_word signed w)) u -> map (map (wrap signed w)) u = u.
  Proof. intros u H. induction H; cbn; auto. rewrite wr_v by auto. congruence. Qed.
  Lemma wr_c : forall z, c_all (in_word signed w) z -> c_map (wrap signed w) z = z.
  Proof. intros [x y] (Hx & Hy). unfold c_map. cbn in *. rewrite !wrap_id by auto. reflexivity. Qed.
  Lemma wr_q : forall z, q_all (in_word signed w) z -> q_map (wrap signed w) z = z.
  Proof. intros [x y z t] (Hx & Hy & Hz & Ht). unfold q_map. cbn in *. rewrite !wrap_id by auto. reflexivity. Qed.
End Word.
Lemma checked_wrap_divrel : forall signed w, DivRel false eq (checked_ops signed w) (wrapping_ops signed w).
Proof. intros signed w x x' y y' -> ->. cbn [o_div wrapping_ops]. apply rr_refl. Qed.
Lemma checked_wrap_remrel : forall signed w, RemRel false eq (checked_ops signed w) (wrapping_ops signed w).
Proof. intros signed w x x' y y' -> ->. cbn [o_rem wrapping_ops]. apply rr_refl. Qed.
