(** C70 - C72: machine integers and ring homomorphisms.  (The lists of theorems, one per operation of the API,
    were produced by tools/gen_rel.py; every statement is spelled out here.) *)
From Coq Require Import ZArith Lia QArith Qcanon.
From Verif Require Import SpecFacts VFacts VecProofs MFacts MatProofs AlgFacts MoebiusModel TransformModel SpecMachine SpecDet CxFacts PropComplex PropAlgebra PropSquare RelFacts.
Set Implicit Arguments.
Local Open Scope nat_scope.
Local Open Scope list_scope.

(** ** From relations to equations *)
Section Glue.
  Context {T U : Type} (h : T -> U).
  Let Rh : T -> U -> Prop := fun x y => y = h x.
  Lemma forall2_map : forall u v, Forall2 Rh u v <-> v = map h u.
  Proof.
    intros u v. split.
    - intros F. induction F; cbn; [auto|]. unfold Rh in *. congruence.
    - intros ->. induction u; cbn; constructor; auto. reflexivity.
  Qed.
  Lemma vrel_map : forall N u, length u = N -> vrel N Rh u (map h u).
  Proof. intros N u L. split; auto. apply forall2_map. auto. Qed.
  Lemma mrel_map : forall M N a, rect M N a -> mrel M N Rh a (map (map h) a).
  Proof.
    intros M N a (L & F). split; auto. clear L. induction F; cbn; constructor; auto. apply vrel_map. auto.
  Qed.
  Lemma crel_map : forall z, crel Rh z (c_map h z).
  Proof. intros. split; reflexivity. Qed.
  Lemma qrel_map : forall z, qrel Rh z (q_map h z).
  Proof. intros. repeat split; reflexivity. Qed.
  Lemma srel_map : forall z : T, Rh z (h z).
  Proof. intros. reflexivity. Qed.
  Lemma rr_hom : forall A B (R : A -> B -> Prop) (g : A -> B) a b, rrel true R a b -> (forall x y, R x y -> y = g x) -> b = rmap g a.
  Proof. intros A B R g a b H K. destruct a, b; cbn in H |- *; try contradiction; try discriminate; auto. f_equal. auto. Qed.
  Lemma s_rel_hom : forall a b, rrel true Rh a b -> b = rmap h a.
  Proof. intros. eapply rr_hom; eauto. Qed.
  Lemma v_rel_hom : forall N a b, rrel true (vrel N Rh) a b -> b = rmap (map h) a.
  Proof. intros. eapply rr_hom; eauto. intros x y (_ & F). apply forall2_map. auto. Qed.
  Lemma m_rel_hom : forall M N a b, rrel true (mrel M N Rh) a b -> b = rmap (map (map h)) a.
  Proof.
    intros. eapply rr_hom; eauto. intros x y (_ & F). clear H. induction F as [|u v x y (_ & Huv) F IH]; cbn; auto. f_equal; auto. apply forall2_map. auto.
  Qed.
  Lemma c_rel_hom : forall a b, rrel true (crel Rh) a b -> b = rmap (c_map h) a.
  Proof. intros. eapply rr_hom; eauto. intros [] [] (E & F). cbv in E, F. subst. reflexivity. Qed.
  Lemma q_rel_hom : forall a b, rrel true (qrel Rh) a b -> b = rmap (q_map h) a.
  Proof. intros. eapply rr_hom; eauto. intros [] [] (E & F & G & K). cbv in E, F, G, K. subst. reflexivity. Qed.

  Context {o : Ops T} {o' : Ops U}.
  Lemma rr_rmap : forall A B (g : A -> B) a, rrel true (fun x y => y = g x) a (rmap g a).
  Proof. intros A B g []; cbn; auto. Qed.
  Lemma hom_rel : hom h o o' -> OpsRel true Rh o o'.
  Proof.
    intros [H0 H1 Ha Hs Hm Hn]. constructor; unfold Rh; intros; subst; auto; rewrite ?Ha, ?Hs, ?Hm, ?Hn; apply rr_rmap.
  Qed.
  Lemma hom_divrel : hom_div h o o' -> DivRel true Rh o o'.
  Proof. intros H x x' y y' -> ->. rewrite H. apply rr_rmap. Qed.
  Lemma hom_remrel : hom_rem h o o' -> RemRel true Rh o o'.
  Proof. intros H x x' y y' -> ->. rewrite H. apply rr_rmap. Qed.
End Glue.
Ltac hom_args := first [eapply vrel_map; eassumption | eapply mrel_map; eassumption | apply crel_map | apply qrel_map | apply srel_map].

Lemma forall2_eq : forall A (u v : list A), Forall2 eq u v -> u = v.
Proof. intros A u v F. induction F; congruence. Qed.
Lemma rr_lax : forall A (R : A -> A -> Prop) a b r, rrel false R a b -> (forall x y, R x y -> x = y) -> a = Ok r -> b = Ok r.
Proof. intros A R a b r H K ->. destruct b; cbn in H; try contradiction. f_equal. symmetry. auto. Qed.
Lemma s_rel_lax : forall A (a b : res A) r, rrel false eq a b -> a = Ok r -> b = Ok r.
Proof. intros. eapply rr_lax; eauto. Qed.
Lemma v_rel_lax : forall A N (a b : res (list A)) r, rrel false (vrel N eq) a b -> a = Ok r -> b = Ok r.
Proof. intros. eapply rr_lax; eauto. intros x y (_ & F). apply forall2_eq. auto. Qed.
Lemma m_rel_lax : forall A M N (a b : res (list (list A))) r, rrel false (mrel M N eq) a b -> a = Ok r -> b = Ok r.
Proof.
  intros. eapply rr_lax; eauto. intros x y (_ & F). clear - F. induction F as [|u v x y (_ & Huv) F IH]; auto. f_equal; auto. apply forall2_eq. auto.
Qed.
Lemma c_rel_lax : forall A (a b : res (complex A)) r, rrel false (crel eq) a b -> a = Ok r -> b = Ok r.
Proof. intros. eapply rr_lax; eauto. intros [] [] (E & F). cbn in *. congruence. Qed.
Lemma q_rel_lax : forall A (a b : res (quat A)) r, rrel false (qrel eq) a b -> a = Ok r -> b = Ok r.
Proof. intros. eapply rr_lax; eauto. intros [] [] (E & F & G & K). cbn in *. congruence. Qed.
Lemma crel_eq : forall A (z : complex A), crel eq z z.
Proof. intros. split; reflexivity. Qed.
Lemma qrel_eq : forall A (z : quat A), qrel eq z z.
Proof. intros. repeat split; reflexivity. Qed.
Ltac lax_args := first [eapply vrel_refl; eassumption | eapply mrel_refl; eassumption | apply crel_eq | apply qrel_eq | reflexivity].

(** ** Machine integers *)
Lemma pow_half : forall w, width true w -> (2 ^ w = 2 * 2 ^ (w - 1) /\ 0 < 2 ^ (w - 1))%Z.
Proof.
  intros w Hw. unfold width in Hw. split; [|apply Z.pow_pos_nonneg; lia].
  rewrite <- Z.pow_succ_r by lia. f_equal. lia.
Qed.
Section Word.
  Local Open Scope Z_scope.
  Context (signed : bool) (w : Z).
  Lemma in_wordb_spec : forall x, in_wordb signed w x = true <-> in_word signed w x.
  Proof. intros. unfold in_wordb, in_word. rewrite andb_true_iff, !Z.leb_le. tauto. Qed.
  Lemma check_lax : forall x, rrel false eq (check signed w x) (Ok x).
  Proof. intros. unfold check. destruct (in_wordb signed w x); cbn; auto. Qed.
  Lemma checked_rel : OpsRel false eq (checked_ops signed w) z_ops.
  Proof. constructor; intros; subst; cbn [o_zero o_one o_add o_sub o_mul o_neg checked_ops z_ops ok1 ok2]; auto; apply check_lax. Qed.
  Lemma checked_divrel : DivRel false eq (checked_ops signed w) z_ops.
  Proof. intros x x' y y' -> ->. cbn. destruct (y' =? 0); cbn; auto. apply check_lax. Qed.
  Lemma checked_remrel : RemRel false eq (checked_ops signed w) z_ops.
  Proof. intros x x' y y' -> ->. cbn. destruct (y' =? 0); cbn; auto. destruct (in_wordb signed w (x' ÷ y')); cbn; auto. Qed.

  Context (Hw : width signed w).
  Lemma pow_pos : 0 < 2 ^ w.
  Proof. apply Z.pow_pos_nonneg; destruct signed; unfold width in Hw; lia. Qed.
  Lemma pow_one : 2 ^ (if signed then w - 1 else w) > 1.
  Proof.
    assert (1 < 2 ^ (if signed then w - 1 else w)); [|lia]. apply Z.pow_gt_1; [lia|]. destruct signed; unfold width in Hw; lia.
  Qed.
  (** [wrap] is the representable representative modulo 2^w. *)
  Lemma wrap_spec : forall x, in_word signed w (wrap signed w x) /\ (exists k, wrap signed w x = x + k * 2 ^ w).
  Proof.
    intros x. pose proof pow_pos as P. unfold in_word, wrap, int_min, int_max. destruct signed.
    - destruct (pow_half Hw) as (E & P1). pose proof (Z.mod_pos_bound (x + 2 ^ (w - 1)) (2 ^ w) P). split; [lia|].
      exists (- ((x + 2 ^ (w - 1)) / 2 ^ w)). rewrite Z.mod_eq by lia. lia.
    - pose proof (Z.mod_pos_bound x (2 ^ w) P). split; [lia|]. exists (- (x / 2 ^ w)). rewrite Z.mod_eq by lia. lia.
  Qed.
  Lemma wrap_cong : forall x y k, x = y + k * 2 ^ w -> wrap signed w x = wrap signed w y.
  Proof.
    intros x y k ->. pose proof pow_pos as P. unfold wrap. destruct signed.
    - replace (y + k * 2 ^ w + 2 ^ (w - 1)) with (y + 2 ^ (w - 1) + k * 2 ^ w) by lia. rewrite Z.mod_add by lia. reflexivity.
    - rewrite Z.mod_add by lia. reflexivity.
  Qed.
  Lemma wrap_id : forall x, in_word signed w x -> wrap signed w x = x.
  Proof.
    intros x H. unfold in_word, wrap, int_min, int_max in *. destruct signed.
    - destruct (pow_half Hw) as (E & P1). rewrite Z.mod_small by lia. lia.
    - apply Z.mod_small. lia.
  Qed.
  Lemma word_0_1 : in_word signed w 0 /\ in_word signed w 1.
  Proof. pose proof pow_one. unfold in_word, int_min, int_max. destruct signed; lia. Qed.
  Lemma wrap_hom : hom (wrap signed w) z_ops (wrapping_ops signed w).
  Proof.
    destruct word_0_1 as (W0 & W1).
    constructor; intros; cbn [o_zero o_one o_add o_sub o_mul o_neg wrapping_ops z_ops ok1 ok2 rmap bind];
      try (symmetry; apply wrap_id; assumption); f_equal;
      try (destruct (wrap_spec x) as (_ & k & ->)); try (destruct (wrap_spec y) as (_ & l & ->)).
    - apply wrap_cong with (k := k + l). ring.
    - apply wrap_cong with (k := k - l). ring.
    - apply wrap_cong with (k := k * y + l * x + k * l * 2 ^ w). ring.
    - apply wrap_cong with (k := - k). ring.
  Qed.
  Lemma check_wrap : forall x, rrel false eq (check signed w x) (Ok (wrap signed w x)).
  Proof.
    intros. unfold check. destruct (in_wordb signed w x) eqn:E; cbn; auto. symmetry. apply wrap_id. apply in_wordb_spec. auto.
  Qed.
  Lemma checked_wrap_rel : OpsRel false eq (checked_ops signed w) (wrapping_ops signed w).
  Proof. constructor; intros; subst; cbn [o_zero o_one o_add o_sub o_mul o_neg checked_ops wrapping_ops]; auto; apply check_wrap. Qed.
  Lemma wr_v : forall u, Forall (in_word signed w) u -> map (wrap signed w) u = u.
  Proof. intros u H. induction H; cbn; auto. rewrite wrap_id by auto. congruence. Qed.
  Lemma wr_s : forall x, in_word signed w x -> wrap signed w x = x.
  Proof. exact wrap_id. Qed.
  Lemma wr_m : forall u, Forall (Forall (in_word signed w)) u -> map (map (wrap signed w)) u = u.
  Proof. intros u H. induction H; cbn; auto. rewrite wr_v by auto. congruence. Qed.
  Lemma wr_c : forall z, c_all (in_word signed w) z -> c_map (wrap signed w) z = z.
  Proof. intros [x y] (Hx & Hy). unfold c_map. cbn in *. rewrite !wrap_id by auto. reflexivity. Qed.
  Lemma wr_q : forall z, q_all (in_word signed w) z -> q_map (wrap signed w) z = z.
  Proof. intros [x y z t] (Hx & Hy & Hz & Ht). unfold q_map. cbn in *. rewrite !wrap_id by auto. reflexivity. Qed.
End Word.
Lemma checked_wrap_divrel : forall signed w, DivRel false eq (checked_ops signed w) (wrapping_ops signed w).
Proof. intros signed w x x' y y' -> ->. cbn [o_div wrapping_ops]. apply rr_refl. Qed.
Lemma checked_wrap_remrel : forall signed w, RemRel false eq (checked_ops signed w) (wrapping_ops signed w).
Proof. intros signed w x x' y y' -> ->. cbn [o_rem wrapping_ops]. apply rr_refl. Qed.

(* ------------------------------------------------------------------------- *)
(** * C72                                                                      *)
Section C72.
  Context {T U : Type} (h : T -> U) (o : Ops T) (o' : Ops U) (H : hom h o o').

  Theorem C72_v_zero : forall N, v_zero o' N = rmap (map h) (v_zero o N).
  Proof. intros. eapply v_rel_hom. eapply (rr_v_zero (hom_rel H)); hom_args. Qed.
  Theorem C72_v_add : forall N u v, length u = N -> length v = N -> v_add o' N (map h u) (map h v) = rmap (map h) (v_add o N u v).
  Proof. intros. eapply v_rel_hom. eapply (rr_v_add (hom_rel H)); hom_args. Qed.
  Theorem C72_v_sub : forall N u v, length u = N -> length v = N -> v_sub o' N (map h u) (map h v) = rmap (map h) (v_sub o N u v).
  Proof. intros. eapply v_rel_hom. eapply (rr_v_sub (hom_rel H)); hom_args. Qed.
  Theorem C72_v_mul : forall N u v, length u = N -> length v = N -> v_mul o' N (map h u) (map h v) = rmap (map h) (v_mul o N u v).
  Proof. intros. eapply v_rel_hom. eapply (rr_v_mul (hom_rel H)); hom_args. Qed.
  Theorem C72_v_neg : forall N u, length u = N -> v_neg o' (map h u) = rmap (map h) (v_neg o u).
  Proof. intros. eapply v_rel_hom. eapply (rr_v_neg (hom_rel H)); hom_args. Qed.
  Theorem C72_v_smul : forall N u v, length u = N -> v_smul o' (map h u) (h v) = rmap (map h) (v_smul o u v).
  Proof. intros. eapply v_rel_hom. eapply (rr_v_smul (hom_rel H)); hom_args. Qed.
  Theorem C72_v_sum : forall N u, length u = N -> v_sum o' (map h u) = rmap h (v_sum o u).
  Proof. intros. eapply s_rel_hom. eapply (rr_v_sum (hom_rel H)); hom_args. Qed.
  Theorem C72_v_dot : forall N u v, length u = N -> length v = N -> v_dot o' N (map h u) (map h v) = rmap h (v_dot o N u v).
  Proof. intros. eapply s_rel_hom. eapply (rr_v_dot (hom_rel H)); hom_args. Qed.
  Theorem C72_v_square_length : forall N u, length u = N -> v_square_length o' (map h u) = rmap h (v_square_length o u).
  Proof. intros. eapply s_rel_hom. eapply (rr_v_square_length (hom_rel H)); hom_args. Qed.
  Theorem C72_v_cross2 : forall u v, length u = 2 -> length v = 2 -> v_cross2 o' (map h u) (map h v) = rmap h (v_cross2 o u v).
  Proof. intros. eapply s_rel_hom. eapply (rr_v_cross2 (hom_rel H)); hom_args. Qed.
  Theorem C72_v_cross3 : forall u v, length u = 3 -> length v = 3 -> v_cross3 o' (map h u) (map h v) = rmap (map h) (v_cross3 o u v).
  Proof. intros. eapply v_rel_hom. eapply (rr_v_cross3 (hom_rel H)); hom_args. Qed.
  Theorem C72_v_cross4 : forall u v, length u = 4 -> length v = 4 -> v_cross4 o' (map h u) (map h v) = rmap (map h) (v_cross4 o u v).
  Proof. intros. eapply v_rel_hom. eapply (rr_v_cross4 (hom_rel H)); hom_args. Qed.
  Theorem C72_m_zero : forall M N, m_zero o' M N = rmap (map (map h)) (m_zero o M N).
  Proof. intros. eapply m_rel_hom. eapply (rr_m_zero (hom_rel H)); hom_args. Qed.
  Theorem C72_m_one : forall N, m_one o' N = rmap (map (map h)) (m_one o N).
  Proof. intros. eapply m_rel_hom. eapply (rr_m_one (hom_rel H)); hom_args. Qed.
  Theorem C72_m_add : forall M N u v, rect M N u -> rect M N v -> m_add o' M N (map (map h) u) (map (map h) v) = rmap (map (map h)) (m_add o M N u v).
  Proof. intros. eapply m_rel_hom. eapply (rr_m_add (hom_rel H)); hom_args. Qed.
  Theorem C72_m_sub : forall M N u v, rect M N u -> rect M N v -> m_sub o' M N (map (map h) u) (map (map h) v) = rmap (map (map h)) (m_sub o M N u v).
  Proof. intros. eapply m_rel_hom. eapply (rr_m_sub (hom_rel H)); hom_args. Qed.
  Theorem C72_m_mul : forall M N u v, rect M N u -> rect M N v -> m_mul o' M N (map (map h) u) (map (map h) v) = rmap (map (map h)) (m_mul o M N u v).
  Proof. intros. eapply m_rel_hom. eapply (rr_m_mul (hom_rel H)); hom_args. Qed.
  Theorem C72_m_neg : forall M N u, rect M N u -> m_neg o' (map (map h) u) = rmap (map (map h)) (m_neg o u).
  Proof. intros. eapply m_rel_hom. eapply (rr_m_neg (hom_rel H)); hom_args. Qed.
  Theorem C72_m_smul : forall M N u v, rect M N u -> m_smul o' (map (map h) u) (h v) = rmap (map (map h)) (m_smul o u v).
  Proof. intros. eapply m_rel_hom. eapply (rr_m_smul (hom_rel H)); hom_args. Qed.
  Theorem C72_m_sum : forall M N u, rect M N u -> m_sum o' (map (map h) u) = rmap h (m_sum o u).
  Proof. intros. eapply s_rel_hom. eapply (rr_m_sum (hom_rel H)); hom_args. Qed.
  Theorem C72_m_dot : forall L M N u v, rect L M u -> rect M N v -> m_dot o' L M N (map (map h) u) (map (map h) v) = rmap (map (map h)) (m_dot o L M N u v).
  Proof. intros. eapply m_rel_hom. eapply (rr_m_dot (hom_rel H)); hom_args. Qed.
  Theorem C72_m_dot_v : forall M N u v, rect M N u -> length v = N -> m_dot_v o' M N (map (map h) u) (map h v) = rmap (map h) (m_dot_v o M N u v).
  Proof. intros. eapply v_rel_hom. eapply (rr_m_dot_v (hom_rel H)); hom_args. Qed.
  Theorem C72_v_dot_m : forall M N u v, length u = M -> rect M N v -> v_dot_m o' M N (map h u) (map (map h) v) = rmap (map h) (v_dot_m o M N u v).
  Proof. intros. eapply v_rel_hom. eapply (rr_v_dot_m (hom_rel H)); hom_args. Qed.
  Theorem C72_m_outer : forall M N u v, length u = M -> length v = N -> m_outer o' M N (map h u) (map h v) = rmap (map (map h)) (m_outer o M N u v).
  Proof. intros. eapply m_rel_hom. eapply (rr_m_outer (hom_rel H)); hom_args. Qed.
  Theorem C72_m_det : forall N u, rect N N u -> m_det o' N (map (map h) u) = rmap h (m_det o N u).
  Proof. intros. eapply s_rel_hom. eapply (rr_m_det (hom_rel H)); hom_args. Qed.
  Theorem C72_m_cofactor : forall N i j u, rect N N u -> m_cofactor o' N (map (map h) u) i j = rmap h (m_cofactor o N u i j).
  Proof. intros. eapply s_rel_hom. eapply (rr_m_cofactor (hom_rel H)); hom_args. Qed.
  Theorem C72_m_adj : forall N u, rect N N u -> m_adj o' N (map (map h) u) = rmap (map (map h)) (m_adj o N u).
  Proof. intros. eapply m_rel_hom. eapply (rr_m_adj (hom_rel H)); hom_args. Qed.
  Theorem C72_c_add : forall u v, c_add o' (c_map h u) (c_map h v) = rmap (c_map h) (c_add o u v).
  Proof. intros. eapply c_rel_hom. eapply (rr_c_add (hom_rel H)); hom_args. Qed.
  Theorem C72_c_sub : forall u v, c_sub o' (c_map h u) (c_map h v) = rmap (c_map h) (c_sub o u v).
  Proof. intros. eapply c_rel_hom. eapply (rr_c_sub (hom_rel H)); hom_args. Qed.
  Theorem C72_c_mul : forall u v, c_mul o' (c_map h u) (c_map h v) = rmap (c_map h) (c_mul o u v).
  Proof. intros. eapply c_rel_hom. eapply (rr_c_mul (hom_rel H)); hom_args. Qed.
  Theorem C72_c_neg : forall u, c_neg o' (c_map h u) = rmap (c_map h) (c_neg o u).
  Proof. intros. eapply c_rel_hom. eapply (rr_c_neg (hom_rel H)); hom_args. Qed.
  Theorem C72_c_conj : forall u, c_conj o' (c_map h u) = rmap (c_map h) (c_conj o u).
  Proof. intros. eapply c_rel_hom. eapply (rr_c_conj (hom_rel H)); hom_args. Qed.
  Theorem C72_c_mul_s : forall u v, c_mul_s o' (c_map h u) (h v) = rmap (c_map h) (c_mul_s o u v).
  Proof. intros. eapply c_rel_hom. eapply (rr_c_mul_s (hom_rel H)); hom_args. Qed.
  Theorem C72_c_norm_sqr : forall u, c_norm_sqr o' (c_map h u) = rmap h (c_norm_sqr o u).
  Proof. intros. eapply s_rel_hom. eapply (rr_c_norm_sqr (hom_rel H)); hom_args. Qed.
  Theorem C72_c_dot : forall u v, c_dot o' (c_map h u) (c_map h v) = rmap h (c_dot o u v).
  Proof. intros. eapply s_rel_hom. eapply (rr_c_dot (hom_rel H)); hom_args. Qed.
  Theorem C72_q_add : forall u v, q_add o' (q_map h u) (q_map h v) = rmap (q_map h) (q_add o u v).
  Proof. intros. eapply q_rel_hom. eapply (rr_q_add (hom_rel H)); hom_args. Qed.
  Theorem C72_q_sub : forall u v, q_sub o' (q_map h u) (q_map h v) = rmap (q_map h) (q_sub o u v).
  Proof. intros. eapply q_rel_hom. eapply (rr_q_sub (hom_rel H)); hom_args. Qed.
  Theorem C72_q_mul : forall u v, q_mul o' (q_map h u) (q_map h v) = rmap (q_map h) (q_mul o u v).
  Proof. intros. eapply q_rel_hom. eapply (rr_q_mul (hom_rel H)); hom_args. Qed.
  Theorem C72_q_neg : forall u, q_neg o' (q_map h u) = rmap (q_map h) (q_neg o u).
  Proof. intros. eapply q_rel_hom. eapply (rr_q_neg (hom_rel H)); hom_args. Qed.
  Theorem C72_q_conj : forall u, q_conj o' (q_map h u) = rmap (q_map h) (q_conj o u).
  Proof. intros. eapply q_rel_hom. eapply (rr_q_conj (hom_rel H)); hom_args. Qed.
  Theorem C72_q_mul_s : forall u v, q_mul_s o' (q_map h u) (h v) = rmap (q_map h) (q_mul_s o u v).
  Proof. intros. eapply q_rel_hom. eapply (rr_q_mul_s (hom_rel H)); hom_args. Qed.
  Theorem C72_q_mul_c : forall u v, q_mul_c o' (q_map h u) (c_map h v) = rmap (q_map h) (q_mul_c o u v).
  Proof. intros. eapply q_rel_hom. eapply (rr_q_mul_c (hom_rel H)); hom_args. Qed.
  Theorem C72_c_mul_q : forall u v, c_mul_q o' (c_map h u) (q_map h v) = rmap (q_map h) (c_mul_q o u v).
  Proof. intros. eapply q_rel_hom. eapply (rr_c_mul_q (hom_rel H)); hom_args. Qed.
  Theorem C72_q_norm_sqr : forall u, q_norm_sqr o' (q_map h u) = rmap h (q_norm_sqr o u).
  Proof. intros. eapply s_rel_hom. eapply (rr_q_norm_sqr (hom_rel H)); hom_args. Qed.
  Theorem C72_q_dot : forall u v, q_dot o' (q_map h u) (q_map h v) = rmap h (q_dot o u v).
  Proof. intros. eapply s_rel_hom. eapply (rr_q_dot (hom_rel H)); hom_args. Qed.
  Theorem C72_rot2_apply : forall u v, length v = 2 -> rot2_apply o' (c_map h u) (map h v) = rmap (map h) (rot2_apply o u v).
  Proof. intros. eapply v_rel_hom. eapply (rr_rot2_apply (hom_rel H)); hom_args. Qed.
  Theorem C72_rot3_apply : forall u v, length v = 3 -> rot3_apply o' (q_map h u) (map h v) = rmap (map h) (rot3_apply o u v).
  Proof. intros. eapply v_rel_hom. eapply (rr_rot3_apply (hom_rel H)); hom_args. Qed.
  Context (Hdiv : hom_div h o o').

  Theorem C72_v_div : forall N u v, length u = N -> length v = N -> v_div o' N (map h u) (map h v) = rmap (map h) (v_div o N u v).
  Proof. intros. eapply v_rel_hom. eapply (rr_v_div (hom_divrel Hdiv)); hom_args. Qed.
  Theorem C72_v_sdiv : forall N u v, length u = N -> v_sdiv o' (map h u) (h v) = rmap (map h) (v_sdiv o u v).
  Proof. intros. eapply v_rel_hom. eapply (rr_v_sdiv (hom_divrel Hdiv)); hom_args. Qed.
  Theorem C72_m_div : forall M N u v, rect M N u -> rect M N v -> m_div o' M N (map (map h) u) (map (map h) v) = rmap (map (map h)) (m_div o M N u v).
  Proof. intros. eapply m_rel_hom. eapply (rr_m_div (hom_divrel Hdiv)); hom_args. Qed.
  Theorem C72_m_sdiv : forall M N u v, rect M N u -> m_sdiv o' (map (map h) u) (h v) = rmap (map (map h)) (m_sdiv o u v).
  Proof. intros. eapply m_rel_hom. eapply (rr_m_sdiv (hom_divrel Hdiv)); hom_args. Qed.
  Theorem C72_m_inv : forall N u, rect N N u -> m_inv o' N (map (map h) u) = rmap (map (map h)) (m_inv o N u).
  Proof. intros. eapply m_rel_hom. eapply (rr_m_inv (hom_rel H) (hom_divrel Hdiv)); hom_args. Qed.
  Theorem C72_c_inv : forall u, c_inv o' (c_map h u) = rmap (c_map h) (c_inv o u).
  Proof. intros. eapply c_rel_hom. eapply (rr_c_inv (hom_rel H) (hom_divrel Hdiv)); hom_args. Qed.
  Theorem C72_c_div : forall u v, c_div o' (c_map h u) (c_map h v) = rmap (c_map h) (c_div o u v).
  Proof. intros. eapply c_rel_hom. eapply (rr_c_div (hom_rel H) (hom_divrel Hdiv)); hom_args. Qed.
  Theorem C72_q_inv : forall u, q_inv o' (q_map h u) = rmap (q_map h) (q_inv o u).
  Proof. intros. eapply q_rel_hom. eapply (rr_q_inv (hom_rel H) (hom_divrel Hdiv)); hom_args. Qed.
  Theorem C72_q_div : forall u v, q_div o' (q_map h u) (q_map h v) = rmap (q_map h) (q_div o u v).
  Proof. intros. eapply q_rel_hom. eapply (rr_q_div (hom_rel H) (hom_divrel Hdiv)); hom_args. Qed.
  Theorem C72_mo_apply_self : forall u v, rect 2 2 u -> mo_apply_self o' (map (map h) u) (h v) = rmap h (mo_apply_self o u v).
  Proof. intros. eapply s_rel_hom. eapply (rr_mo_apply_self (hom_rel H) (hom_divrel Hdiv)); hom_args. Qed.
  Context (Hrem : hom_rem h o o').

  Theorem C72_v_rem : forall N u v, length u = N -> length v = N -> v_rem o' N (map h u) (map h v) = rmap (map h) (v_rem o N u v).
  Proof. intros. eapply v_rel_hom. eapply (rr_v_rem (hom_remrel Hrem)); hom_args. Qed.
  Theorem C72_m_rem : forall M N u v, rect M N u -> rect M N v -> m_rem o' M N (map (map h) u) (map (map h) v) = rmap (map (map h)) (m_rem o M N u v).
  Proof. intros. eapply m_rel_hom. eapply (rr_m_rem (hom_remrel Hrem)); hom_args. Qed.
End C72.

(** Homomorphisms in use.  The integers inside the rationals: *)
Theorem C72_integers_in_rationals : hom qcz z_ops qc_ops.
Proof.
  constructor; intros; cbn [o_zero o_one o_add o_sub o_mul o_neg z_ops qc_ops ok1 ok2 rmap bind]; try reflexivity; unfold ok1, ok2; f_equal; apply Qc_is_canon;
    unfold qcz, Qcminus, Qcplus, Qcmult, Qcopp, Q2Qc; cbn [this]; rewrite ?Qred_correct; unfold Qeq; cbn [Qplus Qmult Qopp Qnum Qden inject_Z]; lia.
Qed.
(** so the determinant of an integer matrix is the same computed over the rationals; *)
Corollary C72_rational_det : forall N m, rect N N m -> m_det qc_ops N (map (map qcz) m) = rmap qcz (m_det z_ops N m).
Proof. intros. apply (C72_m_det C72_integers_in_rationals). auto. Qed.

(** scalars inside the complex numbers, complex numbers inside the quaternions, conjugation: *)
Section Extensions.
  Context {T : Type} {o : Ops T} (R : CRing o) (rem : complex T -> complex T -> res (complex T)).
  Local Notation co := (c_ops o rem).
  Add Ring TR : (CRing_theory R).
  Local Ltac go := intros; cbn [o_zero o_one o_add o_sub o_mul o_neg c_ops q_ops re im qw qx qy qz];
    rewrite ?(c_add_v R), ?(c_sub_v R), ?(c_mul_v R), ?(c_neg_v R), ?(q_add_v R), ?(q_sub_v R), ?(q_mul_v R), ?(q_neg_v R),
      ?(r_add_ok R), ?(r_sub_ok R), ?(r_mul_ok R), ?(r_neg_ok R);
    cbn [rmap bind re im qw qx qy qz]; try apply f_equal; try (apply f_equal2; ring); try (apply f_equal4; ring); try reflexivity; try ring.
  Theorem C72_scalars_in_complex : hom (fun x => Cx x (o_zero o)) o co.
  Proof.
    constructor; go.
  Qed.
  Theorem C72_complex_in_quaternions : hom (fun z : complex T => Qt (re z) (im z) (o_zero o) (o_zero o)) co (q_ops o).
  Proof. constructor; go. Qed.
  Theorem C72_conjugation : hom (fun z : complex T => Cx (re z) (r_opp R (im z))) co co.
  Proof. constructor; go. Qed.
  (** The determinant of the conjugated matrix is the conjugate of the determinant. *)
  Corollary C72_conj_det : forall N m, rect N N m ->
    (let! mc := m_map (c_conj o) m in m_det co N mc) =! (let! d := m_det co N m in c_conj o d).
  Proof.
    intros N m Hm. assert (E : m_map (c_conj o) m = Ok (map (map (fun z => Cx (re z) (r_opp R (im z)))) m)).
    { rewrite m_map_res. clear Hm. induction m as [|r m IH]; cbn [map_res map]; auto.
      assert (Er : map_res (c_conj o) r = Ok (map (fun z => Cx (re z) (r_opp R (im z))) r)).
      { clear IH. induction r as [|z r IHr]; cbn [map_res map]; auto. rewrite (c_conj_v R), IHr. reflexivity. }
      rewrite Er, IH. reflexivity. }
    rewrite E. cbn [bind]. pose proof (C72_m_det C72_conjugation Hm) as X. cbn beta in X. rewrite X.
    rewrite (C30_leibniz (c_ring_inst R rem) Hm). cbn [rmap bind]. rewrite (c_conj_v R). eexists. split; reflexivity.
  Qed.
End Extensions.

(* ------------------------------------------------------------------------- *)
(** * C70                                                                      *)
Section C70.
  Context (signed : bool) (w : Z).
  Local Notation checked := (checked_ops signed w).

  Theorem C70_v_zero : forall N r, v_zero checked N = Ok r -> v_zero z_ops N = Ok r.
  Proof. intros. eapply v_rel_lax; [eapply (rr_v_zero (@checked_rel signed w)); lax_args|eassumption]. Qed.
  Theorem C70_v_add : forall N u v r, length u = N -> length v = N -> v_add checked N u v = Ok r -> v_add z_ops N u v = Ok r.
  Proof. intros. eapply v_rel_lax; [eapply (rr_v_add (@checked_rel signed w)); lax_args|eassumption]. Qed.
  Theorem C70_v_sub : forall N u v r, length u = N -> length v = N -> v_sub checked N u v = Ok r -> v_sub z_ops N u v = Ok r.
  Proof. intros. eapply v_rel_lax; [eapply (rr_v_sub (@checked_rel signed w)); lax_args|eassumption]. Qed.
  Theorem C70_v_mul : forall N u v r, length u = N -> length v = N -> v_mul checked N u v = Ok r -> v_mul z_ops N u v = Ok r.
  Proof. intros. eapply v_rel_lax; [eapply (rr_v_mul (@checked_rel signed w)); lax_args|eassumption]. Qed.
  Theorem C70_v_neg : forall N u r, length u = N -> v_neg checked u = Ok r -> v_neg z_ops u = Ok r.
  Proof. intros. eapply v_rel_lax; [eapply (rr_v_neg (@checked_rel signed w)); lax_args|eassumption]. Qed.
  Theorem C70_v_smul : forall N u v r, length u = N -> v_smul checked u v = Ok r -> v_smul z_ops u v = Ok r.
  Proof. intros. eapply v_rel_lax; [eapply (rr_v_smul (@checked_rel signed w)); lax_args|eassumption]. Qed.
  Theorem C70_v_sum : forall N u r, length u = N -> v_sum checked u = Ok r -> v_sum z_ops u = Ok r.
  Proof. intros. eapply s_rel_lax; [eapply (rr_v_sum (@checked_rel signed w)); lax_args|eassumption]. Qed.
  Theorem C70_v_dot : forall N u v r, length u = N -> length v = N -> v_dot checked N u v = Ok r -> v_dot z_ops N u v = Ok r.
  Proof. intros. eapply s_rel_lax; [eapply (rr_v_dot (@checked_rel signed w)); lax_args|eassumption]. Qed.
  Theorem C70_v_square_length : forall N u r, length u = N -> v_square_length checked u = Ok r -> v_square_length z_ops u = Ok r.
  Proof. intros. eapply s_rel_lax; [eapply (rr_v_square_length (@checked_rel signed w)); lax_args|eassumption]. Qed.
  Theorem C70_v_cross2 : forall u v r, length u = 2 -> length v = 2 -> v_cross2 checked u v = Ok r -> v_cross2 z_ops u v = Ok r.
  Proof. intros. eapply s_rel_lax; [eapply (rr_v_cross2 (@checked_rel signed w)); lax_args|eassumption]. Qed.
  Theorem C70_v_cross3 : forall u v r, length u = 3 -> length v = 3 -> v_cross3 checked u v = Ok r -> v_cross3 z_ops u v = Ok r.
  Proof. intros. eapply v_rel_lax; [eapply (rr_v_cross3 (@checked_rel signed w)); lax_args|eassumption]. Qed.
  Theorem C70_v_cross4 : forall u v r, length u = 4 -> length v = 4 -> v_cross4 checked u v = Ok r -> v_cross4 z_ops u v = Ok r.
  Proof. intros. eapply v_rel_lax; [eapply (rr_v_cross4 (@checked_rel signed w)); lax_args|eassumption]. Qed.
  Theorem C70_v_div : forall N u v r, length u = N -> length v = N -> v_div checked N u v = Ok r -> v_div z_ops N u v = Ok r.
  Proof. intros. eapply v_rel_lax; [eapply (rr_v_div (@checked_divrel signed w)); lax_args|eassumption]. Qed.
  Theorem C70_v_sdiv : forall N u v r, length u = N -> v_sdiv checked u v = Ok r -> v_sdiv z_ops u v = Ok r.
  Proof. intros. eapply v_rel_lax; [eapply (rr_v_sdiv (@checked_divrel signed w)); lax_args|eassumption]. Qed.
  Theorem C70_v_rem : forall N u v r, length u = N -> length v = N -> v_rem checked N u v = Ok r -> v_rem z_ops N u v = Ok r.
  Proof. intros. eapply v_rel_lax; [eapply (rr_v_rem (checked_remrel signed w)); lax_args|eassumption]. Qed.
  Theorem C70_m_zero : forall M N r, m_zero checked M N = Ok r -> m_zero z_ops M N = Ok r.
  Proof. intros. eapply m_rel_lax; [eapply (rr_m_zero (@checked_rel signed w)); lax_args|eassumption]. Qed.
  Theorem C70_m_one : forall N r, m_one checked N = Ok r -> m_one z_ops N = Ok r.
  Proof. intros. eapply m_rel_lax; [eapply (rr_m_one (@checked_rel signed w)); lax_args|eassumption]. Qed.
  Theorem C70_m_add : forall M N u v r, rect M N u -> rect M N v -> m_add checked M N u v = Ok r -> m_add z_ops M N u v = Ok r.
  Proof. intros. eapply m_rel_lax; [eapply (rr_m_add (@checked_rel signed w)); lax_args|eassumption]. Qed.
  Theorem C70_m_sub : forall M N u v r, rect M N u -> rect M N v -> m_sub checked M N u v = Ok r -> m_sub z_ops M N u v = Ok r.
  Proof. intros. eapply m_rel_lax; [eapply (rr_m_sub (@checked_rel signed w)); lax_args|eassumption]. Qed.
  Theorem C70_m_mul : forall M N u v r, rect M N u -> rect M N v -> m_mul checked M N u v = Ok r -> m_mul z_ops M N u v = Ok r.
  Proof. intros. eapply m_rel_lax; [eapply (rr_m_mul (@checked_rel signed w)); lax_args|eassumption]. Qed.
  Theorem C70_m_neg : forall M N u r, rect M N u -> m_neg checked u = Ok r -> m_neg z_ops u = Ok r.
  Proof. intros. eapply m_rel_lax; [eapply (rr_m_neg (@checked_rel signed w)); lax_args|eassumption]. Qed.
  Theorem C70_m_smul : forall M N u v r, rect M N u -> m_smul checked u v = Ok r -> m_smul z_ops u v = Ok r.
  Proof. intros. eapply m_rel_lax; [eapply (rr_m_smul (@checked_rel signed w)); lax_args|eassumption]. Qed.
  Theorem C70_m_sum : forall M N u r, rect M N u -> m_sum checked u = Ok r -> m_sum z_ops u = Ok r.
  Proof. intros. eapply s_rel_lax; [eapply (rr_m_sum (@checked_rel signed w)); lax_args|eassumption]. Qed.
  Theorem C70_m_div : forall M N u v r, rect M N u -> rect M N v -> m_div checked M N u v = Ok r -> m_div z_ops M N u v = Ok r.
  Proof. intros. eapply m_rel_lax; [eapply (rr_m_div (@checked_divrel signed w)); lax_args|eassumption]. Qed.
  Theorem C70_m_sdiv : forall M N u v r, rect M N u -> m_sdiv checked u v = Ok r -> m_sdiv z_ops u v = Ok r.
  Proof. intros. eapply m_rel_lax; [eapply (rr_m_sdiv (@checked_divrel signed w)); lax_args|eassumption]. Qed.
  Theorem C70_m_rem : forall M N u v r, rect M N u -> rect M N v -> m_rem checked M N u v = Ok r -> m_rem z_ops M N u v = Ok r.
  Proof. intros. eapply m_rel_lax; [eapply (rr_m_rem (checked_remrel signed w)); lax_args|eassumption]. Qed.
  Theorem C70_m_dot : forall L M N u v r, rect L M u -> rect M N v -> m_dot checked L M N u v = Ok r -> m_dot z_ops L M N u v = Ok r.
  Proof. intros. eapply m_rel_lax; [eapply (rr_m_dot (@checked_rel signed w)); lax_args|eassumption]. Qed.
  Theorem C70_m_dot_v : forall M N u v r, rect M N u -> length v = N -> m_dot_v checked M N u v = Ok r -> m_dot_v z_ops M N u v = Ok r.
  Proof. intros. eapply v_rel_lax; [eapply (rr_m_dot_v (@checked_rel signed w)); lax_args|eassumption]. Qed.
  Theorem C70_v_dot_m : forall M N u v r, length u = M -> rect M N v -> v_dot_m checked M N u v = Ok r -> v_dot_m z_ops M N u v = Ok r.
  Proof. intros. eapply v_rel_lax; [eapply (rr_v_dot_m (@checked_rel signed w)); lax_args|eassumption]. Qed.
  Theorem C70_m_outer : forall M N u v r, length u = M -> length v = N -> m_outer checked M N u v = Ok r -> m_outer z_ops M N u v = Ok r.
  Proof. intros. eapply m_rel_lax; [eapply (rr_m_outer (@checked_rel signed w)); lax_args|eassumption]. Qed.
  Theorem C70_m_det : forall N u r, rect N N u -> m_det checked N u = Ok r -> m_det z_ops N u = Ok r.
  Proof. intros. eapply s_rel_lax; [eapply (rr_m_det (@checked_rel signed w)); lax_args|eassumption]. Qed.
  Theorem C70_m_cofactor : forall N i j u r, rect N N u -> m_cofactor checked N u i j = Ok r -> m_cofactor z_ops N u i j = Ok r.
  Proof. intros. eapply s_rel_lax; [eapply (rr_m_cofactor (@checked_rel signed w)); lax_args|eassumption]. Qed.
  Theorem C70_m_adj : forall N u r, rect N N u -> m_adj checked N u = Ok r -> m_adj z_ops N u = Ok r.
  Proof. intros. eapply m_rel_lax; [eapply (rr_m_adj (@checked_rel signed w)); lax_args|eassumption]. Qed.
  Theorem C70_m_inv : forall N u r, rect N N u -> m_inv checked N u = Ok r -> m_inv z_ops N u = Ok r.
  Proof. intros. eapply m_rel_lax; [eapply (rr_m_inv (@checked_rel signed w) (@checked_divrel signed w)); lax_args|eassumption]. Qed.
  Theorem C70_c_add : forall u v r, c_add checked u v = Ok r -> c_add z_ops u v = Ok r.
  Proof. intros. eapply c_rel_lax; [eapply (rr_c_add (@checked_rel signed w)); lax_args|eassumption]. Qed.
  Theorem C70_c_sub : forall u v r, c_sub checked u v = Ok r -> c_sub z_ops u v = Ok r.
  Proof. intros. eapply c_rel_lax; [eapply (rr_c_sub (@checked_rel signed w)); lax_args|eassumption]. Qed.
  Theorem C70_c_mul : forall u v r, c_mul checked u v = Ok r -> c_mul z_ops u v = Ok r.
  Proof. intros. eapply c_rel_lax; [eapply (rr_c_mul (@checked_rel signed w)); lax_args|eassumption]. Qed.
  Theorem C70_c_neg : forall u r, c_neg checked u = Ok r -> c_neg z_ops u = Ok r.
  Proof. intros. eapply c_rel_lax; [eapply (rr_c_neg (@checked_rel signed w)); lax_args|eassumption]. Qed.
  Theorem C70_c_conj : forall u r, c_conj checked u = Ok r -> c_conj z_ops u = Ok r.
  Proof. intros. eapply c_rel_lax; [eapply (rr_c_conj (@checked_rel signed w)); lax_args|eassumption]. Qed.
  Theorem C70_c_mul_s : forall u v r, c_mul_s checked u v = Ok r -> c_mul_s z_ops u v = Ok r.
  Proof. intros. eapply c_rel_lax; [eapply (rr_c_mul_s (@checked_rel signed w)); lax_args|eassumption]. Qed.
  Theorem C70_c_norm_sqr : forall u r, c_norm_sqr checked u = Ok r -> c_norm_sqr z_ops u = Ok r.
  Proof. intros. eapply s_rel_lax; [eapply (rr_c_norm_sqr (@checked_rel signed w)); lax_args|eassumption]. Qed.
  Theorem C70_c_dot : forall u v r, c_dot checked u v = Ok r -> c_dot z_ops u v = Ok r.
  Proof. intros. eapply s_rel_lax; [eapply (rr_c_dot (@checked_rel signed w)); lax_args|eassumption]. Qed.
  Theorem C70_c_inv : forall u r, c_inv checked u = Ok r -> c_inv z_ops u = Ok r.
  Proof. intros. eapply c_rel_lax; [eapply (rr_c_inv (@checked_rel signed w) (@checked_divrel signed w)); lax_args|eassumption]. Qed.
  Theorem C70_c_div : forall u v r, c_div checked u v = Ok r -> c_div z_ops u v = Ok r.
  Proof. intros. eapply c_rel_lax; [eapply (rr_c_div (@checked_rel signed w) (@checked_divrel signed w)); lax_args|eassumption]. Qed.
  Theorem C70_q_add : forall u v r, q_add checked u v = Ok r -> q_add z_ops u v = Ok r.
  Proof. intros. eapply q_rel_lax; [eapply (rr_q_add (@checked_rel signed w)); lax_args|eassumption]. Qed.
  Theorem C70_q_sub : forall u v r, q_sub checked u v = Ok r -> q_sub z_ops u v = Ok r.
  Proof. intros. eapply q_rel_lax; [eapply (rr_q_sub (@checked_rel signed w)); lax_args|eassumption]. Qed.
  Theorem C70_q_mul : forall u v r, q_mul checked u v = Ok r -> q_mul z_ops u v = Ok r.
  Proof. intros. eapply q_rel_lax; [eapply (rr_q_mul (@checked_rel signed w)); lax_args|eassumption]. Qed.
  Theorem C70_q_neg : forall u r, q_neg checked u = Ok r -> q_neg z_ops u = Ok r.
  Proof. intros. eapply q_rel_lax; [eapply (rr_q_neg (@checked_rel signed w)); lax_args|eassumption]. Qed.
  Theorem C70_q_conj : forall u r, q_conj checked u = Ok r -> q_conj z_ops u = Ok r.
  Proof. intros. eapply q_rel_lax; [eapply (rr_q_conj (@checked_rel signed w)); lax_args|eassumption]. Qed.
  Theorem C70_q_mul_s : forall u v r, q_mul_s checked u v = Ok r -> q_mul_s z_ops u v = Ok r.
  Proof. intros. eapply q_rel_lax; [eapply (rr_q_mul_s (@checked_rel signed w)); lax_args|eassumption]. Qed.
  Theorem C70_q_mul_c : forall u v r, q_mul_c checked u v = Ok r -> q_mul_c z_ops u v = Ok r.
  Proof. intros. eapply q_rel_lax; [eapply (rr_q_mul_c (@checked_rel signed w)); lax_args|eassumption]. Qed.
  Theorem C70_c_mul_q : forall u v r, c_mul_q checked u v = Ok r -> c_mul_q z_ops u v = Ok r.
  Proof. intros. eapply q_rel_lax; [eapply (rr_c_mul_q (@checked_rel signed w)); lax_args|eassumption]. Qed.
  Theorem C70_q_norm_sqr : forall u r, q_norm_sqr checked u = Ok r -> q_norm_sqr z_ops u = Ok r.
  Proof. intros. eapply s_rel_lax; [eapply (rr_q_norm_sqr (@checked_rel signed w)); lax_args|eassumption]. Qed.
  Theorem C70_q_dot : forall u v r, q_dot checked u v = Ok r -> q_dot z_ops u v = Ok r.
  Proof. intros. eapply s_rel_lax; [eapply (rr_q_dot (@checked_rel signed w)); lax_args|eassumption]. Qed.
  Theorem C70_q_inv : forall u r, q_inv checked u = Ok r -> q_inv z_ops u = Ok r.
  Proof. intros. eapply q_rel_lax; [eapply (rr_q_inv (@checked_rel signed w) (@checked_divrel signed w)); lax_args|eassumption]. Qed.
  Theorem C70_q_div : forall u v r, q_div checked u v = Ok r -> q_div z_ops u v = Ok r.
  Proof. intros. eapply q_rel_lax; [eapply (rr_q_div (@checked_rel signed w) (@checked_divrel signed w)); lax_args|eassumption]. Qed.
  Theorem C70_rot2_apply : forall u v r, length v = 2 -> rot2_apply checked u v = Ok r -> rot2_apply z_ops u v = Ok r.
  Proof. intros. eapply v_rel_lax; [eapply (rr_rot2_apply (@checked_rel signed w)); lax_args|eassumption]. Qed.
  Theorem C70_rot3_apply : forall u v r, length v = 3 -> rot3_apply checked u v = Ok r -> rot3_apply z_ops u v = Ok r.
  Proof. intros. eapply v_rel_lax; [eapply (rr_rot3_apply (@checked_rel signed w)); lax_args|eassumption]. Qed.
  Theorem C70_mo_apply_self : forall u v r, rect 2 2 u -> mo_apply_self checked u v = Ok r -> mo_apply_self z_ops u v = Ok r.
  Proof. intros. eapply s_rel_lax; [eapply (rr_mo_apply_self (@checked_rel signed w) (@checked_divrel signed w)); lax_args|eassumption]. Qed.
End C70.

(** When it returns at all: exactly when no intermediate result leaves the word. *)
Section C70_dot.
  Local Open Scope Z_scope.
  Context (signed : bool) (w : Z).
  Local Notation prod u v := (fun i => vget z_ops u i * vget z_ops v i).
  Lemma fold_checked : forall n f z r,
    fold_res (o_add (checked_ops signed w)) z (vk n f) = Ok r <->
    r = z + bigsum z_ring n f /\ (forall k, (1 <= k <= n)%nat -> in_word signed w (z + bigsum z_ring k f)).
  Proof.
    induction n as [|n IH]; intros f z r.
    - cbn. rewrite Z.add_0_r. split; [intros E; apply Ok_inj in E; split; [auto|lia]|intros (-> & _); reflexivity].
    - rewrite vk_S. cbn [fold_res o_add checked_ops]. unfold check.
      assert (B : forall k, z + bigsum z_ring (S k) f = (z + f 0%nat) + bigsum z_ring k (fun i => f (S i))).
      { intros k. rewrite bigsum_shift. cbn [r_add z_ring c_ring CRing_of_theory]. cbn. lia. }
      destruct (in_wordb signed w (z + f 0%nat)) eqn:E; cbn [bind].
      + apply in_wordb_spec in E. rewrite IH, B. split; intros (-> & H); split; auto; intros k Hk.
        * destruct k as [|k]; [lia|]. rewrite B. destruct k; [cbn; rewrite Z.add_0_r; auto|]. apply H. lia.
        * rewrite <- B. apply H. lia.
      + split; [discriminate|]. intros (_ & H). specialize (H 1%nat ltac:(lia)). rewrite B in H. cbn in H. rewrite Z.add_0_r in H.
        apply in_wordb_spec in H. congruence.
  Qed.
  Lemma map_checked : forall n f g l,
    v_zip_map n (o_mul (checked_ops signed w)) (vk n f) (vk n g) = Ok l <->
    l = vk n (fun i => f i * g i) /\ forall i, (i < n)%nat -> in_word signed w (f i * g i).
  Proof.
    intros n f g l. rewrite v_zip_map_res by apply vk_length. revert f g l. induction n as [|n IH]; intros f g l.
    - cbn. split; [intros E; apply Ok_inj in E; split; [auto|lia]|intros (-> & _); reflexivity].
    - rewrite !vk_S. cbn [map2_res]. change (o_mul (checked_ops signed w) (f 0%nat) (g 0%nat)) with (check signed w (f 0%nat * g 0%nat)).
      unfold check. destruct (in_wordb signed w (f 0%nat * g 0%nat)) eqn:E; cbn [bind].
      + apply in_wordb_spec in E. split.
        * intros X. destruct (map2_res (o_mul (checked_ops signed w)) (vk n (fun i => f (S i))) (vk n (fun i => g (S i)))) as [l'| | |] eqn:El;
            cbn [bind] in X; try discriminate. apply Ok_inj in X. subst l. apply IH in El as (-> & H). split; auto.
          intros [|i] Hi; auto. apply H. lia.
        * intros (-> & H). pose proof (proj2 (IH (fun i => f (S i)) (fun i => g (S i)) (vk n (fun i => f (S i) * g (S i))))) as X. rewrite X; [reflexivity|].
          split; [reflexivity|]. intros i Hi. apply H. lia.
      + split; [discriminate|]. intros (_ & H). specialize (H 0%nat ltac:(lia)). apply in_wordb_spec in H. congruence.
  Qed.
  Theorem C70_dot_exact : forall N u v r, length u = N -> length v = N ->
    v_dot (checked_ops signed w) N u v = Ok r <->
    (0 < N)%nat /\ r = bigsum z_ring N (prod u v) /\
    (forall i, (i < N)%nat -> in_word signed w (vget z_ops u i * vget z_ops v i)) /\
    (forall k, (2 <= k <= N)%nat -> in_word signed w (bigsum z_ring k (prod u v))).
  Proof.
    intros N u v r Hu Hv. asfun z_ops. unfold v_dot.
    assert (V : forall k, (k <= N)%nat -> bigsum z_ring k (fun i => vget z_ops (vk N f0) i * vget z_ops (vk N f) i) = bigsum z_ring k (fun i => f0 i * f i)).
    { intros k Hk. apply bigsum_ext. intros. rewrite !vget_vk by lia. reflexivity. }
    destruct N as [|N]. { split; [discriminate|intros (H & _); lia]. }
    assert (B : forall k, bigsum z_ring (S k) (fun i => f0 i * f i) = f0 0%nat * f 0%nat + bigsum z_ring k (fun i => f0 (S i) * f (S i))).
    { intros k. rewrite bigsum_shift. reflexivity. }
    split.
    - intros X. destruct (v_zip_map (S N) (o_mul (checked_ops signed w)) (vk (S N) f0) (vk (S N) f)) as [l| | |] eqn:El; try discriminate.
      cbn [bind] in X. apply map_checked in El as (-> & H). rewrite vk_S in X. unfold v_sum in X. rewrite v_fold_first_cons in X.
      apply fold_checked in X as (-> & K). split; [lia|]. split; [rewrite V, B by lia; reflexivity|]. split.
      + intros i Hi. rewrite !vget_vk by auto. auto.
      + intros k Hk. rewrite V by lia. destruct k as [|k]; [lia|]. rewrite B. apply K. lia.
    - intros (_ & -> & H & K).
      assert (El : v_zip_map (S N) (o_mul (checked_ops signed w)) (vk (S N) f0) (vk (S N) f) = Ok (vk (S N) (fun i => f0 i * f i))).
      { apply map_checked. split; auto. intros i Hi. specialize (H i Hi). rewrite !vget_vk in H by auto. auto. }
      rewrite El. cbn [bind]. rewrite vk_S. unfold v_sum. rewrite v_fold_first_cons. apply fold_checked. split. { rewrite V, B by lia. reflexivity. }
      intros k Hk. specialize (K (S k) ltac:(lia)). rewrite V, B in K by lia. exact K.
  Qed.
  (** In particular when the absolute values of the terms add up to a representable number. *)
  Corollary C70_dot_no_overflow : forall N u v, length u = N -> length v = N -> (0 < N)%nat -> signed = true ->
    bigsum z_ring N (fun i => Z.abs (vget z_ops u i * vget z_ops v i)) <= int_max signed w ->
    v_dot (checked_ops signed w) N u v = Ok (bigsum z_ring N (prod u v)).
  Proof.
    intros N u v Hu Hv HN Hs H. apply C70_dot_exact; auto. split; auto. split; auto.
    set (p := prod u v) in *. set (A := fun i => Z.abs (p i)).
    assert (Bd : forall k, (k <= N)%nat -> Z.abs (bigsum z_ring k p) <= bigsum z_ring k A /\ bigsum z_ring k A <= bigsum z_ring N A).
    { intros k Hk. split.
      - clear. induction k as [|k IH]; cbn [bigsum]; [cbn; lia|]. change (r_add z_ring) with Z.add. unfold A at 2. lia.
      - induction N as [|M IH] in Hk |- *; [replace k with 0%nat by lia; lia|]. destruct (Nat.eq_dec k (S M)) as [->|]; [lia|].
        specialize (IH ltac:(lia)). cbn [bigsum]. change (r_add z_ring) with Z.add. assert (0 <= A M) by (apply Z.abs_nonneg). lia. }
    assert (Ab : forall i, (i < N)%nat -> A i <= bigsum z_ring N A).
    { intros i Hi. pose proof (proj2 (Bd (S i) ltac:(lia))) as X. cbn [bigsum] in X. change (r_add z_ring) with Z.add in X.
      pose proof (proj1 (Bd i ltac:(lia))). lia. }
    assert (Rg : forall x, Z.abs x <= int_max signed w -> in_word signed w x). { intros x. rewrite Hs. unfold in_word, int_min, int_max. lia. }
    split.
    - intros i Hi. apply Rg. specialize (Ab i Hi). unfold A, p in *. lia.
    - intros k Hk. apply Rg. destruct (Bd k ltac:(lia)). unfold A, p in *. lia.
  Qed.
End C70_dot.
Example C70_dot_ex : forall r,
  v_dot (checked_ops true 8) 2 [100; 100]%Z [1; 1]%Z = Panic /\ v_dot (checked_ops true 8) 3 [100; 100; -100]%Z [1; -1; 1]%Z = Ok (-100)%Z /\
  v_dot z_ops 3 [100; 100; -100]%Z [1; -1; 1]%Z = Ok (-100)%Z /\
  m_det (checked_ops true 8) 2 [[11; 5]; [3; 10]]%Z = Ok 95%Z /\ m_det (checked_ops true 8) 2 [[11; 5]; [3; 12]]%Z = Panic /\
  (m_det (checked_ops true 8) 2 [[11; 5]; [3; 10]]%Z = Ok r -> m_det z_ops 2 [[11; 5]; [3; 10]]%Z = Ok r).
Proof. intros r. repeat (split; [vm_compute; reflexivity|]). apply C70_m_det. repeat constructor. Qed.

(* ------------------------------------------------------------------------- *)
(** * C71                                                                      *)
Section C71.
  Context (signed : bool) (w : Z) (Hw : width signed w).
  Local Notation wrapping := (wrapping_ops signed w).
  Local Notation wr := (wrap signed w).
  Local Notation fits := (in_word signed w).

  Theorem C71_v_zero : forall N, v_zero wrapping N = rmap (map wr) (v_zero z_ops N).
  Proof. intros.  pose proof (@C72_v_zero _ _ wr z_ops wrapping (@wrap_hom signed w Hw)) as X. specialize (X N). exact X. Qed.
  Theorem C71_v_add : forall N u v, length u = N -> length v = N -> Forall fits u -> Forall fits v -> v_add wrapping N u v = rmap (map wr) (v_add z_ops N u v).
  Proof. intros. pose proof (@wr_v signed w Hw u ltac:(assumption)) as E0. pose proof (@wr_v signed w Hw v ltac:(assumption)) as E1. pose proof (@C72_v_add _ _ wr z_ops wrapping (@wrap_hom signed w Hw)) as X. specialize (X N u v ltac:(assumption) ltac:(assumption)). rewrite E0 in X. rewrite E1 in X. exact X. Qed.
  Theorem C71_v_sub : forall N u v, length u = N -> length v = N -> Forall fits u -> Forall fits v -> v_sub wrapping N u v = rmap (map wr) (v_sub z_ops N u v).
  Proof. intros. pose proof (@wr_v signed w Hw u ltac:(assumption)) as E0. pose proof (@wr_v signed w Hw v ltac:(assumption)) as E1. pose proof (@C72_v_sub _ _ wr z_ops wrapping (@wrap_hom signed w Hw)) as X. specialize (X N u v ltac:(assumption) ltac:(assumption)). rewrite E0 in X. rewrite E1 in X. exact X. Qed.
  Theorem C71_v_mul : forall N u v, length u = N -> length v = N -> Forall fits u -> Forall fits v -> v_mul wrapping N u v = rmap (map wr) (v_mul z_ops N u v).
  Proof. intros. pose proof (@wr_v signed w Hw u ltac:(assumption)) as E0. pose proof (@wr_v signed w Hw v ltac:(assumption)) as E1. pose proof (@C72_v_mul _ _ wr z_ops wrapping (@wrap_hom signed w Hw)) as X. specialize (X N u v ltac:(assumption) ltac:(assumption)). rewrite E0 in X. rewrite E1 in X. exact X. Qed.
  Theorem C71_v_neg : forall N u, length u = N -> Forall fits u -> v_neg wrapping u = rmap (map wr) (v_neg z_ops u).
  Proof. intros. pose proof (@wr_v signed w Hw u ltac:(assumption)) as E0. pose proof (@C72_v_neg _ _ wr z_ops wrapping (@wrap_hom signed w Hw)) as X. specialize (X N u ltac:(assumption)). rewrite E0 in X. exact X. Qed.
  Theorem C71_v_smul : forall N u v, length u = N -> Forall fits u -> fits v -> v_smul wrapping u v = rmap (map wr) (v_smul z_ops u v).
  Proof. intros. pose proof (@wr_v signed w Hw u ltac:(assumption)) as E0. pose proof (@wr_s signed w Hw v ltac:(assumption)) as E1. pose proof (@C72_v_smul _ _ wr z_ops wrapping (@wrap_hom signed w Hw)) as X. specialize (X N u v ltac:(assumption)). rewrite E0 in X. rewrite E1 in X. exact X. Qed.
  Theorem C71_v_sum : forall N u, length u = N -> Forall fits u -> v_sum wrapping u = rmap wr (v_sum z_ops u).
  Proof. intros. pose proof (@wr_v signed w Hw u ltac:(assumption)) as E0. pose proof (@C72_v_sum _ _ wr z_ops wrapping (@wrap_hom signed w Hw)) as X. specialize (X N u ltac:(assumption)). rewrite E0 in X. exact X. Qed.
  Theorem C71_v_dot : forall N u v, length u = N -> length v = N -> Forall fits u -> Forall fits v -> v_dot wrapping N u v = rmap wr (v_dot z_ops N u v).
  Proof. intros. pose proof (@wr_v signed w Hw u ltac:(assumption)) as E0. pose proof (@wr_v signed w Hw v ltac:(assumption)) as E1. pose proof (@C72_v_dot _ _ wr z_ops wrapping (@wrap_hom signed w Hw)) as X. specialize (X N u v ltac:(assumption) ltac:(assumption)). rewrite E0 in X. rewrite E1 in X. exact X. Qed.
  Theorem C71_v_square_length : forall N u, length u = N -> Forall fits u -> v_square_length wrapping u = rmap wr (v_square_length z_ops u).
  Proof. intros. pose proof (@wr_v signed w Hw u ltac:(assumption)) as E0. pose proof (@C72_v_square_length _ _ wr z_ops wrapping (@wrap_hom signed w Hw)) as X. specialize (X N u ltac:(assumption)). rewrite E0 in X. exact X. Qed.
  Theorem C71_v_cross2 : forall u v, length u = 2 -> length v = 2 -> Forall fits u -> Forall fits v -> v_cross2 wrapping u v = rmap wr (v_cross2 z_ops u v).
  Proof. intros. pose proof (@wr_v signed w Hw u ltac:(assumption)) as E0. pose proof (@wr_v signed w Hw v ltac:(assumption)) as E1. pose proof (@C72_v_cross2 _ _ wr z_ops wrapping (@wrap_hom signed w Hw)) as X. specialize (X u v ltac:(assumption) ltac:(assumption)). rewrite E0 in X. rewrite E1 in X. exact X. Qed.
  Theorem C71_v_cross3 : forall u v, length u = 3 -> length v = 3 -> Forall fits u -> Forall fits v -> v_cross3 wrapping u v = rmap (map wr) (v_cross3 z_ops u v).
  Proof. intros. pose proof (@wr_v signed w Hw u ltac:(assumption)) as E0. pose proof (@wr_v signed w Hw v ltac:(assumption)) as E1. pose proof (@C72_v_cross3 _ _ wr z_ops wrapping (@wrap_hom signed w Hw)) as X. specialize (X u v ltac:(assumption) ltac:(assumption)). rewrite E0 in X. rewrite E1 in X. exact X. Qed.
  Theorem C71_v_cross4 : forall u v, length u = 4 -> length v = 4 -> Forall fits u -> Forall fits v -> v_cross4 wrapping u v = rmap (map wr) (v_cross4 z_ops u v).
  Proof. intros. pose proof (@wr_v signed w Hw u ltac:(assumption)) as E0. pose proof (@wr_v signed w Hw v ltac:(assumption)) as E1. pose proof (@C72_v_cross4 _ _ wr z_ops wrapping (@wrap_hom signed w Hw)) as X. specialize (X u v ltac:(assumption) ltac:(assumption)). rewrite E0 in X. rewrite E1 in X. exact X. Qed.
  Theorem C71_m_zero : forall M N, m_zero wrapping M N = rmap (map (map wr)) (m_zero z_ops M N).
  Proof. intros.  pose proof (@C72_m_zero _ _ wr z_ops wrapping (@wrap_hom signed w Hw)) as X. specialize (X M N). exact X. Qed.
  Theorem C71_m_one : forall N, m_one wrapping N = rmap (map (map wr)) (m_one z_ops N).
  Proof. intros.  pose proof (@C72_m_one _ _ wr z_ops wrapping (@wrap_hom signed w Hw)) as X. specialize (X N). exact X. Qed.
  Theorem C71_m_add : forall M N u v, rect M N u -> rect M N v -> Forall (Forall fits) u -> Forall (Forall fits) v -> m_add wrapping M N u v = rmap (map (map wr)) (m_add z_ops M N u v).
  Proof. intros. pose proof (@wr_m signed w Hw u ltac:(assumption)) as E0. pose proof (@wr_m signed w Hw v ltac:(assumption)) as E1. pose proof (@C72_m_add _ _ wr z_ops wrapping (@wrap_hom signed w Hw)) as X. specialize (X M N u v ltac:(assumption) ltac:(assumption)). rewrite E0 in X. rewrite E1 in X. exact X. Qed.
  Theorem C71_m_sub : forall M N u v, rect M N u -> rect M N v -> Forall (Forall fits) u -> Forall (Forall fits) v -> m_sub wrapping M N u v = rmap (map (map wr)) (m_sub z_ops M N u v).
  Proof. intros. pose proof (@wr_m signed w Hw u ltac:(assumption)) as E0. pose proof (@wr_m signed w Hw v ltac:(assumption)) as E1. pose proof (@C72_m_sub _ _ wr z_ops wrapping (@wrap_hom signed w Hw)) as X. specialize (X M N u v ltac:(assumption) ltac:(assumption)). rewrite E0 in X. rewrite E1 in X. exact X. Qed.
  Theorem C71_m_mul : forall M N u v, rect M N u -> rect M N v -> Forall (Forall fits) u -> Forall (Forall fits) v -> m_mul wrapping M N u v = rmap (map (map wr)) (m_mul z_ops M N u v).
  Proof. intros. pose proof (@wr_m signed w Hw u ltac:(assumption)) as E0. pose proof (@wr_m signed w Hw v ltac:(assumption)) as E1. pose proof (@C72_m_mul _ _ wr z_ops wrapping (@wrap_hom signed w Hw)) as X. specialize (X M N u v ltac:(assumption) ltac:(assumption)). rewrite E0 in X. rewrite E1 in X. exact X. Qed.
  Theorem C71_m_neg : forall M N u, rect M N u -> Forall (Forall fits) u -> m_neg wrapping u = rmap (map (map wr)) (m_neg z_ops u).
  Proof. intros. pose proof (@wr_m signed w Hw u ltac:(assumption)) as E0. pose proof (@C72_m_neg _ _ wr z_ops wrapping (@wrap_hom signed w Hw)) as X. specialize (X M N u ltac:(assumption)). rewrite E0 in X. exact X. Qed.
  Theorem C71_m_smul : forall M N u v, rect M N u -> Forall (Forall fits) u -> fits v -> m_smul wrapping u v = rmap (map (map wr)) (m_smul z_ops u v).
  Proof. intros. pose proof (@wr_m signed w Hw u ltac:(assumption)) as E0. pose proof (@wr_s signed w Hw v ltac:(assumption)) as E1. pose proof (@C72_m_smul _ _ wr z_ops wrapping (@wrap_hom signed w Hw)) as X. specialize (X M N u v ltac:(assumption)). rewrite E0 in X. rewrite E1 in X. exact X. Qed.
  Theorem C71_m_sum : forall M N u, rect M N u -> Forall (Forall fits) u -> m_sum wrapping u = rmap wr (m_sum z_ops u).
  Proof. intros. pose proof (@wr_m signed w Hw u ltac:(assumption)) as E0. pose proof (@C72_m_sum _ _ wr z_ops wrapping (@wrap_hom signed w Hw)) as X. specialize (X M N u ltac:(assumption)). rewrite E0 in X. exact X. Qed.
  Theorem C71_m_dot : forall L M N u v, rect L M u -> rect M N v -> Forall (Forall fits) u -> Forall (Forall fits) v -> m_dot wrapping L M N u v = rmap (map (map wr)) (m_dot z_ops L M N u v).
  Proof. intros. pose proof (@wr_m signed w Hw u ltac:(assumption)) as E0. pose proof (@wr_m signed w Hw v ltac:(assumption)) as E1. pose proof (@C72_m_dot _ _ wr z_ops wrapping (@wrap_hom signed w Hw)) as X. specialize (X L M N u v ltac:(assumption) ltac:(assumption)). rewrite E0 in X. rewrite E1 in X. exact X. Qed.
  Theorem C71_m_dot_v : forall M N u v, rect M N u -> length v = N -> Forall (Forall fits) u -> Forall fits v -> m_dot_v wrapping M N u v = rmap (map wr) (m_dot_v z_ops M N u v).
  Proof. intros. pose proof (@wr_m signed w Hw u ltac:(assumption)) as E0. pose proof (@wr_v signed w Hw v ltac:(assumption)) as E1. pose proof (@C72_m_dot_v _ _ wr z_ops wrapping (@wrap_hom signed w Hw)) as X. specialize (X M N u v ltac:(assumption) ltac:(assumption)). rewrite E0 in X. rewrite E1 in X. exact X. Qed.
  Theorem C71_v_dot_m : forall M N u v, length u = M -> rect M N v -> Forall fits u -> Forall (Forall fits) v -> v_dot_m wrapping M N u v = rmap (map wr) (v_dot_m z_ops M N u v).
  Proof. intros. pose proof (@wr_v signed w Hw u ltac:(assumption)) as E0. pose proof (@wr_m signed w Hw v ltac:(assumption)) as E1. pose proof (@C72_v_dot_m _ _ wr z_ops wrapping (@wrap_hom signed w Hw)) as X. specialize (X M N u v ltac:(assumption) ltac:(assumption)). rewrite E0 in X. rewrite E1 in X. exact X. Qed.
  Theorem C71_m_outer : forall M N u v, length u = M -> length v = N -> Forall fits u -> Forall fits v -> m_outer wrapping M N u v = rmap (map (map wr)) (m_outer z_ops M N u v).
  Proof. intros. pose proof (@wr_v signed w Hw u ltac:(assumption)) as E0. pose proof (@wr_v signed w Hw v ltac:(assumption)) as E1. pose proof (@C72_m_outer _ _ wr z_ops wrapping (@wrap_hom signed w Hw)) as X. specialize (X M N u v ltac:(assumption) ltac:(assumption)). rewrite E0 in X. rewrite E1 in X. exact X. Qed.
  Theorem C71_m_det : forall N u, rect N N u -> Forall (Forall fits) u -> m_det wrapping N u = rmap wr (m_det z_ops N u).
  Proof. intros. pose proof (@wr_m signed w Hw u ltac:(assumption)) as E0. pose proof (@C72_m_det _ _ wr z_ops wrapping (@wrap_hom signed w Hw)) as X. specialize (X N u ltac:(assumption)). rewrite E0 in X. exact X. Qed.
  Theorem C71_m_cofactor : forall N i j u, rect N N u -> Forall (Forall fits) u -> m_cofactor wrapping N u i j = rmap wr (m_cofactor z_ops N u i j).
  Proof. intros. pose proof (@wr_m signed w Hw u ltac:(assumption)) as E0. pose proof (@C72_m_cofactor _ _ wr z_ops wrapping (@wrap_hom signed w Hw)) as X. specialize (X N i j u ltac:(assumption)). rewrite E0 in X. exact X. Qed.
  Theorem C71_m_adj : forall N u, rect N N u -> Forall (Forall fits) u -> m_adj wrapping N u = rmap (map (map wr)) (m_adj z_ops N u).
  Proof. intros. pose proof (@wr_m signed w Hw u ltac:(assumption)) as E0. pose proof (@C72_m_adj _ _ wr z_ops wrapping (@wrap_hom signed w Hw)) as X. specialize (X N u ltac:(assumption)). rewrite E0 in X. exact X. Qed.
  Theorem C71_c_add : forall u v, c_all fits u -> c_all fits v -> c_add wrapping u v = rmap (c_map wr) (c_add z_ops u v).
  Proof. intros. pose proof (@wr_c signed w Hw u ltac:(assumption)) as E0. pose proof (@wr_c signed w Hw v ltac:(assumption)) as E1. pose proof (@C72_c_add _ _ wr z_ops wrapping (@wrap_hom signed w Hw)) as X. specialize (X u v). rewrite E0 in X. rewrite E1 in X. exact X. Qed.
  Theorem C71_c_sub : forall u v, c_all fits u -> c_all fits v -> c_sub wrapping u v = rmap (c_map wr) (c_sub z_ops u v).
  Proof. intros. pose proof (@wr_c signed w Hw u ltac:(assumption)) as E0. pose proof (@wr_c signed w Hw v ltac:(assumption)) as E1. pose proof (@C72_c_sub _ _ wr z_ops wrapping (@wrap_hom signed w Hw)) as X. specialize (X u v). rewrite E0 in X. rewrite E1 in X. exact X. Qed.
  Theorem C71_c_mul : forall u v, c_all fits u -> c_all fits v -> c_mul wrapping u v = rmap (c_map wr) (c_mul z_ops u v).
  Proof. intros. pose proof (@wr_c signed w Hw u ltac:(assumption)) as E0. pose proof (@wr_c signed w Hw v ltac:(assumption)) as E1. pose proof (@C72_c_mul _ _ wr z_ops wrapping (@wrap_hom signed w Hw)) as X. specialize (X u v). rewrite E0 in X. rewrite E1 in X. exact X. Qed.
  Theorem C71_c_neg : forall u, c_all fits u -> c_neg wrapping u = rmap (c_map wr) (c_neg z_ops u).
  Proof. intros. pose proof (@wr_c signed w Hw u ltac:(assumption)) as E0. pose proof (@C72_c_neg _ _ wr z_ops wrapping (@wrap_hom signed w Hw)) as X. specialize (X u). rewrite E0 in X. exact X. Qed.
  Theorem C71_c_conj : forall u, c_all fits u -> c_conj wrapping u = rmap (c_map wr) (c_conj z_ops u).
  Proof. intros. pose proof (@wr_c signed w Hw u ltac:(assumption)) as E0. pose proof (@C72_c_conj _ _ wr z_ops wrapping (@wrap_hom signed w Hw)) as X. specialize (X u). rewrite E0 in X. exact X. Qed.
  Theorem C71_c_mul_s : forall u v, c_all fits u -> fits v -> c_mul_s wrapping u v = rmap (c_map wr) (c_mul_s z_ops u v).
  Proof. intros. pose proof (@wr_c signed w Hw u ltac:(assumption)) as E0. pose proof (@wr_s signed w Hw v ltac:(assumption)) as E1. pose proof (@C72_c_mul_s _ _ wr z_ops wrapping (@wrap_hom signed w Hw)) as X. specialize (X u v). rewrite E0 in X. rewrite E1 in X. exact X. Qed.
  Theorem C71_c_norm_sqr : forall u, c_all fits u -> c_norm_sqr wrapping u = rmap wr (c_norm_sqr z_ops u).
  Proof. intros. pose proof (@wr_c signed w Hw u ltac:(assumption)) as E0. pose proof (@C72_c_norm_sqr _ _ wr z_ops wrapping (@wrap_hom signed w Hw)) as X. specialize (X u). rewrite E0 in X. exact X. Qed.
  Theorem C71_c_dot : forall u v, c_all fits u -> c_all fits v -> c_dot wrapping u v = rmap wr (c_dot z_ops u v).
  Proof. intros. pose proof (@wr_c signed w Hw u ltac:(assumption)) as E0. pose proof (@wr_c signed w Hw v ltac:(assumption)) as E1. pose proof (@C72_c_dot _ _ wr z_ops wrapping (@wrap_hom signed w Hw)) as X. specialize (X u v). rewrite E0 in X. rewrite E1 in X. exact X. Qed.
  Theorem C71_q_add : forall u v, q_all fits u -> q_all fits v -> q_add wrapping u v = rmap (q_map wr) (q_add z_ops u v).
  Proof. intros. pose proof (@wr_q signed w Hw u ltac:(assumption)) as E0. pose proof (@wr_q signed w Hw v ltac:(assumption)) as E1. pose proof (@C72_q_add _ _ wr z_ops wrapping (@wrap_hom signed w Hw)) as X. specialize (X u v). rewrite E0 in X. rewrite E1 in X. exact X. Qed.
  Theorem C71_q_sub : forall u v, q_all fits u -> q_all fits v -> q_sub wrapping u v = rmap (q_map wr) (q_sub z_ops u v).
  Proof. intros. pose proof (@wr_q signed w Hw u ltac:(assumption)) as E0. pose proof (@wr_q signed w Hw v ltac:(assumption)) as E1. pose proof (@C72_q_sub _ _ wr z_ops wrapping (@wrap_hom signed w Hw)) as X. specialize (X u v). rewrite E0 in X. rewrite E1 in X. exact X. Qed.
  Theorem C71_q_mul : forall u v, q_all fits u -> q_all fits v -> q_mul wrapping u v = rmap (q_map wr) (q_mul z_ops u v).
  Proof. intros. pose proof (@wr_q signed w Hw u ltac:(assumption)) as E0. pose proof (@wr_q signed w Hw v ltac:(assumption)) as E1. pose proof (@C72_q_mul _ _ wr z_ops wrapping (@wrap_hom signed w Hw)) as X. specialize (X u v). rewrite E0 in X. rewrite E1 in X. exact X. Qed.
  Theorem C71_q_neg : forall u, q_all fits u -> q_neg wrapping u = rmap (q_map wr) (q_neg z_ops u).
  Proof. intros. pose proof (@wr_q signed w Hw u ltac:(assumption)) as E0. pose proof (@C72_q_neg _ _ wr z_ops wrapping (@wrap_hom signed w Hw)) as X. specialize (X u). rewrite E0 in X. exact X. Qed.
  Theorem C71_q_conj : forall u, q_all fits u -> q_conj wrapping u = rmap (q_map wr) (q_conj z_ops u).
  Proof. intros. pose proof (@wr_q signed w Hw u ltac:(assumption)) as E0. pose proof (@C72_q_conj _ _ wr z_ops wrapping (@wrap_hom signed w Hw)) as X. specialize (X u). rewrite E0 in X. exact X. Qed.
  Theorem C71_q_mul_s : forall u v, q_all fits u -> fits v -> q_mul_s wrapping u v = rmap (q_map wr) (q_mul_s z_ops u v).
  Proof. intros. pose proof (@wr_q signed w Hw u ltac:(assumption)) as E0. pose proof (@wr_s signed w Hw v ltac:(assumption)) as E1. pose proof (@C72_q_mul_s _ _ wr z_ops wrapping (@wrap_hom signed w Hw)) as X. specialize (X u v). rewrite E0 in X. rewrite E1 in X. exact X. Qed.
  Theorem C71_q_mul_c : forall u v, q_all fits u -> c_all fits v -> q_mul_c wrapping u v = rmap (q_map wr) (q_mul_c z_ops u v).
  Proof. intros. pose proof (@wr_q signed w Hw u ltac:(assumption)) as E0. pose proof (@wr_c signed w Hw v ltac:(assumption)) as E1. pose proof (@C72_q_mul_c _ _ wr z_ops wrapping (@wrap_hom signed w Hw)) as X. specialize (X u v). rewrite E0 in X. rewrite E1 in X. exact X. Qed.
  Theorem C71_c_mul_q : forall u v, c_all fits u -> q_all fits v -> c_mul_q wrapping u v = rmap (q_map wr) (c_mul_q z_ops u v).
  Proof. intros. pose proof (@wr_c signed w Hw u ltac:(assumption)) as E0. pose proof (@wr_q signed w Hw v ltac:(assumption)) as E1. pose proof (@C72_c_mul_q _ _ wr z_ops wrapping (@wrap_hom signed w Hw)) as X. specialize (X u v). rewrite E0 in X. rewrite E1 in X. exact X. Qed.
  Theorem C71_q_norm_sqr : forall u, q_all fits u -> q_norm_sqr wrapping u = rmap wr (q_norm_sqr z_ops u).
  Proof. intros. pose proof (@wr_q signed w Hw u ltac:(assumption)) as E0. pose proof (@C72_q_norm_sqr _ _ wr z_ops wrapping (@wrap_hom signed w Hw)) as X. specialize (X u). rewrite E0 in X. exact X. Qed.
  Theorem C71_q_dot : forall u v, q_all fits u -> q_all fits v -> q_dot wrapping u v = rmap wr (q_dot z_ops u v).
  Proof. intros. pose proof (@wr_q signed w Hw u ltac:(assumption)) as E0. pose proof (@wr_q signed w Hw v ltac:(assumption)) as E1. pose proof (@C72_q_dot _ _ wr z_ops wrapping (@wrap_hom signed w Hw)) as X. specialize (X u v). rewrite E0 in X. rewrite E1 in X. exact X. Qed.
  Theorem C71_rot2_apply : forall u v, length v = 2 -> c_all fits u -> Forall fits v -> rot2_apply wrapping u v = rmap (map wr) (rot2_apply z_ops u v).
  Proof. intros. pose proof (@wr_c signed w Hw u ltac:(assumption)) as E0. pose proof (@wr_v signed w Hw v ltac:(assumption)) as E1. pose proof (@C72_rot2_apply _ _ wr z_ops wrapping (@wrap_hom signed w Hw)) as X. specialize (X u v ltac:(assumption)). rewrite E0 in X. rewrite E1 in X. exact X. Qed.
  Theorem C71_rot3_apply : forall u v, length v = 3 -> q_all fits u -> Forall fits v -> rot3_apply wrapping u v = rmap (map wr) (rot3_apply z_ops u v).
  Proof. intros. pose proof (@wr_q signed w Hw u ltac:(assumption)) as E0. pose proof (@wr_v signed w Hw v ltac:(assumption)) as E1. pose proof (@C72_rot3_apply _ _ wr z_ops wrapping (@wrap_hom signed w Hw)) as X. specialize (X u v ltac:(assumption)). rewrite E0 in X. rewrite E1 in X. exact X. Qed.

  (** Debug and release builds agree unless the debug build panics. *)
  Theorem C71_release_v_zero : forall N r, v_zero (checked_ops signed w) N = Ok r -> v_zero wrapping N = Ok r.
  Proof. intros. eapply v_rel_lax; [eapply (rr_v_zero (@checked_wrap_rel signed w Hw)); lax_args|eassumption]. Qed.
  Theorem C71_release_v_add : forall N u v r, length u = N -> length v = N -> v_add (checked_ops signed w) N u v = Ok r -> v_add wrapping N u v = Ok r.
  Proof. intros. eapply v_rel_lax; [eapply (rr_v_add (@checked_wrap_rel signed w Hw)); lax_args|eassumption]. Qed.
  Theorem C71_release_v_sub : forall N u v r, length u = N -> length v = N -> v_sub (checked_ops signed w) N u v = Ok r -> v_sub wrapping N u v = Ok r.
  Proof. intros. eapply v_rel_lax; [eapply (rr_v_sub (@checked_wrap_rel signed w Hw)); lax_args|eassumption]. Qed.
  Theorem C71_release_v_mul : forall N u v r, length u = N -> length v = N -> v_mul (checked_ops signed w) N u v = Ok r -> v_mul wrapping N u v = Ok r.
  Proof. intros. eapply v_rel_lax; [eapply (rr_v_mul (@checked_wrap_rel signed w Hw)); lax_args|eassumption]. Qed.
  Theorem C71_release_v_neg : forall N u r, length u = N -> v_neg (checked_ops signed w) u = Ok r -> v_neg wrapping u = Ok r.
  Proof. intros. eapply v_rel_lax; [eapply (rr_v_neg (@checked_wrap_rel signed w Hw)); lax_args|eassumption]. Qed.
  Theorem C71_release_v_smul : forall N u v r, length u = N -> v_smul (checked_ops signed w) u v = Ok r -> v_smul wrapping u v = Ok r.
  Proof. intros. eapply v_rel_lax; [eapply (rr_v_smul (@checked_wrap_rel signed w Hw)); lax_args|eassumption]. Qed.
  Theorem C71_release_v_sum : forall N u r, length u = N -> v_sum (checked_ops signed w) u = Ok r -> v_sum wrapping u = Ok r.
  Proof. intros. eapply s_rel_lax; [eapply (rr_v_sum (@checked_wrap_rel signed w Hw)); lax_args|eassumption]. Qed.
  Theorem C71_release_v_dot : forall N u v r, length u = N -> length v = N -> v_dot (checked_ops signed w) N u v = Ok r -> v_dot wrapping N u v = Ok r.
  Proof. intros. eapply s_rel_lax; [eapply (rr_v_dot (@checked_wrap_rel signed w Hw)); lax_args|eassumption]. Qed.
  Theorem C71_release_v_square_length : forall N u r, length u = N -> v_square_length (checked_ops signed w) u = Ok r -> v_square_length wrapping u = Ok r.
  Proof. intros. eapply s_rel_lax; [eapply (rr_v_square_length (@checked_wrap_rel signed w Hw)); lax_args|eassumption]. Qed.
  Theorem C71_release_v_cross2 : forall u v r, length u = 2 -> length v = 2 -> v_cross2 (checked_ops signed w) u v = Ok r -> v_cross2 wrapping u v = Ok r.
  Proof. intros. eapply s_rel_lax; [eapply (rr_v_cross2 (@checked_wrap_rel signed w Hw)); lax_args|eassumption]. Qed.
  Theorem C71_release_v_cross3 : forall u v r, length u = 3 -> length v = 3 -> v_cross3 (checked_ops signed w) u v = Ok r -> v_cross3 wrapping u v = Ok r.
  Proof. intros. eapply v_rel_lax; [eapply (rr_v_cross3 (@checked_wrap_rel signed w Hw)); lax_args|eassumption]. Qed.
  Theorem C71_release_v_cross4 : forall u v r, length u = 4 -> length v = 4 -> v_cross4 (checked_ops signed w) u v = Ok r -> v_cross4 wrapping u v = Ok r.
  Proof. intros. eapply v_rel_lax; [eapply (rr_v_cross4 (@checked_wrap_rel signed w Hw)); lax_args|eassumption]. Qed.
  Theorem C71_release_v_div : forall N u v r, length u = N -> length v = N -> v_div (checked_ops signed w) N u v = Ok r -> v_div wrapping N u v = Ok r.
  Proof. intros. eapply v_rel_lax; [eapply (rr_v_div (checked_wrap_divrel signed w)); lax_args|eassumption]. Qed.
  Theorem C71_release_v_sdiv : forall N u v r, length u = N -> v_sdiv (checked_ops signed w) u v = Ok r -> v_sdiv wrapping u v = Ok r.
  Proof. intros. eapply v_rel_lax; [eapply (rr_v_sdiv (checked_wrap_divrel signed w)); lax_args|eassumption]. Qed.
  Theorem C71_release_v_rem : forall N u v r, length u = N -> length v = N -> v_rem (checked_ops signed w) N u v = Ok r -> v_rem wrapping N u v = Ok r.
  Proof. intros. eapply v_rel_lax; [eapply (rr_v_rem (checked_wrap_remrel signed w)); lax_args|eassumption]. Qed.
  Theorem C71_release_m_zero : forall M N r, m_zero (checked_ops signed w) M N = Ok r -> m_zero wrapping M N = Ok r.
  Proof. intros. eapply m_rel_lax; [eapply (rr_m_zero (@checked_wrap_rel signed w Hw)); lax_args|eassumption]. Qed.
  Theorem C71_release_m_one : forall N r, m_one (checked_ops signed w) N = Ok r -> m_one wrapping N = Ok r.
  Proof. intros. eapply m_rel_lax; [eapply (rr_m_one (@checked_wrap_rel signed w Hw)); lax_args|eassumption]. Qed.
  Theorem C71_release_m_add : forall M N u v r, rect M N u -> rect M N v -> m_add (checked_ops signed w) M N u v = Ok r -> m_add wrapping M N u v = Ok r.
  Proof. intros. eapply m_rel_lax; [eapply (rr_m_add (@checked_wrap_rel signed w Hw)); lax_args|eassumption]. Qed.
  Theorem C71_release_m_sub : forall M N u v r, rect M N u -> rect M N v -> m_sub (checked_ops signed w) M N u v = Ok r -> m_sub wrapping M N u v = Ok r.
  Proof. intros. eapply m_rel_lax; [eapply (rr_m_sub (@checked_wrap_rel signed w Hw)); lax_args|eassumption]. Qed.
  Theorem C71_release_m_mul : forall M N u v r, rect M N u -> rect M N v -> m_mul (checked_ops signed w) M N u v = Ok r -> m_mul wrapping M N u v = Ok r.
  Proof. intros. eapply m_rel_lax; [eapply (rr_m_mul (@checked_wrap_rel signed w Hw)); lax_args|eassumption]. Qed.
  Theorem C71_release_m_neg : forall M N u r, rect M N u -> m_neg (checked_ops signed w) u = Ok r -> m_neg wrapping u = Ok r.
  Proof. intros. eapply m_rel_lax; [eapply (rr_m_neg (@checked_wrap_rel signed w Hw)); lax_args|eassumption]. Qed.
  Theorem C71_release_m_smul : forall M N u v r, rect M N u -> m_smul (checked_ops signed w) u v = Ok r -> m_smul wrapping u v = Ok r.
  Proof. intros. eapply m_rel_lax; [eapply (rr_m_smul (@checked_wrap_rel signed w Hw)); lax_args|eassumption]. Qed.
  Theorem C71_release_m_sum : forall M N u r, rect M N u -> m_sum (checked_ops signed w) u = Ok r -> m_sum wrapping u = Ok r.
  Proof. intros. eapply s_rel_lax; [eapply (rr_m_sum (@checked_wrap_rel signed w Hw)); lax_args|eassumption]. Qed.
  Theorem C71_release_m_div : forall M N u v r, rect M N u -> rect M N v -> m_div (checked_ops signed w) M N u v = Ok r -> m_div wrapping M N u v = Ok r.
  Proof. intros. eapply m_rel_lax; [eapply (rr_m_div (checked_wrap_divrel signed w)); lax_args|eassumption]. Qed.
  Theorem C71_release_m_sdiv : forall M N u v r, rect M N u -> m_sdiv (checked_ops signed w) u v = Ok r -> m_sdiv wrapping u v = Ok r.
  Proof. intros. eapply m_rel_lax; [eapply (rr_m_sdiv (checked_wrap_divrel signed w)); lax_args|eassumption]. Qed.
  Theorem C71_release_m_rem : forall M N u v r, rect M N u -> rect M N v -> m_rem (checked_ops signed w) M N u v = Ok r -> m_rem wrapping M N u v = Ok r.
  Proof. intros. eapply m_rel_lax; [eapply (rr_m_rem (checked_wrap_remrel signed w)); lax_args|eassumption]. Qed.
  Theorem C71_release_m_dot : forall L M N u v r, rect L M u -> rect M N v -> m_dot (checked_ops signed w) L M N u v = Ok r -> m_dot wrapping L M N u v = Ok r.
  Proof. intros. eapply m_rel_lax; [eapply (rr_m_dot (@checked_wrap_rel signed w Hw)); lax_args|eassumption]. Qed.
  Theorem C71_release_m_dot_v : forall M N u v r, rect M N u -> length v = N -> m_dot_v (checked_ops signed w) M N u v = Ok r -> m_dot_v wrapping M N u v = Ok r.
  Proof. intros. eapply v_rel_lax; [eapply (rr_m_dot_v (@checked_wrap_rel signed w Hw)); lax_args|eassumption]. Qed.
  Theorem C71_release_v_dot_m : forall M N u v r, length u = M -> rect M N v -> v_dot_m (checked_ops signed w) M N u v = Ok r -> v_dot_m wrapping M N u v = Ok r.
  Proof. intros. eapply v_rel_lax; [eapply (rr_v_dot_m (@checked_wrap_rel signed w Hw)); lax_args|eassumption]. Qed.
  Theorem C71_release_m_outer : forall M N u v r, length u = M -> length v = N -> m_outer (checked_ops signed w) M N u v = Ok r -> m_outer wrapping M N u v = Ok r.
  Proof. intros. eapply m_rel_lax; [eapply (rr_m_outer (@checked_wrap_rel signed w Hw)); lax_args|eassumption]. Qed.
  Theorem C71_release_m_det : forall N u r, rect N N u -> m_det (checked_ops signed w) N u = Ok r -> m_det wrapping N u = Ok r.
  Proof. intros. eapply s_rel_lax; [eapply (rr_m_det (@checked_wrap_rel signed w Hw)); lax_args|eassumption]. Qed.
  Theorem C71_release_m_cofactor : forall N i j u r, rect N N u -> m_cofactor (checked_ops signed w) N u i j = Ok r -> m_cofactor wrapping N u i j = Ok r.
  Proof. intros. eapply s_rel_lax; [eapply (rr_m_cofactor (@checked_wrap_rel signed w Hw)); lax_args|eassumption]. Qed.
  Theorem C71_release_m_adj : forall N u r, rect N N u -> m_adj (checked_ops signed w) N u = Ok r -> m_adj wrapping N u = Ok r.
  Proof. intros. eapply m_rel_lax; [eapply (rr_m_adj (@checked_wrap_rel signed w Hw)); lax_args|eassumption]. Qed.
  Theorem C71_release_m_inv : forall N u r, rect N N u -> m_inv (checked_ops signed w) N u = Ok r -> m_inv wrapping N u = Ok r.
  Proof. intros. eapply m_rel_lax; [eapply (rr_m_inv (@checked_wrap_rel signed w Hw) (checked_wrap_divrel signed w)); lax_args|eassumption]. Qed.
  Theorem C71_release_c_add : forall u v r, c_add (checked_ops signed w) u v = Ok r -> c_add wrapping u v = Ok r.
  Proof. intros. eapply c_rel_lax; [eapply (rr_c_add (@checked_wrap_rel signed w Hw)); lax_args|eassumption]. Qed.
  Theorem C71_release_c_sub : forall u v r, c_sub (checked_ops signed w) u v = Ok r -> c_sub wrapping u v = Ok r.
  Proof. intros. eapply c_rel_lax; [eapply (rr_c_sub (@checked_wrap_rel signed w Hw)); lax_args|eassumption]. Qed.
  Theorem C71_release_c_mul : forall u v r, c_mul (checked_ops signed w) u v = Ok r -> c_mul wrapping u v = Ok r.
  Proof. intros. eapply c_rel_lax; [eapply (rr_c_mul (@checked_wrap_rel signed w Hw)); lax_args|eassumption]. Qed.
  Theorem C71_release_c_neg : forall u r, c_neg (checked_ops signed w) u = Ok r -> c_neg wrapping u = Ok r.
  Proof. intros. eapply c_rel_lax; [eapply (rr_c_neg (@checked_wrap_rel signed w Hw)); lax_args|eassumption]. Qed.
  Theorem C71_release_c_conj : forall u r, c_conj (checked_ops signed w) u = Ok r -> c_conj wrapping u = Ok r.
  Proof. intros. eapply c_rel_lax; [eapply (rr_c_conj (@checked_wrap_rel signed w Hw)); lax_args|eassumption]. Qed.
  Theorem C71_release_c_mul_s : forall u v r, c_mul_s (checked_ops signed w) u v = Ok r -> c_mul_s wrapping u v = Ok r.
  Proof. intros. eapply c_rel_lax; [eapply (rr_c_mul_s (@checked_wrap_rel signed w Hw)); lax_args|eassumption]. Qed.
  Theorem C71_release_c_norm_sqr : forall u r, c_norm_sqr (checked_ops signed w) u = Ok r -> c_norm_sqr wrapping u = Ok r.
  Proof. intros. eapply s_rel_lax; [eapply (rr_c_norm_sqr (@checked_wrap_rel signed w Hw)); lax_args|eassumption]. Qed.
  Theorem C71_release_c_dot : forall u v r, c_dot (checked_ops signed w) u v = Ok r -> c_dot wrapping u v = Ok r.
  Proof. intros. eapply s_rel_lax; [eapply (rr_c_dot (@checked_wrap_rel signed w Hw)); lax_args|eassumption]. Qed.
  Theorem C71_release_c_inv : forall u r, c_inv (checked_ops signed w) u = Ok r -> c_inv wrapping u = Ok r.
  Proof. intros. eapply c_rel_lax; [eapply (rr_c_inv (@checked_wrap_rel signed w Hw) (checked_wrap_divrel signed w)); lax_args|eassumption]. Qed.
  Theorem C71_release_c_div : forall u v r, c_div (checked_ops signed w) u v = Ok r -> c_div wrapping u v = Ok r.
  Proof. intros. eapply c_rel_lax; [eapply (rr_c_div (@checked_wrap_rel signed w Hw) (checked_wrap_divrel signed w)); lax_args|eassumption]. Qed.
  Theorem C71_release_q_add : forall u v r, q_add (checked_ops signed w) u v = Ok r -> q_add wrapping u v = Ok r.
  Proof. intros. eapply q_rel_lax; [eapply (rr_q_add (@checked_wrap_rel signed w Hw)); lax_args|eassumption]. Qed.
  Theorem C71_release_q_sub : forall u v r, q_sub (checked_ops signed w) u v = Ok r -> q_sub wrapping u v = Ok r.
  Proof. intros. eapply q_rel_lax; [eapply (rr_q_sub (@checked_wrap_rel signed w Hw)); lax_args|eassumption]. Qed.
  Theorem C71_release_q_mul : forall u v r, q_mul (checked_ops signed w) u v = Ok r -> q_mul wrapping u v = Ok r.
  Proof. intros. eapply q_rel_lax; [eapply (rr_q_mul (@checked_wrap_rel signed w Hw)); lax_args|eassumption]. Qed.
  Theorem C71_release_q_neg : forall u r, q_neg (checked_ops signed w) u = Ok r -> q_neg wrapping u = Ok r.
  Proof. intros. eapply q_rel_lax; [eapply (rr_q_neg (@checked_wrap_rel signed w Hw)); lax_args|eassumption]. Qed.
  Theorem C71_release_q_conj : forall u r, q_conj (checked_ops signed w) u = Ok r -> q_conj wrapping u = Ok r.
  Proof. intros. eapply q_rel_lax; [eapply (rr_q_conj (@checked_wrap_rel signed w Hw)); lax_args|eassumption]. Qed.
  Theorem C71_release_q_mul_s : forall u v r, q_mul_s (checked_ops signed w) u v = Ok r -> q_mul_s wrapping u v = Ok r.
  Proof. intros. eapply q_rel_lax; [eapply (rr_q_mul_s (@checked_wrap_rel signed w Hw)); lax_args|eassumption]. Qed.
  Theorem C71_release_q_mul_c : forall u v r, q_mul_c (checked_ops signed w) u v = Ok r -> q_mul_c wrapping u v = Ok r.
  Proof. intros. eapply q_rel_lax; [eapply (rr_q_mul_c (@checked_wrap_rel signed w Hw)); lax_args|eassumption]. Qed.
  Theorem C71_release_c_mul_q : forall u v r, c_mul_q (checked_ops signed w) u v = Ok r -> c_mul_q wrapping u v = Ok r.
  Proof. intros. eapply q_rel_lax; [eapply (rr_c_mul_q (@checked_wrap_rel signed w Hw)); lax_args|eassumption]. Qed.
  Theorem C71_release_q_norm_sqr : forall u r, q_norm_sqr (checked_ops signed w) u = Ok r -> q_norm_sqr wrapping u = Ok r.
  Proof. intros. eapply s_rel_lax; [eapply (rr_q_norm_sqr (@checked_wrap_rel signed w Hw)); lax_args|eassumption]. Qed.
  Theorem C71_release_q_dot : forall u v r, q_dot (checked_ops signed w) u v = Ok r -> q_dot wrapping u v = Ok r.
  Proof. intros. eapply s_rel_lax; [eapply (rr_q_dot (@checked_wrap_rel signed w Hw)); lax_args|eassumption]. Qed.
  Theorem C71_release_q_inv : forall u r, q_inv (checked_ops signed w) u = Ok r -> q_inv wrapping u = Ok r.
  Proof. intros. eapply q_rel_lax; [eapply (rr_q_inv (@checked_wrap_rel signed w Hw) (checked_wrap_divrel signed w)); lax_args|eassumption]. Qed.
  Theorem C71_release_q_div : forall u v r, q_div (checked_ops signed w) u v = Ok r -> q_div wrapping u v = Ok r.
  Proof. intros. eapply q_rel_lax; [eapply (rr_q_div (@checked_wrap_rel signed w Hw) (checked_wrap_divrel signed w)); lax_args|eassumption]. Qed.
  Theorem C71_release_rot2_apply : forall u v r, length v = 2 -> rot2_apply (checked_ops signed w) u v = Ok r -> rot2_apply wrapping u v = Ok r.
  Proof. intros. eapply v_rel_lax; [eapply (rr_rot2_apply (@checked_wrap_rel signed w Hw)); lax_args|eassumption]. Qed.
  Theorem C71_release_rot3_apply : forall u v r, length v = 3 -> rot3_apply (checked_ops signed w) u v = Ok r -> rot3_apply wrapping u v = Ok r.
  Proof. intros. eapply v_rel_lax; [eapply (rr_rot3_apply (@checked_wrap_rel signed w Hw)); lax_args|eassumption]. Qed.
  Theorem C71_release_mo_apply_self : forall u v r, rect 2 2 u -> mo_apply_self (checked_ops signed w) u v = Ok r -> mo_apply_self wrapping u v = Ok r.
  Proof. intros. eapply s_rel_lax; [eapply (rr_mo_apply_self (@checked_wrap_rel signed w Hw) (checked_wrap_divrel signed w)); lax_args|eassumption]. Qed.
End C71.

(** The results spelled out. *)
Section C71_values.
  Local Open Scope Z_scope.
  Context (signed : bool) (w : Z) (Hw : width signed w).
  Local Notation wrapping := (wrapping_ops signed w).
  Local Notation fits := (in_word signed w).
  (** [wrap] is exactly reduction to the word. *)
  Theorem C71_wrap : forall x y, y = wrap signed w x <-> fits y /\ exists k, y = x + k * 2 ^ w.
  Proof.
    intros x y. split. { intros ->. apply (@wrap_spec signed w Hw). }
    intros (Hy & k & E). rewrite <- (@wrap_id signed w Hw y Hy) at 1. apply (@wrap_cong signed w Hw y x k). auto.
  Qed.
  Theorem C71_dot_value : forall N u v, length u = N -> length v = N -> (0 < N)%nat -> Forall fits u -> Forall fits v ->
    v_dot wrapping N u v = Ok (wrap signed w (bigsum z_ring N (fun i => vget z_ops u i * vget z_ops v i))).
  Proof. intros. rewrite (@C71_v_dot signed w Hw) by auto. rewrite (C14_value z_ring) by auto. reflexivity. Qed.
  Theorem C71_product_value : forall L M N a b, rect L M a -> rect M N b -> (0 < M)%nat -> Forall (Forall fits) a -> Forall (Forall fits) b ->
    exists r, m_dot wrapping L M N a b = Ok r /\ rect L N r /\ forall i j, (i < L)%nat -> (j < N)%nat ->
      elt r i j = Some (wrap signed w (bigsum z_ring M (fun k => mget z_ops a i k * mget z_ops b k j))).
  Proof.
    intros L M N a b Ra Rb HM Fa Fb. rewrite (@C71_m_dot signed w Hw) by auto. destruct (C26_element z_ring Ra Rb HM) as (r & -> & Rr & E).
    eexists. split; [reflexivity|]. split.
    - destruct Rr as (Lr & Fr). split; [rewrite map_length; auto|]. rewrite Forall_map. eapply Forall_impl; [|exact Fr]. intros l. rewrite map_length. auto.
    - intros i j Hi Hj. specialize (E i j Hi Hj). unfold elt in *. rewrite nth_error_map. destruct (nth_error r i) as [x|]; [|discriminate]. cbn [option_map].
      rewrite nth_error_map, E. reflexivity.
  Qed.
  Theorem C71_det_value : forall N m, rect N N m -> Forall (Forall fits) m ->
    m_det wrapping N m = Ok (wrap signed w (leibniz z_ring N (mget z_ops m))).
  Proof. intros. rewrite (@C71_m_det signed w Hw) by auto. rewrite (C30_leibniz z_ring) by auto. reflexivity. Qed.
End C71_values.
Example C71_ex :
  width true 8 /\ Forall (in_word true 8) [100; 100]%Z /\ v_dot (wrapping_ops true 8) 2 [100; 100]%Z [1; 1]%Z = Ok (-56)%Z /\
  m_det (wrapping_ops true 8) 2 [[11; 5]; [3; 13]]%Z = Ok (-128)%Z /\ m_det z_ops 2 [[11; 5]; [3; 13]]%Z = Ok 128%Z /\
  q_mul (wrapping_ops true 8) (Qt 100 1 0 0)%Z (Qt 2 0 0 1)%Z = Ok (Qt (-56) 2 (-1) 100)%Z.
Proof. split; [cbn; lia|]. split; [repeat constructor; cbv; discriminate|]. vm_compute. auto. Qed.

Print Assumptions C72_v_zero.
Print Assumptions C72_v_add.
Print Assumptions C72_v_sub.
Print Assumptions C72_v_mul.
Print Assumptions C72_v_neg.
Print Assumptions C72_v_smul.
Print Assumptions C72_v_sum.
Print Assumptions C72_v_dot.
Print Assumptions C72_v_square_length.
Print Assumptions C72_v_cross2.
Print Assumptions C72_v_cross3.
Print Assumptions C72_v_cross4.
Print Assumptions C72_m_zero.
Print Assumptions C72_m_one.
Print Assumptions C72_m_add.
Print Assumptions C72_m_sub.
Print Assumptions C72_m_mul.
Print Assumptions C72_m_neg.
Print Assumptions C72_m_smul.
Print Assumptions C72_m_sum.
Print Assumptions C72_m_dot.
Print Assumptions C72_m_dot_v.
Print Assumptions C72_v_dot_m.
Print Assumptions C72_m_outer.
Print Assumptions C72_m_det.
Print Assumptions C72_m_cofactor.
Print Assumptions C72_m_adj.
Print Assumptions C72_c_add.
Print Assumptions C72_c_sub.
Print Assumptions C72_c_mul.
Print Assumptions C72_c_neg.
Print Assumptions C72_c_conj.
Print Assumptions C72_c_mul_s.
Print Assumptions C72_c_norm_sqr.
Print Assumptions C72_c_dot.
Print Assumptions C72_q_add.
Print Assumptions C72_q_sub.
Print Assumptions C72_q_mul.
Print Assumptions C72_q_neg.
Print Assumptions C72_q_conj.
Print Assumptions C72_q_mul_s.
Print Assumptions C72_q_mul_c.
Print Assumptions C72_c_mul_q.
Print Assumptions C72_q_norm_sqr.
Print Assumptions C72_q_dot.
Print Assumptions C72_rot2_apply.
Print Assumptions C72_rot3_apply.
Print Assumptions C72_v_div.
Print Assumptions C72_v_sdiv.
Print Assumptions C72_m_div.
Print Assumptions C72_m_sdiv.
Print Assumptions C72_m_inv.
Print Assumptions C72_c_inv.
Print Assumptions C72_c_div.
Print Assumptions C72_q_inv.
Print Assumptions C72_q_div.
Print Assumptions C72_mo_apply_self.
Print Assumptions C72_v_rem.
Print Assumptions C72_m_rem.
Print Assumptions C72_integers_in_rationals.
Print Assumptions C72_rational_det.
Print Assumptions C72_scalars_in_complex.
Print Assumptions C72_complex_in_quaternions.
Print Assumptions C72_conjugation.
Print Assumptions C72_conj_det.
Print Assumptions C70_v_zero.
Print Assumptions C70_v_add.
Print Assumptions C70_v_sub.
Print Assumptions C70_v_mul.
Print Assumptions C70_v_neg.
Print Assumptions C70_v_smul.
Print Assumptions C70_v_sum.
Print Assumptions C70_v_dot.
Print Assumptions C70_v_square_length.
Print Assumptions C70_v_cross2.
Print Assumptions C70_v_cross3.
Print Assumptions C70_v_cross4.
Print Assumptions C70_v_div.
Print Assumptions C70_v_sdiv.
Print Assumptions C70_v_rem.
Print Assumptions C70_m_zero.
Print Assumptions C70_m_one.
Print Assumptions C70_m_add.
Print Assumptions C70_m_sub.
Print Assumptions C70_m_mul.
Print Assumptions C70_m_neg.
Print Assumptions C70_m_smul.
Print Assumptions C70_m_sum.
Print Assumptions C70_m_div.
Print Assumptions C70_m_sdiv.
Print Assumptions C70_m_rem.
Print Assumptions C70_m_dot.
Print Assumptions C70_m_dot_v.
Print Assumptions C70_v_dot_m.
Print Assumptions C70_m_outer.
Print Assumptions C70_m_det.
Print Assumptions C70_m_cofactor.
Print Assumptions C70_m_adj.
Print Assumptions C70_m_inv.
Print Assumptions C70_c_add.
Print Assumptions C70_c_sub.
Print Assumptions C70_c_mul.
Print Assumptions C70_c_neg.
Print Assumptions C70_c_conj.
Print Assumptions C70_c_mul_s.
Print Assumptions C70_c_norm_sqr.
Print Assumptions C70_c_dot.
Print Assumptions C70_c_inv.
Print Assumptions C70_c_div.
Print Assumptions C70_q_add.
Print Assumptions C70_q_sub.
Print Assumptions C70_q_mul.
Print Assumptions C70_q_neg.
Print Assumptions C70_q_conj.
Print Assumptions C70_q_mul_s.
Print Assumptions C70_q_mul_c.
Print Assumptions C70_c_mul_q.
Print Assumptions C70_q_norm_sqr.
Print Assumptions C70_q_dot.
Print Assumptions C70_q_inv.
Print Assumptions C70_q_div.
Print Assumptions C70_rot2_apply.
Print Assumptions C70_rot3_apply.
Print Assumptions C70_mo_apply_self.
Print Assumptions C70_dot_exact.
Print Assumptions C70_dot_no_overflow.
Print Assumptions C71_v_zero.
Print Assumptions C71_v_add.
Print Assumptions C71_v_sub.
Print Assumptions C71_v_mul.
Print Assumptions C71_v_neg.
Print Assumptions C71_v_smul.
Print Assumptions C71_v_sum.
Print Assumptions C71_v_dot.
Print Assumptions C71_v_square_length.
Print Assumptions C71_v_cross2.
Print Assumptions C71_v_cross3.
Print Assumptions C71_v_cross4.
Print Assumptions C71_m_zero.
Print Assumptions C71_m_one.
Print Assumptions C71_m_add.
Print Assumptions C71_m_sub.
Print Assumptions C71_m_mul.
Print Assumptions C71_m_neg.
Print Assumptions C71_m_smul.
Print Assumptions C71_m_sum.
Print Assumptions C71_m_dot.
Print Assumptions C71_m_dot_v.
Print Assumptions C71_v_dot_m.
Print Assumptions C71_m_outer.
Print Assumptions C71_m_det.
Print Assumptions C71_m_cofactor.
Print Assumptions C71_m_adj.
Print Assumptions C71_c_add.
Print Assumptions C71_c_sub.
Print Assumptions C71_c_mul.
Print Assumptions C71_c_neg.
Print Assumptions C71_c_conj.
Print Assumptions C71_c_mul_s.
Print Assumptions C71_c_norm_sqr.
Print Assumptions C71_c_dot.
Print Assumptions C71_q_add.
Print Assumptions C71_q_sub.
Print Assumptions C71_q_mul.
Print Assumptions C71_q_neg.
Print Assumptions C71_q_conj.
Print Assumptions C71_q_mul_s.
Print Assumptions C71_q_mul_c.
Print Assumptions C71_c_mul_q.
Print Assumptions C71_q_norm_sqr.
Print Assumptions C71_q_dot.
Print Assumptions C71_rot2_apply.
Print Assumptions C71_rot3_apply.
Print Assumptions C71_release_v_zero.
Print Assumptions C71_release_v_add.
Print Assumptions C71_release_v_sub.
Print Assumptions C71_release_v_mul.
Print Assumptions C71_release_v_neg.
Print Assumptions C71_release_v_smul.
Print Assumptions C71_release_v_sum.
Print Assumptions C71_release_v_dot.
Print Assumptions C71_release_v_square_length.
Print Assumptions C71_release_v_cross2.
Print Assumptions C71_release_v_cross3.
Print Assumptions C71_release_v_cross4.
Print Assumptions C71_release_v_div.
Print Assumptions C71_release_v_sdiv.
Print Assumptions C71_release_v_rem.
Print Assumptions C71_release_m_zero.
Print Assumptions C71_release_m_one.
Print Assumptions C71_release_m_add.
Print Assumptions C71_release_m_sub.
Print Assumptions C71_release_m_mul.
Print Assumptions C71_release_m_neg.
Print Assumptions C71_release_m_smul.
Print Assumptions C71_release_m_sum.
Print Assumptions C71_release_m_div.
Print Assumptions C71_release_m_sdiv.
Print Assumptions C71_release_m_rem.
Print Assumptions C71_release_m_dot.
Print Assumptions C71_release_m_dot_v.
Print Assumptions C71_release_v_dot_m.
Print Assumptions C71_release_m_outer.
Print Assumptions C71_release_m_det.
Print Assumptions C71_release_m_cofactor.
Print Assumptions C71_release_m_adj.
Print Assumptions C71_release_m_inv.
Print Assumptions C71_release_c_add.
Print Assumptions C71_release_c_sub.
Print Assumptions C71_release_c_mul.
Print Assumptions C71_release_c_neg.
Print Assumptions C71_release_c_conj.
Print Assumptions C71_release_c_mul_s.
Print Assumptions C71_release_c_norm_sqr.
Print Assumptions C71_release_c_dot.
Print Assumptions C71_release_c_inv.
Print Assumptions C71_release_c_div.
Print Assumptions C71_release_q_add.
Print Assumptions C71_release_q_sub.
Print Assumptions C71_release_q_mul.
Print Assumptions C71_release_q_neg.
Print Assumptions C71_release_q_conj.
Print Assumptions C71_release_q_mul_s.
Print Assumptions C71_release_q_mul_c.
Print Assumptions C71_release_c_mul_q.
Print Assumptions C71_release_q_norm_sqr.
Print Assumptions C71_release_q_dot.
Print Assumptions C71_release_q_inv.
Print Assumptions C71_release_q_div.
Print Assumptions C71_release_rot2_apply.
Print Assumptions C71_release_rot3_apply.
Print Assumptions C71_release_mo_apply_self.
Print Assumptions C71_wrap.
Print Assumptions C71_dot_value.
Print Assumptions C71_product_value.
Print Assumptions C71_det_value.
