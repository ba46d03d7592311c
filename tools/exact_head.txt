(** C91 and C92: floating point computations in which nothing needs rounding are exact.  (The lists of theorems, one per
    operation of the API, were produced by tools/gen_exact.py; every statement is spelled out here.) *)
From Coq Require Import ZArith Reals Lra Lia SpecFloat.
From Flocq Require Import Core BinarySingleNaN.
From Verif Require Import SpecFacts VFacts MFacts AlgFacts MoebiusModel TransformModel SpecMachine RealInst FloatInst SpecRound FlocqFacts PropFloat RelFacts PropRel PropOrder PropRound.
Set Implicit Arguments.
Local Open Scope list_scope.
Local Open Scope R_scope.

(** * Specification *)
(** The float [f] is the number [x]. *)
Definition denotes (prec emax : Z) (x : R) (f : spec_float) : Prop := valid_binary prec emax f = true /\ finite f = true /\ value f = x.
Definition v_denotes prec emax (u : list R) (x : list spec_float) : Prop := Forall2 (denotes prec emax) u x.
Definition m_denotes prec emax (u : list (list R)) (x : list (list spec_float)) : Prop := Forall2 (v_denotes prec emax) u x.
Definition c_denotes prec emax (u : complex R) (x : complex spec_float) : Prop := denotes prec emax (re u) (re x) /\ denotes prec emax (im u) (im x).
Definition q_denotes prec emax (u : quat R) (x : quat spec_float) : Prop :=
  denotes prec emax (qw u) (qw x) /\ denotes prec emax (qx u) (qx x) /\ denotes prec emax (qy u) (qy x) /\ denotes prec emax (qz u) (qz x).
(** Some float is the number [x]. *)
Definition representable (prec emax : Z) (x : R) : Prop := exists f, denotes prec emax x f.
(** A float that is the integer [n], and so on. *)
Definition v_ints prec emax (u : list Z) (x : list spec_float) : Prop := Forall2 (fun n f => is_int prec emax f n) u x.
Definition m_ints prec emax (u : list (list Z)) (x : list (list spec_float)) : Prop := Forall2 (v_ints prec emax) u x.
Definition c_ints prec emax (u : complex Z) (x : complex spec_float) : Prop := is_int prec emax (re x) (re u) /\ is_int prec emax (im x) (im u).
Definition q_ints prec emax (u : quat Z) (x : quat spec_float) : Prop :=
  is_int prec emax (qw x) (qw u) /\ is_int prec emax (qx x) (qx u) /\ is_int prec emax (qy x) (qy u) /\ is_int prec emax (qz x) (qz u).

Section Ex.
  Context (prec emax : Z) (rem : spec_float -> spec_float -> spec_float) (Hp : (0 < prec)%Z) (He : (prec < emax)%Z).
  Let HP : Prec_gt_0 prec := Hp.
  Let HE : Prec_lt_emax prec emax := He.
  Local Existing Instance HP.
  Local Existing Instance HE.
  Local Notation fo := (sf_ops prec emax rem).
  Local Notation valid x := (valid_binary prec emax x = true).
  Local Notation fexp := (SpecFloat.fexp prec emax).
  Local Notation bf := (binary_float prec emax).
  Local Notation den := (denotes prec emax).

  Lemma representable_iff : forall x, representable prec emax x <-> generic_format radix2 fexp x /\ Rabs x < bpow radix2 emax.
  Proof.
    intros x. split.
    - intros (f & V & F & <-). split; [eapply fmt; eauto|]. destruct (lift _ _ _ V) as (b & <-). rewrite value_B. apply abs_B2R_lt_emax.
    - intros (G & L).
      pose proof (binary_normalize_correct prec emax Hp He mode_NE (Ztrunc (scaled_mantissa radix2 fexp x)) (cexp radix2 fexp x) false) as H.
      cbv zeta in H. unfold generic_format in G. rewrite <- G in H. cbn [round_mode] in H.
      rewrite round_generic in H; [|apply valid_rnd_N|unfold generic_format; exact G]. rewrite Rlt_bool_true in H by exact L. destruct H as (H1 & H2 & _).
      exists (B2SF (binary_normalize prec emax Hp He mode_NE (Ztrunc (scaled_mantissa radix2 fexp x)) (cexp radix2 fexp x) false)).
      split; [apply valid_B|]. split; [rewrite finite_B; exact H2|]. rewrite value_B. exact H1.
  Qed.
  Lemma representable_dec : forall x, {representable prec emax x} + {~ representable prec emax x}.
  Proof.
    intros x. destruct (Req_EM_T (round radix2 fexp ZnearestE x) x) as [E|E].
    - destruct (Rlt_dec (Rabs x) (bpow radix2 emax)) as [L|L].
      + left. apply representable_iff. split; auto. rewrite <- E. apply generic_format_round; [apply (fexp_correct prec emax HP)|apply valid_rnd_N].
      + right. intros H. apply representable_iff in H. tauto.
    - right. intros H. apply representable_iff in H. apply E. apply round_generic; [apply valid_rnd_N|tauto].
  Qed.
  (** Real arithmetic that refuses to round: an operation fails if its result is not representable. *)
  Definition exactly (x : R) : res R := if representable_dec x then Ok x else Panic.
  Definition exact_ops : Ops R :=
    {| o_zero := 0; o_one := 1; o_add := fun x y => exactly (x + y); o_sub := fun x y => exactly (x - y); o_mul := fun x y => exactly (x * y);
       o_div := fun x y => if Req_EM_T y 0 then Panic else exactly (x / y);
       o_rem := fun _ _ => Panic; o_neg := fun x => exactly (- x); o_is_zero := r_eqb 0; o_eq := r_eqb; o_lt := r_ltb; o_le := r_leb |}.

  Ltac fin H := cbn [round_mode] in H; rewrite round_generic in H; [|apply valid_rnd_N|tauto]; rewrite Rlt_bool_true in H by tauto.
  Lemma mul_den : forall x y f g, den x f -> den y g -> representable prec emax (x * y) -> den (x * y) (SFmul prec emax f g).
  Proof.
    intros x y f g (V & F & <-) (V' & F' & <-) Hr. apply representable_iff in Hr. split; [apply mul_valid; auto|].
    destruct (lift _ _ _ V) as (a & <-), (lift _ _ _ V') as (b & <-). rewrite (@mul_B prec emax Hp He). rewrite !finite_B in *. rewrite !value_B in *.
    pose proof (Bmult_correct prec emax Hp He mode_NE a b) as H. fin H. destruct H as (H1 & H2 & _). rewrite H2, F, F'. auto.
  Qed.
  Lemma add_den : forall x y f g, den x f -> den y g -> representable prec emax (x + y) -> den (x + y) (SFadd prec emax f g).
  Proof.
    intros x y f g (V & F & <-) (V' & F' & <-) Hr. apply representable_iff in Hr. split; [apply add_valid; auto|].
    destruct (lift _ _ _ V) as (a & <-), (lift _ _ _ V') as (b & <-). rewrite (@add_B prec emax Hp He). rewrite !finite_B in *. rewrite !value_B in *.
    pose proof (Bplus_correct prec emax Hp He mode_NE a b F F') as H. fin H. destruct H as (H1 & H2 & _). auto.
  Qed.
  Lemma sub_den : forall x y f g, den x f -> den y g -> representable prec emax (x - y) -> den (x - y) (SFsub prec emax f g).
  Proof.
    intros x y f g (V & F & <-) (V' & F' & <-) Hr. apply representable_iff in Hr. split; [apply sub_valid; auto|].
    destruct (lift _ _ _ V) as (a & <-), (lift _ _ _ V') as (b & <-). rewrite (@sub_B prec emax Hp He). rewrite !finite_B in *. rewrite !value_B in *.
    pose proof (Bminus_correct prec emax Hp He mode_NE a b F F') as H. fin H. destruct H as (H1 & H2 & _). auto.
  Qed.
  Lemma div_den : forall x y f g, den x f -> den y g -> y <> 0 -> representable prec emax (x / y) -> den (x / y) (SFdiv prec emax f g).
  Proof.
    intros x y f g (V & F & <-) (V' & F' & <-) Hy Hr. apply representable_iff in Hr. split; [apply div_valid; auto|].
    destruct (lift _ _ _ V) as (a & <-), (lift _ _ _ V') as (b & <-). rewrite (@div_B prec emax Hp He). rewrite !finite_B in *. rewrite !value_B in *.
    pose proof (Bdiv_correct prec emax Hp He mode_NE a b Hy) as H. fin H. destruct H as (H1 & H2 & _). rewrite H2, F. auto.
  Qed.
  Lemma one_den : den 1 (SFone prec emax).
  Proof.
    assert (E : SFone prec emax = B2SF (@Bone prec emax Hp He)). { unfold Bone. rewrite B2SF_SF2B. apply round_equiv. }
    rewrite E. split; [apply valid_B|]. rewrite finite_B, value_B. split; [apply (@is_finite_Bone prec emax Hp He)|apply (@Bone_correct prec emax Hp He)].
  Qed.
  Lemma neg_den : forall x f, den x f -> den (- x) (SFopp f).
  Proof. intros x f (V & F & <-). destruct (opp_value f) as (H1 & H2). split; [apply opp_valid; auto|]. rewrite H2. auto. Qed.
  Lemma exactly_rel : forall x f, (representable prec emax x -> den x f) -> rrel false den (exactly x) (Ok f).
  Proof. intros x f H. unfold exactly. destruct (representable_dec x); cbn; auto. Qed.
  Lemma exact_rel : OpsRel false den exact_ops fo.
  Proof.
    constructor; cbn [o_zero o_one o_add o_sub o_mul o_neg exact_ops sf_ops ok1 ok2]; intros.
    - repeat split; auto.
    - apply one_den.
    - apply exactly_rel. apply add_den; auto.
    - apply exactly_rel. apply sub_den; auto.
    - apply exactly_rel. apply mul_den; auto.
    - apply exactly_rel. intros _. apply neg_den; auto.
  Qed.
  Lemma exact_divrel : DivRel false den exact_ops fo.
  Proof. intros x x' y y' Hx Hy. cbn. destruct (Req_EM_T y 0); cbn; auto. apply exactly_rel. apply div_den; auto. Qed.
  Lemma exactly_lax : forall x, rrel false eq (exactly x) (Ok x).
  Proof. intros. unfold exactly. destruct (representable_dec x); cbn; auto. Qed.
  Lemma exact_real : OpsRel false eq exact_ops r_ops.
  Proof. constructor; intros; subst; cbn [o_zero o_one o_add o_sub o_mul o_neg exact_ops r_ops ok1 ok2]; auto; apply exactly_lax. Qed.
  Lemma exact_real_div : DivRel false eq exact_ops r_ops.
  Proof. intros x x' y y' -> ->. cbn. destruct (Req_EM_T y' 0); cbn; auto. apply exactly_lax. Qed.

  (** ** Integers *)
  Local Notation isint := (fun n f => is_int prec emax f n).
  Lemma int_den : forall n f, is_int prec emax f n <-> den (IZR n) f.
  Proof. intros. reflexivity. Qed.
  Lemma int_representable : forall n, (Z.abs n <= 2 ^ prec)%Z -> representable prec emax (IZR n).
  Proof. intros n H. apply representable_iff. split; [apply (@int_fmt prec emax Hp He); auto|apply (@int_lt prec emax Hp He); auto]. Qed.
  Context (signed : bool) (w : Z) (Hw : width signed w) (Hfit : (w <= prec + if signed then 1 else 0)%Z).
  Lemma word_small : forall n, in_word signed w n -> (Z.abs n <= 2 ^ prec)%Z.
  Proof.
    intros n H. unfold in_word, int_min, int_max in H. destruct signed.
    - assert (2 ^ (w - 1) <= 2 ^ prec)%Z by (apply Z.pow_le_mono_r; lia). lia.
    - assert (2 ^ w <= 2 ^ prec)%Z by (apply Z.pow_le_mono_r; lia). lia.
  Qed.
  Lemma check_int : forall n f, (representable prec emax (IZR n) -> den (IZR n) f) -> rrel false isint (check signed w n) (Ok f).
  Proof.
    intros n f H. unfold check. destruct (in_wordb signed w n) eqn:E; cbn; auto. apply H. apply int_representable. apply word_small. now apply in_wordb_spec.
  Qed.
  Lemma int_rel : OpsRel false isint (checked_ops signed w) fo.
  Proof.
    constructor; cbn [o_zero o_one o_add o_sub o_mul o_neg checked_ops sf_ops ok1 ok2]; intros.
    - repeat split; auto.
    - apply one_den.
    - apply check_int. rewrite plus_IZR. apply add_den; apply int_den; auto.
    - apply check_int. rewrite minus_IZR. apply sub_den; apply int_den; auto.
    - apply check_int. rewrite mult_IZR. apply mul_den; apply int_den; auto.
    - apply check_int. intros _. rewrite opp_IZR. apply neg_den; apply int_den; auto.
  Qed.
End Ex.

(** ** From relations to statements *)
Section Out.
  Context {A B : Type} (R : A -> B -> Prop).
  Lemma rr_out : forall {X Y : Type} (S : X -> Y -> Prop) a b r, rrel false S a b -> a = Ok r -> exists s, b = Ok s /\ S r s.
  Proof. intros X Y S a b r H ->. destruct b; cbn in H; try contradiction. eauto. Qed.
  Lemma s_rel_out : forall a b r, rrel false R a b -> a = Ok r -> exists s, b = Ok s /\ R r s.
  Proof. intros. eapply rr_out; eauto. Qed.
  Lemma v_rel_out : forall N a b r, rrel false (vrel N R) a b -> a = Ok r -> exists s, b = Ok s /\ Forall2 R r s.
  Proof. intros N a b r H E. destruct (@rr_out _ _ _ _ _ _ H E) as (s & -> & _ & F). eauto. Qed.
  Lemma m_rel_out : forall M N a b r, rrel false (mrel M N R) a b -> a = Ok r -> exists s, b = Ok s /\ Forall2 (Forall2 R) r s.
  Proof.
    intros M N a b r H E. destruct (@rr_out _ _ _ _ _ _ H E) as (s & -> & _ & F). exists s. split; auto. clear - F. induction F as [|? ? ? ? (_ & ?)]; constructor; auto.
  Qed.
  Lemma c_rel_out : forall a b r, rrel false (RelFacts.crel R) a b -> a = Ok r -> exists s, b = Ok s /\ R (re r) (re s) /\ R (im r) (im s).
  Proof. intros a b r H E. destruct (@rr_out _ _ _ _ _ _ H E) as (s & -> & F). eauto. Qed.
  Lemma q_rel_out : forall a b r, rrel false (RelFacts.qrel R) a b -> a = Ok r ->
    exists s, b = Ok s /\ R (qw r) (qw s) /\ R (qx r) (qx s) /\ R (qy r) (qy s) /\ R (qz r) (qz s).
  Proof. intros a b r H E. destruct (@rr_out _ _ _ _ _ _ H E) as (s & -> & F). eauto. Qed.
  Lemma vrel_in : forall N u x, length u = N -> Forall2 R u x -> vrel N R u x.
  Proof. intros. split; auto. Qed.
  Lemma mrel_in : forall M N u x, rect M N u -> Forall2 (Forall2 R) u x -> mrel M N R u x.
  Proof. intros M N u x (L & F) H. split; auto. clear L. induction H; constructor; inversion F; subst; auto. split; auto. Qed.
End Out.
Ltac ex_args := first [eapply vrel_in; eassumption | eapply mrel_in; eassumption | eassumption].
Local Open Scope nat_scope.
