(** C91 and C92: floating point computations in which nothing needs rounding are exact.  (The lists of theorems, one per
    operation of the API, were produced by tools/gen_exact.py; every statement is spelled out here.) *)
From Coq Require Import ZArith Reals Lra Lia SpecFloat.
From Flocq Require Import Core BinarySingleNaN.
From Verif Require Import SpecFacts VFacts MFacts AlgFacts MoebiusModel TransformModel SpecMachine RealInst FloatInst SpecRound FlocqFacts PropFloat RelFacts PropRel PropOrder PropRound.
Set Implicit Arguments.
Local Open Scope list_scope.
Local Open Scope R_scope.

(** * Specification *)
(** The float [f] is the number [x]. *)
Definition denotes (prec emax : Z) (x : R) (f : spec_float) : Prop := valid_binary prec emax f = true /\ finite f = true /\ value f = x.
Definition v_denotes prec emax (u : list R) (x : list spec_float) : Prop := Forall2 (denotes prec emax) u x.
Definition m_denotes prec emax (u : list (list R)) (x : list (list spec_float)) : Prop := Forall2 (v_denotes prec emax) u x.
Definition c_denotes prec emax (u : complex R) (x : complex spec_float) : Prop := denotes prec emax (re u) (re x) /\ denotes prec emax (im u) (im x).
Definition q_denotes prec emax (u : quat R) (x : quat spec_float) : Prop :=
  denotes prec emax (qw u) (qw x) /\ denotes prec emax (qx u) (qx x) /\ denotes prec emax (qy u) (qy x) /\ denotes prec emax (qz u) (qz x).
(** Some float is the number [x]. *)
Definition representable (prec emax : Z) (x : R) : Prop := exists f, denotes prec emax x f.
(** A float that is the integer [n], and so on. *)
Definition v_ints prec emax (u : list Z) (x : list spec_float) : Prop := Forall2 (fun n f => is_int prec emax f n) u x.
Definition m_ints prec emax (u : list (list Z)) (x : list (list spec_float)) : Prop := Forall2 (v_ints prec emax) u x.
Definition c_ints prec emax (u : complex Z) (x : complex spec_float) : Prop := is_int prec emax (re x) (re u) /\ is_int prec emax (im x) (im u).
Definition q_ints prec emax (u : quat Z) (x : quat spec_float) : Prop :=
  is_int prec emax (qw x) (qw u) /\ is_int prec emax (qx x) (qx u) /\ is_int prec emax (qy x) (qy u) /\ is_int prec emax (qz x) (qz u).

Section Ex.
  Context (prec emax : Z) (rem : spec_float -> spec_float -> spec_float) (Hp : (0 < prec)%Z) (He : (prec < emax)%Z).
  Let HP : Prec_gt_0 prec := Hp.
  Let HE : Prec_lt_emax prec emax := He.
  Local Existing Instance HP.
  Local Existing Instance HE.
  Local Notation fo := (sf_ops prec emax rem).
  Local Notation valid x := (valid_binary prec emax x = true).
  Local Notation fexp := (SpecFloat.fexp prec emax).
  Local Notation bf := (binary_float prec emax).
  Local Notation den := (denotes prec emax).

  Lemma representable_iff : forall x, representable prec emax x <-> generic_format radix2 fexp x /\ Rabs x < bpow radix2 emax.
  Proof.
    intros x. split.
    - intros (f & V & F & <-). split; [eapply fmt; eauto|]. destruct (lift _ _ _ V) as (b & <-). rewrite value_B. apply abs_B2R_lt_emax.
    - intros (G & L).
      pose proof (binary_normalize_correct prec emax Hp He mode_NE (Ztrunc (scaled_mantissa radix2 fexp x)) (cexp radix2 fexp x) false) as H.
      cbv zeta in H. unfold generic_format in G. rewrite <- G in H. cbn [round_mode] in H.
      rewrite round_generic in H; [|apply valid_rnd_N|unfold generic_format; exact G]. rewrite Rlt_bool_true in H by exact L. destruct H as (H1 & H2 & _).
      exists (B2SF (binary_normalize prec emax Hp He mode_NE (Ztrunc (scaled_mantissa radix2 fexp x)) (cexp radix2 fexp x) false)).
      split; [apply valid_B|]. split; [rewrite finite_B; exact H2|]. rewrite value_B. exact H1.
  Qed.
  Lemma representable_dec : forall x, {representable prec emax x} + {~ representable prec emax x}.
  Proof.
    intros x. destruct (Req_EM_T (round radix2 fexp ZnearestE x) x) as [E|E].
    - destruct (Rlt_dec (Rabs x) (bpow radix2 emax)) as [L|L].
      + left. apply representable_iff. split; auto. rewrite <- E. apply generic_format_round; [apply (fexp_correct prec emax HP)|apply valid_rnd_N].
      + right. intros H. apply representable_iff in H. tauto.
    - right. intros H. apply representable_iff in H. apply E. apply round_generic; [apply valid_rnd_N|tauto].
  Qed.
  (** Real arithmetic that refuses to round: an operation fails if its result is not representable. *)
  Definition exactly (x : R) : res R := if representable_dec x then Ok x else Panic.
  Definition exact_ops : Ops R :=
    {| o_zero := 0; o_one := 1; o_add := fun x y => exactly (x + y); o_sub := fun x y => exactly (x - y); o_mul := fun x y => exactly (x * y);
       o_div := fun x y => if Req_EM_T y 0 then Panic else exactly (x / y);
       o_rem := fun _ _ => Panic; o_neg := fun x => exactly (- x); o_is_zero := r_eqb 0; o_eq := r_eqb; o_lt := r_ltb; o_le := r_leb |}.

  Ltac fin H := cbn [round_mode] in H; rewrite round_generic in H; [|apply valid_rnd_N|tauto]; rewrite Rlt_bool_true in H by tauto.
  Lemma mul_den : forall x y f g, den x f -> den y g -> representable prec emax (x * y) -> den (x * y) (SFmul prec emax f g).
  Proof.
    intros x y f g (V & F & <-) (V' & F' & <-) Hr. apply representable_iff in Hr. split; [apply mul_valid; auto|].
    destruct (lift _ _ _ V) as (a & <-), (lift _ _ _ V') as (b & <-). rewrite (@mul_B prec emax Hp He). rewrite !finite_B in *. rewrite !value_B in *.
    pose proof (Bmult_correct prec emax Hp He mode_NE a b) as H. fin H. destruct H as (H1 & H2 & _). rewrite H2, F, F'. auto.
  Qed.
  Lemma add_den : forall x y f g, den x f -> den y g -> representable prec emax (x + y) -> den (x + y) (SFadd prec emax f g).
  Proof.
    intros x y f g (V & F & <-) (V' & F' & <-) Hr. apply representable_iff in Hr. split; [apply add_valid; auto|].
    destruct (lift _ _ _ V) as (a & <-), (lift _ _ _ V') as (b & <-). rewrite (@add_B prec emax Hp He). rewrite !finite_B in *. rewrite !value_B in *.
    pose proof (Bplus_correct prec emax Hp He mode_NE a b F F') as H. fin H. destruct H as (H1 & H2 & _). auto.
  Qed.
  Lemma sub_den : forall x y f g, den x f -> den y g -> representable prec emax (x - y) -> den (x - y) (SFsub prec emax f g).
  Proof.
    intros x y f g (V & F & <-) (V' & F' & <-) Hr. apply representable_iff in Hr. split; [apply sub_valid; auto|].
    destruct (lift _ _ _ V) as (a & <-), (lift _ _ _ V') as (b & <-). rewrite (@sub_B prec emax Hp He). rewrite !finite_B in *. rewrite !value_B in *.
    pose proof (Bminus_correct prec emax Hp He mode_NE a b F F') as H. fin H. destruct H as (H1 & H2 & _). auto.
  Qed.
  Lemma div_den : forall x y f g, den x f -> den y g -> y <> 0 -> representable prec emax (x / y) -> den (x / y) (SFdiv prec emax f g).
  Proof.
    intros x y f g (V & F & <-) (V' & F' & <-) Hy Hr. apply representable_iff in Hr. split; [apply div_valid; auto|].
    destruct (lift _ _ _ V) as (a & <-), (lift _ _ _ V') as (b & <-). rewrite (@div_B prec emax Hp He). rewrite !finite_B in *. rewrite !value_B in *.
    pose proof (Bdiv_correct prec emax Hp He mode_NE a b Hy) as H. fin H. destruct H as (H1 & H2 & _). rewrite H2, F. auto.
  Qed.
  Lemma one_den : den 1 (SFone prec emax).
  Proof.
    assert (E : SFone prec emax = B2SF (@Bone prec emax Hp He)). { unfold Bone. rewrite B2SF_SF2B. apply round_equiv. }
    rewrite E. split; [apply valid_B|]. rewrite finite_B, value_B. split; [apply (@is_finite_Bone prec emax Hp He)|apply (@Bone_correct prec emax Hp He)].
  Qed.
  Lemma neg_den : forall x f, den x f -> den (- x) (SFopp f).
  Proof. intros x f (V & F & <-). destruct (opp_value f) as (H1 & H2). split; [apply opp_valid; auto|]. rewrite H2. auto. Qed.
  Lemma exactly_rel : forall x f, (representable prec emax x -> den x f) -> rrel false den (exactly x) (Ok f).
  Proof. intros x f H. unfold exactly. destruct (representable_dec x); cbn; auto. Qed.
  Lemma exact_rel : OpsRel false den exact_ops fo.
  Proof.
    constructor; cbn [o_zero o_one o_add o_sub o_mul o_neg exact_ops sf_ops ok1 ok2]; intros.
    - repeat split; auto.
    - apply one_den.
    - apply exactly_rel. apply add_den; auto.
    - apply exactly_rel. apply sub_den; auto.
    - apply exactly_rel. apply mul_den; auto.
    - apply exactly_rel. intros _. apply neg_den; auto.
  Qed.
  Lemma exact_divrel : DivRel false den exact_ops fo.
  Proof. intros x x' y y' Hx Hy. cbn. destruct (Req_EM_T y 0); cbn; auto. apply exactly_rel. apply div_den; auto. Qed.
  Lemma exactly_lax : forall x, rrel false eq (exactly x) (Ok x).
  Proof. intros. unfold exactly. destruct (representable_dec x); cbn; auto. Qed.
  Lemma exact_real : OpsRel false eq exact_ops r_ops.
  Proof. constructor; intros; subst; cbn [o_zero o_one o_add o_sub o_mul o_neg exact_ops r_ops ok1 ok2]; auto; apply exactly_lax. Qed.
  Lemma exact_real_div : DivRel false eq exact_ops r_ops.
  Proof. intros x x' y y' -> ->. cbn. destruct (Req_EM_T y' 0); cbn; auto. apply exactly_lax. Qed.

  (** ** Integers *)
  Local Notation isint := (fun n f => is_int prec emax f n).
  Lemma int_den : forall n f, is_int prec emax f n <-> den (IZR n) f.
  Proof. intros. reflexivity. Qed.
  Lemma int_representable : forall n, (Z.abs n <= 2 ^ prec)%Z -> representable prec emax (IZR n).
  Proof. intros n H. apply representable_iff. split; [apply (@int_fmt prec emax Hp He); auto|apply (@int_lt prec emax Hp He); auto]. Qed.
  Context (signed : bool) (w : Z) (Hw : width signed w) (Hfit : (w <= prec + if signed then 1 else 0)%Z).
  Lemma word_small : forall n, in_word signed w n -> (Z.abs n <= 2 ^ prec)%Z.
  Proof.
    intros n H. unfold in_word, int_min, int_max in H. destruct signed.
    - assert (2 ^ (w - 1) <= 2 ^ prec)%Z by (apply Z.pow_le_mono_r; lia). lia.
    - assert (2 ^ w <= 2 ^ prec)%Z by (apply Z.pow_le_mono_r; lia). lia.
  Qed.
  Lemma check_int : forall n f, (representable prec emax (IZR n) -> den (IZR n) f) -> rrel false isint (check signed w n) (Ok f).
  Proof.
    intros n f H. unfold check. destruct (in_wordb signed w n) eqn:E; cbn; auto. apply H. apply int_representable. apply word_small. now apply in_wordb_spec.
  Qed.
  Lemma int_rel : OpsRel false isint (checked_ops signed w) fo.
  Proof.
    constructor; cbn [o_zero o_one o_add o_sub o_mul o_neg checked_ops sf_ops ok1 ok2]; intros.
    - repeat split; auto.
    - apply one_den.
    - apply check_int. rewrite plus_IZR. apply add_den; apply int_den; auto.
    - apply check_int. rewrite minus_IZR. apply sub_den; apply int_den; auto.
    - apply check_int. rewrite mult_IZR. apply mul_den; apply int_den; auto.
    - apply check_int. intros _. rewrite opp_IZR. apply neg_den; apply int_den; auto.
  Qed.
End Ex.

(** ** From relations to statements *)
Section Out.
  Context {A B : Type} (R : A -> B -> Prop).
  Lemma rr_out : forall {X Y : Type} (S : X -> Y -> Prop) a b r, rrel false S a b -> a = Ok r -> exists s, b = Ok s /\ S r s.
  Proof. intros X Y S a b r H ->. destruct b; cbn in H; try contradiction. eauto. Qed.
  Lemma s_rel_out : forall a b r, rrel false R a b -> a = Ok r -> exists s, b = Ok s /\ R r s.
  Proof. intros. eapply rr_out; eauto. Qed.
  Lemma v_rel_out : forall N a b r, rrel false (vrel N R) a b -> a = Ok r -> exists s, b = Ok s /\ Forall2 R r s.
  Proof. intros N a b r H E. destruct (@rr_out _ _ _ _ _ _ H E) as (s & -> & _ & F). eauto. Qed.
  Lemma m_rel_out : forall M N a b r, rrel false (mrel M N R) a b -> a = Ok r -> exists s, b = Ok s /\ Forall2 (Forall2 R) r s.
  Proof.
    intros M N a b r H E. destruct (@rr_out _ _ _ _ _ _ H E) as (s & -> & _ & F). exists s. split; auto. clear - F. induction F as [|? ? ? ? (_ & ?)]; constructor; auto.
  Qed.
  Lemma c_rel_out : forall a b r, rrel false (RelFacts.crel R) a b -> a = Ok r -> exists s, b = Ok s /\ R (re r) (re s) /\ R (im r) (im s).
  Proof. intros a b r H E. destruct (@rr_out _ _ _ _ _ _ H E) as (s & -> & F). eauto. Qed.
  Lemma q_rel_out : forall a b r, rrel false (RelFacts.qrel R) a b -> a = Ok r ->
    exists s, b = Ok s /\ R (qw r) (qw s) /\ R (qx r) (qx s) /\ R (qy r) (qy s) /\ R (qz r) (qz s).
  Proof. intros a b r H E. destruct (@rr_out _ _ _ _ _ _ H E) as (s & -> & F). eauto. Qed.
  Lemma vrel_in : forall N u x, length u = N -> Forall2 R u x -> vrel N R u x.
  Proof. intros. split; auto. Qed.
  Lemma mrel_in : forall M N u x, rect M N u -> Forall2 (Forall2 R) u x -> mrel M N R u x.
  Proof. intros M N u x (L & F) H. split; auto. clear L. induction H; constructor; inversion F; subst; auto. split; auto. Qed.
End Out.
Ltac ex_args := first [eapply vrel_in; eassumption | eapply mrel_in; eassumption | eassumption].
Local Open Scope nat_scope.

(* ------------------------------------------------------------------------- *)
(** * C91: if no operation needs rounding, the result is exact                 *)
Section C91.
  Context (prec emax : Z) (rem : spec_float -> spec_float -> spec_float) (Hp : (0 < prec)%Z) (He : (prec < emax)%Z).
  Local Notation fo := (sf_ops prec emax rem).
  Local Notation exact := (exact_ops Hp He).

  Theorem C91_v_add : forall N u v x y r, length u = N -> length v = N -> v_denotes prec emax u x -> v_denotes prec emax v y -> v_add exact N u v = Ok r -> v_add r_ops N u v = Ok r /\ exists s, v_add fo N x y = Ok s /\ v_denotes prec emax r s.
  Proof. intros. split. { eapply v_rel_lax; [eapply (rr_v_add (exact_real Hp He)); lax_args|eassumption]. } eapply v_rel_out; [|eassumption]. eapply (rr_v_add (exact_rel rem Hp He)); ex_args. Qed.
  Theorem C91_v_sub : forall N u v x y r, length u = N -> length v = N -> v_denotes prec emax u x -> v_denotes prec emax v y -> v_sub exact N u v = Ok r -> v_sub r_ops N u v = Ok r /\ exists s, v_sub fo N x y = Ok s /\ v_denotes prec emax r s.
  Proof. intros. split. { eapply v_rel_lax; [eapply (rr_v_sub (exact_real Hp He)); lax_args|eassumption]. } eapply v_rel_out; [|eassumption]. eapply (rr_v_sub (exact_rel rem Hp He)); ex_args. Qed.
  Theorem C91_v_mul : forall N u v x y r, length u = N -> length v = N -> v_denotes prec emax u x -> v_denotes prec emax v y -> v_mul exact N u v = Ok r -> v_mul r_ops N u v = Ok r /\ exists s, v_mul fo N x y = Ok s /\ v_denotes prec emax r s.
  Proof. intros. split. { eapply v_rel_lax; [eapply (rr_v_mul (exact_real Hp He)); lax_args|eassumption]. } eapply v_rel_out; [|eassumption]. eapply (rr_v_mul (exact_rel rem Hp He)); ex_args. Qed.
  Theorem C91_v_neg : forall N u x r, length u = N -> v_denotes prec emax u x -> v_neg exact u = Ok r -> v_neg r_ops u = Ok r /\ exists s, v_neg fo x = Ok s /\ v_denotes prec emax r s.
  Proof. intros. split. { eapply v_rel_lax; [eapply (rr_v_neg (exact_real Hp He)); lax_args|eassumption]. } eapply v_rel_out; [|eassumption]. eapply (rr_v_neg (exact_rel rem Hp He)); ex_args. Qed.
  Theorem C91_v_smul : forall N u v x y r, length u = N -> v_denotes prec emax u x -> denotes prec emax v y -> v_smul exact u v = Ok r -> v_smul r_ops u v = Ok r /\ exists s, v_smul fo x y = Ok s /\ v_denotes prec emax r s.
  Proof. intros. split. { eapply v_rel_lax; [eapply (rr_v_smul (exact_real Hp He)); lax_args|eassumption]. } eapply v_rel_out; [|eassumption]. eapply (rr_v_smul (exact_rel rem Hp He)); ex_args. Qed.
  Theorem C91_v_sum : forall N u x r, length u = N -> v_denotes prec emax u x -> v_sum exact u = Ok r -> v_sum r_ops u = Ok r /\ exists s, v_sum fo x = Ok s /\ denotes prec emax r s.
  Proof. intros. split. { eapply s_rel_lax; [eapply (rr_v_sum (exact_real Hp He)); lax_args|eassumption]. } eapply s_rel_out; [|eassumption]. eapply (rr_v_sum (exact_rel rem Hp He)); ex_args. Qed.
  Theorem C91_v_dot : forall N u v x y r, length u = N -> length v = N -> v_denotes prec emax u x -> v_denotes prec emax v y -> v_dot exact N u v = Ok r -> v_dot r_ops N u v = Ok r /\ exists s, v_dot fo N x y = Ok s /\ denotes prec emax r s.
  Proof. intros. split. { eapply s_rel_lax; [eapply (rr_v_dot (exact_real Hp He)); lax_args|eassumption]. } eapply s_rel_out; [|eassumption]. eapply (rr_v_dot (exact_rel rem Hp He)); ex_args. Qed.
  Theorem C91_v_square_length : forall N u x r, length u = N -> v_denotes prec emax u x -> v_square_length exact u = Ok r -> v_square_length r_ops u = Ok r /\ exists s, v_square_length fo x = Ok s /\ denotes prec emax r s.
  Proof. intros. split. { eapply s_rel_lax; [eapply (rr_v_square_length (exact_real Hp He)); lax_args|eassumption]. } eapply s_rel_out; [|eassumption]. eapply (rr_v_square_length (exact_rel rem Hp He)); ex_args. Qed.
  Theorem C91_v_cross2 : forall u v x y r, length u = 2 -> length v = 2 -> v_denotes prec emax u x -> v_denotes prec emax v y -> v_cross2 exact u v = Ok r -> v_cross2 r_ops u v = Ok r /\ exists s, v_cross2 fo x y = Ok s /\ denotes prec emax r s.
  Proof. intros. split. { eapply s_rel_lax; [eapply (rr_v_cross2 (exact_real Hp He)); lax_args|eassumption]. } eapply s_rel_out; [|eassumption]. eapply (rr_v_cross2 (exact_rel rem Hp He)); ex_args. Qed.
  Theorem C91_v_cross3 : forall u v x y r, length u = 3 -> length v = 3 -> v_denotes prec emax u x -> v_denotes prec emax v y -> v_cross3 exact u v = Ok r -> v_cross3 r_ops u v = Ok r /\ exists s, v_cross3 fo x y = Ok s /\ v_denotes prec emax r s.
  Proof. intros. split. { eapply v_rel_lax; [eapply (rr_v_cross3 (exact_real Hp He)); lax_args|eassumption]. } eapply v_rel_out; [|eassumption]. eapply (rr_v_cross3 (exact_rel rem Hp He)); ex_args. Qed.
  Theorem C91_v_cross4 : forall u v x y r, length u = 4 -> length v = 4 -> v_denotes prec emax u x -> v_denotes prec emax v y -> v_cross4 exact u v = Ok r -> v_cross4 r_ops u v = Ok r /\ exists s, v_cross4 fo x y = Ok s /\ v_denotes prec emax r s.
  Proof. intros. split. { eapply v_rel_lax; [eapply (rr_v_cross4 (exact_real Hp He)); lax_args|eassumption]. } eapply v_rel_out; [|eassumption]. eapply (rr_v_cross4 (exact_rel rem Hp He)); ex_args. Qed.
  Theorem C91_v_div : forall N u v x y r, length u = N -> length v = N -> v_denotes prec emax u x -> v_denotes prec emax v y -> v_div exact N u v = Ok r -> v_div r_ops N u v = Ok r /\ exists s, v_div fo N x y = Ok s /\ v_denotes prec emax r s.
  Proof. intros. split. { eapply v_rel_lax; [eapply (rr_v_div (exact_real_div Hp He)); lax_args|eassumption]. } eapply v_rel_out; [|eassumption]. eapply (rr_v_div (exact_divrel rem Hp He)); ex_args. Qed.
  Theorem C91_v_sdiv : forall N u v x y r, length u = N -> v_denotes prec emax u x -> denotes prec emax v y -> v_sdiv exact u v = Ok r -> v_sdiv r_ops u v = Ok r /\ exists s, v_sdiv fo x y = Ok s /\ v_denotes prec emax r s.
  Proof. intros. split. { eapply v_rel_lax; [eapply (rr_v_sdiv (exact_real_div Hp He)); lax_args|eassumption]. } eapply v_rel_out; [|eassumption]. eapply (rr_v_sdiv (exact_divrel rem Hp He)); ex_args. Qed.
  Theorem C91_m_add : forall M N u v x y r, rect M N u -> rect M N v -> m_denotes prec emax u x -> m_denotes prec emax v y -> m_add exact M N u v = Ok r -> m_add r_ops M N u v = Ok r /\ exists s, m_add fo M N x y = Ok s /\ m_denotes prec emax r s.
  Proof. intros. split. { eapply m_rel_lax; [eapply (rr_m_add (exact_real Hp He)); lax_args|eassumption]. } eapply m_rel_out; [|eassumption]. eapply (rr_m_add (exact_rel rem Hp He)); ex_args. Qed.
  Theorem C91_m_sub : forall M N u v x y r, rect M N u -> rect M N v -> m_denotes prec emax u x -> m_denotes prec emax v y -> m_sub exact M N u v = Ok r -> m_sub r_ops M N u v = Ok r /\ exists s, m_sub fo M N x y = Ok s /\ m_denotes prec emax r s.
  Proof. intros. split. { eapply m_rel_lax; [eapply (rr_m_sub (exact_real Hp He)); lax_args|eassumption]. } eapply m_rel_out; [|eassumption]. eapply (rr_m_sub (exact_rel rem Hp He)); ex_args. Qed.
  Theorem C91_m_mul : forall M N u v x y r, rect M N u -> rect M N v -> m_denotes prec emax u x -> m_denotes prec emax v y -> m_mul exact M N u v = Ok r -> m_mul r_ops M N u v = Ok r /\ exists s, m_mul fo M N x y = Ok s /\ m_denotes prec emax r s.
  Proof. intros. split. { eapply m_rel_lax; [eapply (rr_m_mul (exact_real Hp He)); lax_args|eassumption]. } eapply m_rel_out; [|eassumption]. eapply (rr_m_mul (exact_rel rem Hp He)); ex_args. Qed.
  Theorem C91_m_neg : forall M N u x r, rect M N u -> m_denotes prec emax u x -> m_neg exact u = Ok r -> m_neg r_ops u = Ok r /\ exists s, m_neg fo x = Ok s /\ m_denotes prec emax r s.
  Proof. intros. split. { eapply m_rel_lax; [eapply (rr_m_neg (exact_real Hp He)); lax_args|eassumption]. } eapply m_rel_out; [|eassumption]. eapply (rr_m_neg (exact_rel rem Hp He)); ex_args. Qed.
  Theorem C91_m_smul : forall M N u v x y r, rect M N u -> m_denotes prec emax u x -> denotes prec emax v y -> m_smul exact u v = Ok r -> m_smul r_ops u v = Ok r /\ exists s, m_smul fo x y = Ok s /\ m_denotes prec emax r s.
  Proof. intros. split. { eapply m_rel_lax; [eapply (rr_m_smul (exact_real Hp He)); lax_args|eassumption]. } eapply m_rel_out; [|eassumption]. eapply (rr_m_smul (exact_rel rem Hp He)); ex_args. Qed.
  Theorem C91_m_sum : forall M N u x r, rect M N u -> m_denotes prec emax u x -> m_sum exact u = Ok r -> m_sum r_ops u = Ok r /\ exists s, m_sum fo x = Ok s /\ denotes prec emax r s.
  Proof. intros. split. { eapply s_rel_lax; [eapply (rr_m_sum (exact_real Hp He)); lax_args|eassumption]. } eapply s_rel_out; [|eassumption]. eapply (rr_m_sum (exact_rel rem Hp He)); ex_args. Qed.
  Theorem C91_m_div : forall M N u v x y r, rect M N u -> rect M N v -> m_denotes prec emax u x -> m_denotes prec emax v y -> m_div exact M N u v = Ok r -> m_div r_ops M N u v = Ok r /\ exists s, m_div fo M N x y = Ok s /\ m_denotes prec emax r s.
  Proof. intros. split. { eapply m_rel_lax; [eapply (rr_m_div (exact_real_div Hp He)); lax_args|eassumption]. } eapply m_rel_out; [|eassumption]. eapply (rr_m_div (exact_divrel rem Hp He)); ex_args. Qed.
  Theorem C91_m_sdiv : forall M N u v x y r, rect M N u -> m_denotes prec emax u x -> denotes prec emax v y -> m_sdiv exact u v = Ok r -> m_sdiv r_ops u v = Ok r /\ exists s, m_sdiv fo x y = Ok s /\ m_denotes prec emax r s.
  Proof. intros. split. { eapply m_rel_lax; [eapply (rr_m_sdiv (exact_real_div Hp He)); lax_args|eassumption]. } eapply m_rel_out; [|eassumption]. eapply (rr_m_sdiv (exact_divrel rem Hp He)); ex_args. Qed.
  Theorem C91_m_dot : forall L M N u v x y r, rect L M u -> rect M N v -> m_denotes prec emax u x -> m_denotes prec emax v y -> m_dot exact L M N u v = Ok r -> m_dot r_ops L M N u v = Ok r /\ exists s, m_dot fo L M N x y = Ok s /\ m_denotes prec emax r s.
  Proof. intros. split. { eapply m_rel_lax; [eapply (rr_m_dot (exact_real Hp He)); lax_args|eassumption]. } eapply m_rel_out; [|eassumption]. eapply (rr_m_dot (exact_rel rem Hp He)); ex_args. Qed.
  Theorem C91_m_dot_v : forall M N u v x y r, rect M N u -> length v = N -> m_denotes prec emax u x -> v_denotes prec emax v y -> m_dot_v exact M N u v = Ok r -> m_dot_v r_ops M N u v = Ok r /\ exists s, m_dot_v fo M N x y = Ok s /\ v_denotes prec emax r s.
  Proof. intros. split. { eapply v_rel_lax; [eapply (rr_m_dot_v (exact_real Hp He)); lax_args|eassumption]. } eapply v_rel_out; [|eassumption]. eapply (rr_m_dot_v (exact_rel rem Hp He)); ex_args. Qed.
  Theorem C91_v_dot_m : forall M N u v x y r, length u = M -> rect M N v -> v_denotes prec emax u x -> m_denotes prec emax v y -> v_dot_m exact M N u v = Ok r -> v_dot_m r_ops M N u v = Ok r /\ exists s, v_dot_m fo M N x y = Ok s /\ v_denotes prec emax r s.
  Proof. intros. split. { eapply v_rel_lax; [eapply (rr_v_dot_m (exact_real Hp He)); lax_args|eassumption]. } eapply v_rel_out; [|eassumption]. eapply (rr_v_dot_m (exact_rel rem Hp He)); ex_args. Qed.
  Theorem C91_m_outer : forall M N u v x y r, length u = M -> length v = N -> v_denotes prec emax u x -> v_denotes prec emax v y -> m_outer exact M N u v = Ok r -> m_outer r_ops M N u v = Ok r /\ exists s, m_outer fo M N x y = Ok s /\ m_denotes prec emax r s.
  Proof. intros. split. { eapply m_rel_lax; [eapply (rr_m_outer (exact_real Hp He)); lax_args|eassumption]. } eapply m_rel_out; [|eassumption]. eapply (rr_m_outer (exact_rel rem Hp He)); ex_args. Qed.
  Theorem C91_m_det : forall N u x r, rect N N u -> m_denotes prec emax u x -> m_det exact N u = Ok r -> m_det r_ops N u = Ok r /\ exists s, m_det fo N x = Ok s /\ denotes prec emax r s.
  Proof. intros. split. { eapply s_rel_lax; [eapply (rr_m_det (exact_real Hp He)); lax_args|eassumption]. } eapply s_rel_out; [|eassumption]. eapply (rr_m_det (exact_rel rem Hp He)); ex_args. Qed.
  Theorem C91_m_cofactor : forall N i j u x r, rect N N u -> m_denotes prec emax u x -> m_cofactor exact N u i j = Ok r -> m_cofactor r_ops N u i j = Ok r /\ exists s, m_cofactor fo N x i j = Ok s /\ denotes prec emax r s.
  Proof. intros. split. { eapply s_rel_lax; [eapply (rr_m_cofactor (exact_real Hp He)); lax_args|eassumption]. } eapply s_rel_out; [|eassumption]. eapply (rr_m_cofactor (exact_rel rem Hp He)); ex_args. Qed.
  Theorem C91_m_adj : forall N u x r, rect N N u -> m_denotes prec emax u x -> m_adj exact N u = Ok r -> m_adj r_ops N u = Ok r /\ exists s, m_adj fo N x = Ok s /\ m_denotes prec emax r s.
  Proof. intros. split. { eapply m_rel_lax; [eapply (rr_m_adj (exact_real Hp He)); lax_args|eassumption]. } eapply m_rel_out; [|eassumption]. eapply (rr_m_adj (exact_rel rem Hp He)); ex_args. Qed.
  Theorem C91_m_inv : forall N u x r, rect N N u -> m_denotes prec emax u x -> m_inv exact N u = Ok r -> m_inv r_ops N u = Ok r /\ exists s, m_inv fo N x = Ok s /\ m_denotes prec emax r s.
  Proof. intros. split. { eapply m_rel_lax; [eapply (rr_m_inv (exact_real Hp He) (exact_real_div Hp He)); lax_args|eassumption]. } eapply m_rel_out; [|eassumption]. eapply (rr_m_inv (exact_rel rem Hp He) (exact_divrel rem Hp He)); ex_args. Qed.
  Theorem C91_c_add : forall u v x y r, c_denotes prec emax u x -> c_denotes prec emax v y -> c_add exact u v = Ok r -> c_add r_ops u v = Ok r /\ exists s, c_add fo x y = Ok s /\ c_denotes prec emax r s.
  Proof. intros. split. { eapply c_rel_lax; [eapply (rr_c_add (exact_real Hp He)); lax_args|eassumption]. } eapply c_rel_out; [|eassumption]. eapply (rr_c_add (exact_rel rem Hp He)); ex_args. Qed.
  Theorem C91_c_sub : forall u v x y r, c_denotes prec emax u x -> c_denotes prec emax v y -> c_sub exact u v = Ok r -> c_sub r_ops u v = Ok r /\ exists s, c_sub fo x y = Ok s /\ c_denotes prec emax r s.
  Proof. intros. split. { eapply c_rel_lax; [eapply (rr_c_sub (exact_real Hp He)); lax_args|eassumption]. } eapply c_rel_out; [|eassumption]. eapply (rr_c_sub (exact_rel rem Hp He)); ex_args. Qed.
  Theorem C91_c_mul : forall u v x y r, c_denotes prec emax u x -> c_denotes prec emax v y -> c_mul exact u v = Ok r -> c_mul r_ops u v = Ok r /\ exists s, c_mul fo x y = Ok s /\ c_denotes prec emax r s.
  Proof. intros. split. { eapply c_rel_lax; [eapply (rr_c_mul (exact_real Hp He)); lax_args|eassumption]. } eapply c_rel_out; [|eassumption]. eapply (rr_c_mul (exact_rel rem Hp He)); ex_args. Qed.
  Theorem C91_c_neg : forall u x r, c_denotes prec emax u x -> c_neg exact u = Ok r -> c_neg r_ops u = Ok r /\ exists s, c_neg fo x = Ok s /\ c_denotes prec emax r s.
  Proof. intros. split. { eapply c_rel_lax; [eapply (rr_c_neg (exact_real Hp He)); lax_args|eassumption]. } eapply c_rel_out; [|eassumption]. eapply (rr_c_neg (exact_rel rem Hp He)); ex_args. Qed.
  Theorem C91_c_conj : forall u x r, c_denotes prec emax u x -> c_conj exact u = Ok r -> c_conj r_ops u = Ok r /\ exists s, c_conj fo x = Ok s /\ c_denotes prec emax r s.
  Proof. intros. split. { eapply c_rel_lax; [eapply (rr_c_conj (exact_real Hp He)); lax_args|eassumption]. } eapply c_rel_out; [|eassumption]. eapply (rr_c_conj (exact_rel rem Hp He)); ex_args. Qed.
  Theorem C91_c_mul_s : forall u v x y r, c_denotes prec emax u x -> denotes prec emax v y -> c_mul_s exact u v = Ok r -> c_mul_s r_ops u v = Ok r /\ exists s, c_mul_s fo x y = Ok s /\ c_denotes prec emax r s.
  Proof. intros. split. { eapply c_rel_lax; [eapply (rr_c_mul_s (exact_real Hp He)); lax_args|eassumption]. } eapply c_rel_out; [|eassumption]. eapply (rr_c_mul_s (exact_rel rem Hp He)); ex_args. Qed.
  Theorem C91_c_norm_sqr : forall u x r, c_denotes prec emax u x -> c_norm_sqr exact u = Ok r -> c_norm_sqr r_ops u = Ok r /\ exists s, c_norm_sqr fo x = Ok s /\ denotes prec emax r s.
  Proof. intros. split. { eapply s_rel_lax; [eapply (rr_c_norm_sqr (exact_real Hp He)); lax_args|eassumption]. } eapply s_rel_out; [|eassumption]. eapply (rr_c_norm_sqr (exact_rel rem Hp He)); ex_args. Qed.
  Theorem C91_c_dot : forall u v x y r, c_denotes prec emax u x -> c_denotes prec emax v y -> c_dot exact u v = Ok r -> c_dot r_ops u v = Ok r /\ exists s, c_dot fo x y = Ok s /\ denotes prec emax r s.
  Proof. intros. split. { eapply s_rel_lax; [eapply (rr_c_dot (exact_real Hp He)); lax_args|eassumption]. } eapply s_rel_out; [|eassumption]. eapply (rr_c_dot (exact_rel rem Hp He)); ex_args. Qed.
  Theorem C91_c_inv : forall u x r, c_denotes prec emax u x -> c_inv exact u = Ok r -> c_inv r_ops u = Ok r /\ exists s, c_inv fo x = Ok s /\ c_denotes prec emax r s.
  Proof. intros. split. { eapply c_rel_lax; [eapply (rr_c_inv (exact_real Hp He) (exact_real_div Hp He)); lax_args|eassumption]. } eapply c_rel_out; [|eassumption]. eapply (rr_c_inv (exact_rel rem Hp He) (exact_divrel rem Hp He)); ex_args. Qed.
  Theorem C91_c_div : forall u v x y r, c_denotes prec emax u x -> c_denotes prec emax v y -> c_div exact u v = Ok r -> c_div r_ops u v = Ok r /\ exists s, c_div fo x y = Ok s /\ c_denotes prec emax r s.
  Proof. intros. split. { eapply c_rel_lax; [eapply (rr_c_div (exact_real Hp He) (exact_real_div Hp He)); lax_args|eassumption]. } eapply c_rel_out; [|eassumption]. eapply (rr_c_div (exact_rel rem Hp He) (exact_divrel rem Hp He)); ex_args. Qed.
  Theorem C91_q_add : forall u v x y r, q_denotes prec emax u x -> q_denotes prec emax v y -> q_add exact u v = Ok r -> q_add r_ops u v = Ok r /\ exists s, q_add fo x y = Ok s /\ q_denotes prec emax r s.
  Proof. intros. split. { eapply q_rel_lax; [eapply (rr_q_add (exact_real Hp He)); lax_args|eassumption]. } eapply q_rel_out; [|eassumption]. eapply (rr_q_add (exact_rel rem Hp He)); ex_args. Qed.
  Theorem C91_q_sub : forall u v x y r, q_denotes prec emax u x -> q_denotes prec emax v y -> q_sub exact u v = Ok r -> q_sub r_ops u v = Ok r /\ exists s, q_sub fo x y = Ok s /\ q_denotes prec emax r s.
  Proof. intros. split. { eapply q_rel_lax; [eapply (rr_q_sub (exact_real Hp He)); lax_args|eassumption]. } eapply q_rel_out; [|eassumption]. eapply (rr_q_sub (exact_rel rem Hp He)); ex_args. Qed.
  Theorem C91_q_mul : forall u v x y r, q_denotes prec emax u x -> q_denotes prec emax v y -> q_mul exact u v = Ok r -> q_mul r_ops u v = Ok r /\ exists s, q_mul fo x y = Ok s /\ q_denotes prec emax r s.
  Proof. intros. split. { eapply q_rel_lax; [eapply (rr_q_mul (exact_real Hp He)); lax_args|eassumption]. } eapply q_rel_out; [|eassumption]. eapply (rr_q_mul (exact_rel rem Hp He)); ex_args. Qed.
  Theorem C91_q_neg : forall u x r, q_denotes prec emax u x -> q_neg exact u = Ok r -> q_neg r_ops u = Ok r /\ exists s, q_neg fo x = Ok s /\ q_denotes prec emax r s.
  Proof. intros. split. { eapply q_rel_lax; [eapply (rr_q_neg (exact_real Hp He)); lax_args|eassumption]. } eapply q_rel_out; [|eassumption]. eapply (rr_q_neg (exact_rel rem Hp He)); ex_args. Qed.
  Theorem C91_q_conj : forall u x r, q_denotes prec emax u x -> q_conj exact u = Ok r -> q_conj r_ops u = Ok r /\ exists s, q_conj fo x = Ok s /\ q_denotes prec emax r s.
  Proof. intros. split. { eapply q_rel_lax; [eapply (rr_q_conj (exact_real Hp He)); lax_args|eassumption]. } eapply q_rel_out; [|eassumption]. eapply (rr_q_conj (exact_rel rem Hp He)); ex_args. Qed.
  Theorem C91_q_mul_s : forall u v x y r, q_denotes prec emax u x -> denotes prec emax v y -> q_mul_s exact u v = Ok r -> q_mul_s r_ops u v = Ok r /\ exists s, q_mul_s fo x y = Ok s /\ q_denotes prec emax r s.
  Proof. intros. split. { eapply q_rel_lax; [eapply (rr_q_mul_s (exact_real Hp He)); lax_args|eassumption]. } eapply q_rel_out; [|eassumption]. eapply (rr_q_mul_s (exact_rel rem Hp He)); ex_args. Qed.
  Theorem C91_q_mul_c : forall u v x y r, q_denotes prec emax u x -> c_denotes prec emax v y -> q_mul_c exact u v = Ok r -> q_mul_c r_ops u v = Ok r /\ exists s, q_mul_c fo x y = Ok s /\ q_denotes prec emax r s.
  Proof. intros. split. { eapply q_rel_lax; [eapply (rr_q_mul_c (exact_real Hp He)); lax_args|eassumption]. } eapply q_rel_out; [|eassumption]. eapply (rr_q_mul_c (exact_rel rem Hp He)); ex_args. Qed.
  Theorem C91_c_mul_q : forall u v x y r, c_denotes prec emax u x -> q_denotes prec emax v y -> c_mul_q exact u v = Ok r -> c_mul_q r_ops u v = Ok r /\ exists s, c_mul_q fo x y = Ok s /\ q_denotes prec emax r s.
  Proof. intros. split. { eapply q_rel_lax; [eapply (rr_c_mul_q (exact_real Hp He)); lax_args|eassumption]. } eapply q_rel_out; [|eassumption]. eapply (rr_c_mul_q (exact_rel rem Hp He)); ex_args. Qed.
  Theorem C91_q_norm_sqr : forall u x r, q_denotes prec emax u x -> q_norm_sqr exact u = Ok r -> q_norm_sqr r_ops u = Ok r /\ exists s, q_norm_sqr fo x = Ok s /\ denotes prec emax r s.
  Proof. intros. split. { eapply s_rel_lax; [eapply (rr_q_norm_sqr (exact_real Hp He)); lax_args|eassumption]. } eapply s_rel_out; [|eassumption]. eapply (rr_q_norm_sqr (exact_rel rem Hp He)); ex_args. Qed.
  Theorem C91_q_dot : forall u v x y r, q_denotes prec emax u x -> q_denotes prec emax v y -> q_dot exact u v = Ok r -> q_dot r_ops u v = Ok r /\ exists s, q_dot fo x y = Ok s /\ denotes prec emax r s.
  Proof. intros. split. { eapply s_rel_lax; [eapply (rr_q_dot (exact_real Hp He)); lax_args|eassumption]. } eapply s_rel_out; [|eassumption]. eapply (rr_q_dot (exact_rel rem Hp He)); ex_args. Qed.
  Theorem C91_q_inv : forall u x r, q_denotes prec emax u x -> q_inv exact u = Ok r -> q_inv r_ops u = Ok r /\ exists s, q_inv fo x = Ok s /\ q_denotes prec emax r s.
  Proof. intros. split. { eapply q_rel_lax; [eapply (rr_q_inv (exact_real Hp He) (exact_real_div Hp He)); lax_args|eassumption]. } eapply q_rel_out; [|eassumption]. eapply (rr_q_inv (exact_rel rem Hp He) (exact_divrel rem Hp He)); ex_args. Qed.
  Theorem C91_q_div : forall u v x y r, q_denotes prec emax u x -> q_denotes prec emax v y -> q_div exact u v = Ok r -> q_div r_ops u v = Ok r /\ exists s, q_div fo x y = Ok s /\ q_denotes prec emax r s.
  Proof. intros. split. { eapply q_rel_lax; [eapply (rr_q_div (exact_real Hp He) (exact_real_div Hp He)); lax_args|eassumption]. } eapply q_rel_out; [|eassumption]. eapply (rr_q_div (exact_rel rem Hp He) (exact_divrel rem Hp He)); ex_args. Qed.
  Theorem C91_rot2_apply : forall u v x y r, length v = 2 -> c_denotes prec emax u x -> v_denotes prec emax v y -> rot2_apply exact u v = Ok r -> rot2_apply r_ops u v = Ok r /\ exists s, rot2_apply fo x y = Ok s /\ v_denotes prec emax r s.
  Proof. intros. split. { eapply v_rel_lax; [eapply (rr_rot2_apply (exact_real Hp He)); lax_args|eassumption]. } eapply v_rel_out; [|eassumption]. eapply (rr_rot2_apply (exact_rel rem Hp He)); ex_args. Qed.
  Theorem C91_rot3_apply : forall u v x y r, length v = 3 -> q_denotes prec emax u x -> v_denotes prec emax v y -> rot3_apply exact u v = Ok r -> rot3_apply r_ops u v = Ok r /\ exists s, rot3_apply fo x y = Ok s /\ v_denotes prec emax r s.
  Proof. intros. split. { eapply v_rel_lax; [eapply (rr_rot3_apply (exact_real Hp He)); lax_args|eassumption]. } eapply v_rel_out; [|eassumption]. eapply (rr_rot3_apply (exact_rel rem Hp He)); ex_args. Qed.
  Theorem C91_mo_apply_self : forall u v x y r, rect 2 2 u -> m_denotes prec emax u x -> denotes prec emax v y -> mo_apply_self exact u v = Ok r -> mo_apply_self r_ops u v = Ok r /\ exists s, mo_apply_self fo x y = Ok s /\ denotes prec emax r s.
  Proof. intros. split. { eapply s_rel_lax; [eapply (rr_mo_apply_self (exact_real Hp He) (exact_real_div Hp He)); lax_args|eassumption]. } eapply s_rel_out; [|eassumption]. eapply (rr_mo_apply_self (exact_rel rem Hp He) (exact_divrel rem Hp He)); ex_args. Qed.
End C91.

(* ------------------------------------------------------------------------- *)
(** * C92: integers that do not overflow a word of [prec + 1] bits are exact as floats *)
Section C92.
  Context (prec emax : Z) (rem : spec_float -> spec_float -> spec_float) (Hp : (0 < prec)%Z) (He : (prec < emax)%Z).
  Context (signed : bool) (w : Z) (Hw : width signed w) (Hfit : (w <= prec + if signed then 1 else 0)%Z).
  Local Notation fo := (sf_ops prec emax rem).
  Local Notation checked := (checked_ops signed w).

  Theorem C92_v_add : forall N u v x y r, length u = N -> length v = N -> v_ints prec emax u x -> v_ints prec emax v y -> v_add checked N u v = Ok r -> exists s, v_add fo N x y = Ok s /\ v_ints prec emax r s.
  Proof. intros. eapply v_rel_out with (R := fun n f => is_int prec emax f n); [|eassumption]. eapply (rr_v_add (@int_rel prec emax rem Hp He signed w Hw Hfit)); ex_args. Qed.
  Theorem C92_v_sub : forall N u v x y r, length u = N -> length v = N -> v_ints prec emax u x -> v_ints prec emax v y -> v_sub checked N u v = Ok r -> exists s, v_sub fo N x y = Ok s /\ v_ints prec emax r s.
  Proof. intros. eapply v_rel_out with (R := fun n f => is_int prec emax f n); [|eassumption]. eapply (rr_v_sub (@int_rel prec emax rem Hp He signed w Hw Hfit)); ex_args. Qed.
  Theorem C92_v_mul : forall N u v x y r, length u = N -> length v = N -> v_ints prec emax u x -> v_ints prec emax v y -> v_mul checked N u v = Ok r -> exists s, v_mul fo N x y = Ok s /\ v_ints prec emax r s.
  Proof. intros. eapply v_rel_out with (R := fun n f => is_int prec emax f n); [|eassumption]. eapply (rr_v_mul (@int_rel prec emax rem Hp He signed w Hw Hfit)); ex_args. Qed.
  Theorem C92_v_neg : forall N u x r, length u = N -> v_ints prec emax u x -> v_neg checked u = Ok r -> exists s, v_neg fo x = Ok s /\ v_ints prec emax r s.
  Proof. intros. eapply v_rel_out with (R := fun n f => is_int prec emax f n); [|eassumption]. eapply (rr_v_neg (@int_rel prec emax rem Hp He signed w Hw Hfit)); ex_args. Qed.
  Theorem C92_v_smul : forall N u v x y r, length u = N -> v_ints prec emax u x -> is_int prec emax y v -> v_smul checked u v = Ok r -> exists s, v_smul fo x y = Ok s /\ v_ints prec emax r s.
  Proof. intros. eapply v_rel_out with (R := fun n f => is_int prec emax f n); [|eassumption]. eapply (rr_v_smul (@int_rel prec emax rem Hp He signed w Hw Hfit)); ex_args. Qed.
  Theorem C92_v_sum : forall N u x r, length u = N -> v_ints prec emax u x -> v_sum checked u = Ok r -> exists s, v_sum fo x = Ok s /\ is_int prec emax s r.
  Proof. intros. eapply s_rel_out with (R := fun n f => is_int prec emax f n); [|eassumption]. eapply (rr_v_sum (@int_rel prec emax rem Hp He signed w Hw Hfit)); ex_args. Qed.
  Theorem C92_v_dot : forall N u v x y r, length u = N -> length v = N -> v_ints prec emax u x -> v_ints prec emax v y -> v_dot checked N u v = Ok r -> exists s, v_dot fo N x y = Ok s /\ is_int prec emax s r.
  Proof. intros. eapply s_rel_out with (R := fun n f => is_int prec emax f n); [|eassumption]. eapply (rr_v_dot (@int_rel prec emax rem Hp He signed w Hw Hfit)); ex_args. Qed.
  Theorem C92_v_square_length : forall N u x r, length u = N -> v_ints prec emax u x -> v_square_length checked u = Ok r -> exists s, v_square_length fo x = Ok s /\ is_int prec emax s r.
  Proof. intros. eapply s_rel_out with (R := fun n f => is_int prec emax f n); [|eassumption]. eapply (rr_v_square_length (@int_rel prec emax rem Hp He signed w Hw Hfit)); ex_args. Qed.
  Theorem C92_v_cross2 : forall u v x y r, length u = 2 -> length v = 2 -> v_ints prec emax u x -> v_ints prec emax v y -> v_cross2 checked u v = Ok r -> exists s, v_cross2 fo x y = Ok s /\ is_int prec emax s r.
  Proof. intros. eapply s_rel_out with (R := fun n f => is_int prec emax f n); [|eassumption]. eapply (rr_v_cross2 (@int_rel prec emax rem Hp He signed w Hw Hfit)); ex_args. Qed.
  Theorem C92_v_cross3 : forall u v x y r, length u = 3 -> length v = 3 -> v_ints prec emax u x -> v_ints prec emax v y -> v_cross3 checked u v = Ok r -> exists s, v_cross3 fo x y = Ok s /\ v_ints prec emax r s.
  Proof. intros. eapply v_rel_out with (R := fun n f => is_int prec emax f n); [|eassumption]. eapply (rr_v_cross3 (@int_rel prec emax rem Hp He signed w Hw Hfit)); ex_args. Qed.
  Theorem C92_v_cross4 : forall u v x y r, length u = 4 -> length v = 4 -> v_ints prec emax u x -> v_ints prec emax v y -> v_cross4 checked u v = Ok r -> exists s, v_cross4 fo x y = Ok s /\ v_ints prec emax r s.
  Proof. intros. eapply v_rel_out with (R := fun n f => is_int prec emax f n); [|eassumption]. eapply (rr_v_cross4 (@int_rel prec emax rem Hp He signed w Hw Hfit)); ex_args. Qed.
  Theorem C92_m_add : forall M N u v x y r, rect M N u -> rect M N v -> m_ints prec emax u x -> m_ints prec emax v y -> m_add checked M N u v = Ok r -> exists s, m_add fo M N x y = Ok s /\ m_ints prec emax r s.
  Proof. intros. eapply m_rel_out with (R := fun n f => is_int prec emax f n); [|eassumption]. eapply (rr_m_add (@int_rel prec emax rem Hp He signed w Hw Hfit)); ex_args. Qed.
  Theorem C92_m_sub : forall M N u v x y r, rect M N u -> rect M N v -> m_ints prec emax u x -> m_ints prec emax v y -> m_sub checked M N u v = Ok r -> exists s, m_sub fo M N x y = Ok s /\ m_ints prec emax r s.
  Proof. intros. eapply m_rel_out with (R := fun n f => is_int prec emax f n); [|eassumption]. eapply (rr_m_sub (@int_rel prec emax rem Hp He signed w Hw Hfit)); ex_args. Qed.
  Theorem C92_m_mul : forall M N u v x y r, rect M N u -> rect M N v -> m_ints prec emax u x -> m_ints prec emax v y -> m_mul checked M N u v = Ok r -> exists s, m_mul fo M N x y = Ok s /\ m_ints prec emax r s.
  Proof. intros. eapply m_rel_out with (R := fun n f => is_int prec emax f n); [|eassumption]. eapply (rr_m_mul (@int_rel prec emax rem Hp He signed w Hw Hfit)); ex_args. Qed.
  Theorem C92_m_neg : forall M N u x r, rect M N u -> m_ints prec emax u x -> m_neg checked u = Ok r -> exists s, m_neg fo x = Ok s /\ m_ints prec emax r s.
  Proof. intros. eapply m_rel_out with (R := fun n f => is_int prec emax f n); [|eassumption]. eapply (rr_m_neg (@int_rel prec emax rem Hp He signed w Hw Hfit)); ex_args. Qed.
  Theorem C92_m_smul : forall M N u v x y r, rect M N u -> m_ints prec emax u x -> is_int prec emax y v -> m_smul checked u v = Ok r -> exists s, m_smul fo x y = Ok s /\ m_ints prec emax r s.
  Proof. intros. eapply m_rel_out with (R := fun n f => is_int prec emax f n); [|eassumption]. eapply (rr_m_smul (@int_rel prec emax rem Hp He signed w Hw Hfit)); ex_args. Qed.
  Theorem C92_m_sum : forall M N u x r, rect M N u -> m_ints prec emax u x -> m_sum checked u = Ok r -> exists s, m_sum fo x = Ok s /\ is_int prec emax s r.
  Proof. intros. eapply s_rel_out with (R := fun n f => is_int prec emax f n); [|eassumption]. eapply (rr_m_sum (@int_rel prec emax rem Hp He signed w Hw Hfit)); ex_args. Qed.
  Theorem C92_m_dot : forall L M N u v x y r, rect L M u -> rect M N v -> m_ints prec emax u x -> m_ints prec emax v y -> m_dot checked L M N u v = Ok r -> exists s, m_dot fo L M N x y = Ok s /\ m_ints prec emax r s.
  Proof. intros. eapply m_rel_out with (R := fun n f => is_int prec emax f n); [|eassumption]. eapply (rr_m_dot (@int_rel prec emax rem Hp He signed w Hw Hfit)); ex_args. Qed.
  Theorem C92_m_dot_v : forall M N u v x y r, rect M N u -> length v = N -> m_ints prec emax u x -> v_ints prec emax v y -> m_dot_v checked M N u v = Ok r -> exists s, m_dot_v fo M N x y = Ok s /\ v_ints prec emax r s.
  Proof. intros. eapply v_rel_out with (R := fun n f => is_int prec emax f n); [|eassumption]. eapply (rr_m_dot_v (@int_rel prec emax rem Hp He signed w Hw Hfit)); ex_args. Qed.
  Theorem C92_v_dot_m : forall M N u v x y r, length u = M -> rect M N v -> v_ints prec emax u x -> m_ints prec emax v y -> v_dot_m checked M N u v = Ok r -> exists s, v_dot_m fo M N x y = Ok s /\ v_ints prec emax r s.
  Proof. intros. eapply v_rel_out with (R := fun n f => is_int prec emax f n); [|eassumption]. eapply (rr_v_dot_m (@int_rel prec emax rem Hp He signed w Hw Hfit)); ex_args. Qed.
  Theorem C92_m_outer : forall M N u v x y r, length u = M -> length v = N -> v_ints prec emax u x -> v_ints prec emax v y -> m_outer checked M N u v = Ok r -> exists s, m_outer fo M N x y = Ok s /\ m_ints prec emax r s.
  Proof. intros. eapply m_rel_out with (R := fun n f => is_int prec emax f n); [|eassumption]. eapply (rr_m_outer (@int_rel prec emax rem Hp He signed w Hw Hfit)); ex_args. Qed.
  Theorem C92_m_det : forall N u x r, rect N N u -> m_ints prec emax u x -> m_det checked N u = Ok r -> exists s, m_det fo N x = Ok s /\ is_int prec emax s r.
  Proof. intros. eapply s_rel_out with (R := fun n f => is_int prec emax f n); [|eassumption]. eapply (rr_m_det (@int_rel prec emax rem Hp He signed w Hw Hfit)); ex_args. Qed.
  Theorem C92_m_cofactor : forall N i j u x r, rect N N u -> m_ints prec emax u x -> m_cofactor checked N u i j = Ok r -> exists s, m_cofactor fo N x i j = Ok s /\ is_int prec emax s r.
  Proof. intros. eapply s_rel_out with (R := fun n f => is_int prec emax f n); [|eassumption]. eapply (rr_m_cofactor (@int_rel prec emax rem Hp He signed w Hw Hfit)); ex_args. Qed.
  Theorem C92_m_adj : forall N u x r, rect N N u -> m_ints prec emax u x -> m_adj checked N u = Ok r -> exists s, m_adj fo N x = Ok s /\ m_ints prec emax r s.
  Proof. intros. eapply m_rel_out with (R := fun n f => is_int prec emax f n); [|eassumption]. eapply (rr_m_adj (@int_rel prec emax rem Hp He signed w Hw Hfit)); ex_args. Qed.
  Theorem C92_c_add : forall u v x y r, c_ints prec emax u x -> c_ints prec emax v y -> c_add checked u v = Ok r -> exists s, c_add fo x y = Ok s /\ c_ints prec emax r s.
  Proof. intros. eapply c_rel_out with (R := fun n f => is_int prec emax f n); [|eassumption]. eapply (rr_c_add (@int_rel prec emax rem Hp He signed w Hw Hfit)); ex_args. Qed.
  Theorem C92_c_sub : forall u v x y r, c_ints prec emax u x -> c_ints prec emax v y -> c_sub checked u v = Ok r -> exists s, c_sub fo x y = Ok s /\ c_ints prec emax r s.
  Proof. intros. eapply c_rel_out with (R := fun n f => is_int prec emax f n); [|eassumption]. eapply (rr_c_sub (@int_rel prec emax rem Hp He signed w Hw Hfit)); ex_args. Qed.
  Theorem C92_c_mul : forall u v x y r, c_ints prec emax u x -> c_ints prec emax v y -> c_mul checked u v = Ok r -> exists s, c_mul fo x y = Ok s /\ c_ints prec emax r s.
  Proof. intros. eapply c_rel_out with (R := fun n f => is_int prec emax f n); [|eassumption]. eapply (rr_c_mul (@int_rel prec emax rem Hp He signed w Hw Hfit)); ex_args. Qed.
  Theorem C92_c_neg : forall u x r, c_ints prec emax u x -> c_neg checked u = Ok r -> exists s, c_neg fo x = Ok s /\ c_ints prec emax r s.
  Proof. intros. eapply c_rel_out with (R := fun n f => is_int prec emax f n); [|eassumption]. eapply (rr_c_neg (@int_rel prec emax rem Hp He signed w Hw Hfit)); ex_args. Qed.
  Theorem C92_c_conj : forall u x r, c_ints prec emax u x -> c_conj checked u = Ok r -> exists s, c_conj fo x = Ok s /\ c_ints prec emax r s.
  Proof. intros. eapply c_rel_out with (R := fun n f => is_int prec emax f n); [|eassumption]. eapply (rr_c_conj (@int_rel prec emax rem Hp He signed w Hw Hfit)); ex_args. Qed.
  Theorem C92_c_mul_s : forall u v x y r, c_ints prec emax u x -> is_int prec emax y v -> c_mul_s checked u v = Ok r -> exists s, c_mul_s fo x y = Ok s /\ c_ints prec emax r s.
  Proof. intros. eapply c_rel_out with (R := fun n f => is_int prec emax f n); [|eassumption]. eapply (rr_c_mul_s (@int_rel prec emax rem Hp He signed w Hw Hfit)); ex_args. Qed.
  Theorem C92_c_norm_sqr : forall u x r, c_ints prec emax u x -> c_norm_sqr checked u = Ok r -> exists s, c_norm_sqr fo x = Ok s /\ is_int prec emax s r.
  Proof. intros. eapply s_rel_out with (R := fun n f => is_int prec emax f n); [|eassumption]. eapply (rr_c_norm_sqr (@int_rel prec emax rem Hp He signed w Hw Hfit)); ex_args. Qed.
  Theorem C92_c_dot : forall u v x y r, c_ints prec emax u x -> c_ints prec emax v y -> c_dot checked u v = Ok r -> exists s, c_dot fo x y = Ok s /\ is_int prec emax s r.
  Proof. intros. eapply s_rel_out with (R := fun n f => is_int prec emax f n); [|eassumption]. eapply (rr_c_dot (@int_rel prec emax rem Hp He signed w Hw Hfit)); ex_args. Qed.
  Theorem C92_q_add : forall u v x y r, q_ints prec emax u x -> q_ints prec emax v y -> q_add checked u v = Ok r -> exists s, q_add fo x y = Ok s /\ q_ints prec emax r s.
  Proof. intros. eapply q_rel_out with (R := fun n f => is_int prec emax f n); [|eassumption]. eapply (rr_q_add (@int_rel prec emax rem Hp He signed w Hw Hfit)); ex_args. Qed.
  Theorem C92_q_sub : forall u v x y r, q_ints prec emax u x -> q_ints prec emax v y -> q_sub checked u v = Ok r -> exists s, q_sub fo x y = Ok s /\ q_ints prec emax r s.
  Proof. intros. eapply q_rel_out with (R := fun n f => is_int prec emax f n); [|eassumption]. eapply (rr_q_sub (@int_rel prec emax rem Hp He signed w Hw Hfit)); ex_args. Qed.
  Theorem C92_q_mul : forall u v x y r, q_ints prec emax u x -> q_ints prec emax v y -> q_mul checked u v = Ok r -> exists s, q_mul fo x y = Ok s /\ q_ints prec emax r s.
  Proof. intros. eapply q_rel_out with (R := fun n f => is_int prec emax f n); [|eassumption]. eapply (rr_q_mul (@int_rel prec emax rem Hp He signed w Hw Hfit)); ex_args. Qed.
  Theorem C92_q_neg : forall u x r, q_ints prec emax u x -> q_neg checked u = Ok r -> exists s, q_neg fo x = Ok s /\ q_ints prec emax r s.
  Proof. intros. eapply q_rel_out with (R := fun n f => is_int prec emax f n); [|eassumption]. eapply (rr_q_neg (@int_rel prec emax rem Hp He signed w Hw Hfit)); ex_args. Qed.
  Theorem C92_q_conj : forall u x r, q_ints prec emax u x -> q_conj checked u = Ok r -> exists s, q_conj fo x = Ok s /\ q_ints prec emax r s.
  Proof. intros. eapply q_rel_out with (R := fun n f => is_int prec emax f n); [|eassumption]. eapply (rr_q_conj (@int_rel prec emax rem Hp He signed w Hw Hfit)); ex_args. Qed.
  Theorem C92_q_mul_s : forall u v x y r, q_ints prec emax u x -> is_int prec emax y v -> q_mul_s checked u v = Ok r -> exists s, q_mul_s fo x y = Ok s /\ q_ints prec emax r s.
  Proof. intros. eapply q_rel_out with (R := fun n f => is_int prec emax f n); [|eassumption]. eapply (rr_q_mul_s (@int_rel prec emax rem Hp He signed w Hw Hfit)); ex_args. Qed.
  Theorem C92_q_mul_c : forall u v x y r, q_ints prec emax u x -> c_ints prec emax v y -> q_mul_c checked u v = Ok r -> exists s, q_mul_c fo x y = Ok s /\ q_ints prec emax r s.
  Proof. intros. eapply q_rel_out with (R := fun n f => is_int prec emax f n); [|eassumption]. eapply (rr_q_mul_c (@int_rel prec emax rem Hp He signed w Hw Hfit)); ex_args. Qed.
  Theorem C92_c_mul_q : forall u v x y r, c_ints prec emax u x -> q_ints prec emax v y -> c_mul_q checked u v = Ok r -> exists s, c_mul_q fo x y = Ok s /\ q_ints prec emax r s.
  Proof. intros. eapply q_rel_out with (R := fun n f => is_int prec emax f n); [|eassumption]. eapply (rr_c_mul_q (@int_rel prec emax rem Hp He signed w Hw Hfit)); ex_args. Qed.
  Theorem C92_q_norm_sqr : forall u x r, q_ints prec emax u x -> q_norm_sqr checked u = Ok r -> exists s, q_norm_sqr fo x = Ok s /\ is_int prec emax s r.
  Proof. intros. eapply s_rel_out with (R := fun n f => is_int prec emax f n); [|eassumption]. eapply (rr_q_norm_sqr (@int_rel prec emax rem Hp He signed w Hw Hfit)); ex_args. Qed.
  Theorem C92_q_dot : forall u v x y r, q_ints prec emax u x -> q_ints prec emax v y -> q_dot checked u v = Ok r -> exists s, q_dot fo x y = Ok s /\ is_int prec emax s r.
  Proof. intros. eapply s_rel_out with (R := fun n f => is_int prec emax f n); [|eassumption]. eapply (rr_q_dot (@int_rel prec emax rem Hp He signed w Hw Hfit)); ex_args. Qed.
  Theorem C92_rot2_apply : forall u v x y r, length v = 2 -> c_ints prec emax u x -> v_ints prec emax v y -> rot2_apply checked u v = Ok r -> exists s, rot2_apply fo x y = Ok s /\ v_ints prec emax r s.
  Proof. intros. eapply v_rel_out with (R := fun n f => is_int prec emax f n); [|eassumption]. eapply (rr_rot2_apply (@int_rel prec emax rem Hp He signed w Hw Hfit)); ex_args. Qed.
  Theorem C92_rot3_apply : forall u v x y r, length v = 3 -> q_ints prec emax u x -> v_ints prec emax v y -> rot3_apply checked u v = Ok r -> exists s, rot3_apply fo x y = Ok s /\ v_ints prec emax r s.
  Proof. intros. eapply v_rel_out with (R := fun n f => is_int prec emax f n); [|eassumption]. eapply (rr_rot3_apply (@int_rel prec emax rem Hp He signed w Hw Hfit)); ex_args. Qed.
End C92.

(* ------------------------------------------------------------------------- *)
(** * Non-trivial cases                                                        *)
(** An i32 determinant that does not overflow is the f64 determinant: |3 5; 7 -2| = -41. *)
Example C92_ex : exists s, m_det (sf_ops 53 1024 (fun x _ => x)) 2 [[f64_3; f64_5]; [f64_7; f64_m2]] = Ok s /\ is_int 53 1024 s (-41).
Proof.
  destruct int_3_5_7 as (I3 & I5 & I7 & I2).
  apply (@C92_m_det 53 1024 (fun x _ => x) eq_refl eq_refl true 32) with (u := [[3; 5]; [7; -2]]%Z).
  - cbn. lia.
  - cbn. lia.
  - split; repeat constructor.
  - repeat (apply Forall2_cons || apply Forall2_nil || assumption).
  - vm_compute. reflexivity.
Qed.
(** f64 represents the numbers 1/2, 3/2 and 3/4, so that 1/2 * 3/2 is computed exactly. *)
Lemma dyadic : forall m e, valid_binary 53 1024 (S754_finite false m e) = true -> representable 53 1024 (IZR (Z.pos m) * powerRZ 2 e).
Proof. intros m e V. exists (S754_finite false m e). split; auto. split; auto. unfold value. ring. Qed.
Local Open Scope R_scope.
Lemma p2_53 : powerRZ 2 (-53) = / 9007199254740992.
Proof. unfold powerRZ. rewrite pow_IZR. (match goal with |- / IZR ?b = _ => let v := eval vm_compute in b in replace b with v by (vm_compute; reflexivity) end). reflexivity. Qed.
Example C91_ex : forall Hp He, v_mul (@exact_ops 53 1024 Hp He) 2 [/ 2; 3 / 2] [3 / 2; / 2] = Ok [3 / 4; 3 / 4] /\
  (exists x y, v_denotes 53 1024 [/ 2; 3 / 2] x /\ v_denotes 53 1024 [3 / 2; / 2] y).
Proof.
  intros Hp He.
  assert (A : representable 53 1024 (/ 2)). { pose proof (@dyadic 4503599627370496 (-53) eq_refl) as H. rewrite p2_53 in H. replace (/ 2) with (4503599627370496 * / 9007199254740992) by lra. exact H. }
  assert (B : representable 53 1024 (3 / 2)). { pose proof (@dyadic 6755399441055744 (-52) eq_refl) as H. replace (powerRZ 2 (-52)) with (2 * powerRZ 2 (-53)) in H. 2: { replace (-52)%Z with (1 + -53)%Z by lia. rewrite powerRZ_add by lra. rewrite powerRZ_1. reflexivity. } rewrite p2_53 in H. replace (3 / 2) with (6755399441055744 * (2 * / 9007199254740992)) by lra. exact H. }
  assert (C : representable 53 1024 (3 / 4)). { pose proof (@dyadic 6755399441055744 (-53) eq_refl) as H. rewrite p2_53 in H. replace (3 / 4) with (6755399441055744 * / 9007199254740992) by lra. exact H. }
  split.
  - assert (E : forall x y, x * y = 3 / 4 -> (if representable_dec Hp He (x * y) then Ok (x * y) else Panic) = Ok (3 / 4)). { intros x y ->. destruct (representable_dec Hp He (3 / 4)); [reflexivity|contradiction]. }
    unfold v_mul. cbn [o_mul exact_ops]. unfold v_zip_map. cbn. unfold exactly. rewrite v_map_res. cbn [map_res]. rewrite !E by lra. reflexivity.
  - destruct A as (a & A), B as (b & B). exists [a; b], [b; a]. split; repeat (apply Forall2_cons || apply Forall2_nil || assumption).
Qed.

Print Assumptions C91_v_add.
Print Assumptions C91_v_sub.
Print Assumptions C91_v_mul.
Print Assumptions C91_v_neg.
Print Assumptions C91_v_smul.
Print Assumptions C91_v_sum.
Print Assumptions C91_v_dot.
Print Assumptions C91_v_square_length.
Print Assumptions C91_v_cross2.
Print Assumptions C91_v_cross3.
Print Assumptions C91_v_cross4.
Print Assumptions C91_v_div.
Print Assumptions C91_v_sdiv.
Print Assumptions C91_m_add.
Print Assumptions C91_m_sub.
Print Assumptions C91_m_mul.
Print Assumptions C91_m_neg.
Print Assumptions C91_m_smul.
Print Assumptions C91_m_sum.
Print Assumptions C91_m_div.
Print Assumptions C91_m_sdiv.
Print Assumptions C91_m_dot.
Print Assumptions C91_m_dot_v.
Print Assumptions C91_v_dot_m.
Print Assumptions C91_m_outer.
Print Assumptions C91_m_det.
Print Assumptions C91_m_cofactor.
Print Assumptions C91_m_adj.
Print Assumptions C91_m_inv.
Print Assumptions C91_c_add.
Print Assumptions C91_c_sub.
Print Assumptions C91_c_mul.
Print Assumptions C91_c_neg.
Print Assumptions C91_c_conj.
Print Assumptions C91_c_mul_s.
Print Assumptions C91_c_norm_sqr.
Print Assumptions C91_c_dot.
Print Assumptions C91_c_inv.
Print Assumptions C91_c_div.
Print Assumptions C91_q_add.
Print Assumptions C91_q_sub.
Print Assumptions C91_q_mul.
Print Assumptions C91_q_neg.
Print Assumptions C91_q_conj.
Print Assumptions C91_q_mul_s.
Print Assumptions C91_q_mul_c.
Print Assumptions C91_c_mul_q.
Print Assumptions C91_q_norm_sqr.
Print Assumptions C91_q_dot.
Print Assumptions C91_q_inv.
Print Assumptions C91_q_div.
Print Assumptions C91_rot2_apply.
Print Assumptions C91_rot3_apply.
Print Assumptions C91_mo_apply_self.
Print Assumptions C92_v_add.
Print Assumptions C92_v_sub.
Print Assumptions C92_v_mul.
Print Assumptions C92_v_neg.
Print Assumptions C92_v_smul.
Print Assumptions C92_v_sum.
Print Assumptions C92_v_dot.
Print Assumptions C92_v_square_length.
Print Assumptions C92_v_cross2.
Print Assumptions C92_v_cross3.
Print Assumptions C92_v_cross4.
Print Assumptions C92_m_add.
Print Assumptions C92_m_sub.
Print Assumptions C92_m_mul.
Print Assumptions C92_m_neg.
Print Assumptions C92_m_smul.
Print Assumptions C92_m_sum.
Print Assumptions C92_m_dot.
Print Assumptions C92_m_dot_v.
Print Assumptions C92_v_dot_m.
Print Assumptions C92_m_outer.
Print Assumptions C92_m_det.
Print Assumptions C92_m_cofactor.
Print Assumptions C92_m_adj.
Print Assumptions C92_c_add.
Print Assumptions C92_c_sub.
Print Assumptions C92_c_mul.
Print Assumptions C92_c_neg.
Print Assumptions C92_c_conj.
Print Assumptions C92_c_mul_s.
Print Assumptions C92_c_norm_sqr.
Print Assumptions C92_c_dot.
Print Assumptions C92_q_add.
Print Assumptions C92_q_sub.
Print Assumptions C92_q_mul.
Print Assumptions C92_q_neg.
Print Assumptions C92_q_conj.
Print Assumptions C92_q_mul_s.
Print Assumptions C92_q_mul_c.
Print Assumptions C92_c_mul_q.
Print Assumptions C92_q_norm_sqr.
Print Assumptions C92_q_dot.
Print Assumptions C92_rot2_apply.
Print Assumptions C92_rot3_apply.
