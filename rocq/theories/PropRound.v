(** C74: rounding errors of sums, dot products, lengths and matrix products in IEEE arithmetic of any precision
    and exponent range; C78: exactness on small integers.  The hypotheses are about the floats themselves:
    well formed inputs and a finite result (which excludes overflow, infinities and NaN anywhere). *)
From Coq Require Import ZArith Reals Lra Lia Psatz SpecFloat.
From Verif Require Import SpecFacts VFacts VecProofs MFacts MatProofs AlgFacts ComplexModel FloatInst PropFloat SpecRound FlocqFacts.
Set Implicit Arguments.
Local Open Scope nat_scope.
Local Open Scope list_scope.

Section Fs.
  Local Open Scope R_scope.
  Lemma rsum_ext : forall n f g, (forall i, (i < n)%nat -> f i = g i) -> rsum n f = rsum n g.
  Proof. induction n; intros f g H; cbn; auto. rewrite (IHn f g), H; auto. Qed.
  Lemma rsum_le : forall n f g, (forall i, (i < n)%nat -> f i <= g i) -> rsum n f <= rsum n g.
  Proof. induction n; intros f g H; cbn; [lra|]. assert (f n <= g n) by auto. assert (rsum n f <= rsum n g) by auto. lra. Qed.
  Lemma rsum_0 : forall n f, (forall i, (i < n)%nat -> 0 <= f i) -> 0 <= rsum n f.
  Proof. induction n; intros f H; cbn; [lra|]. assert (0 <= f n) by auto. assert (0 <= rsum n f) by auto. lra. Qed.
  Lemma rsum_abs : forall n f, Rabs (rsum n f) <= rsum n (fun i => Rabs (f i)).
  Proof. induction n; intros f; cbn; [rewrite Rabs_R0; lra|]. eapply Rle_trans; [apply Rabs_triang|]. specialize (IHn f). lra. Qed.
  Lemma rsum_sub : forall n f g, rsum n f - rsum n g = rsum n (fun i => f i - g i).
  Proof. induction n; intros f g; cbn; [lra|]. rewrite <- IHn. ring. Qed.
  Lemma rsum_lin : forall n f a b, rsum n (fun i => a * f i + b) = a * rsum n f + INR n * b.
  Proof. induction n; intros f a b; [cbn; ring|]. rewrite S_INR. cbn [rsum]. rewrite IHn. ring. Qed.
  Lemma pow1u : forall u k, 0 < u -> 1 <= (1 + u) ^ k.
  Proof. intros u k H. apply pow_R1_Rle. lra. Qed.
End Fs.

Section C74.
  Local Open Scope R_scope.
  Context (prec emax : Z) (rem : spec_float -> spec_float -> spec_float) (Hp : (0 < prec)%Z) (He : (prec < emax)%Z).
  Local Notation fo := (sf_ops prec emax rem).
  Local Notation valid x := (valid_binary prec emax x = true).
  Local Notation u := (roundoff prec).
  Local Notation eta := (half_tiny prec emax).
  Local Notation mul := (SFmul prec emax).
  Local Notation add := (SFadd prec emax).

  Fixpoint fs (k : nat) (f : nat -> spec_float) : spec_float := match k with O => f O | S j => add (fs j f) (f k) end.
  Lemma v_sum_fs : forall k f, v_sum fo (vk (S k) f) = Ok (fs k f).
  Proof.
    intros k f. rewrite vk_S. unfold v_sum. rewrite v_fold_first_cons. change (o_add fo) with (ok2 add). rewrite fold_res_ok2. f_equal.
    induction k as [|k IH]; [reflexivity|]. rewrite vk_snoc, fold_left_app, IH. reflexivity.
  Qed.
  Lemma v_dot_fs : forall k f g, v_dot fo (S k) (vk (S k) f) (vk (S k) g) = Ok (fs k (fun i => mul (f i) (g i))).
  Proof.
    intros. unfold v_dot. rewrite (v_zip_map_vk (o_mul fo) f g (fun i => mul (f i) (g i))) by reflexivity. cbn [bind]. apply v_sum_fs.
  Qed.
  Lemma v_sq_fs : forall k f, v_square_length fo (vk (S k) f) = Ok (fs k (fun i => mul (f i) (f i))).
  Proof.
    intros. unfold v_square_length. rewrite (v_map_vk (fun x => o_mul fo x x) (fun i => mul (f i) (f i)) f) by reflexivity. cbn [bind]. apply v_sum_fs.
  Qed.
  Lemma fs_valid : forall k f, (forall i, (i <= k)%nat -> valid (f i)) -> valid (fs k f).
  Proof. induction k as [|k IH]; intros f H; cbn [fs]; auto. apply add_valid; auto. Qed.
  Lemma fs_fin : forall k f, finite (fs k f) = true -> forall i, (i <= k)%nat -> finite (f i) = true.
  Proof.
    induction k as [|k IH]; intros f F i Hi; cbn [fs] in F. { replace i with 0%nat by lia. auto. }
    apply add_fin in F as (F1 & F2). destruct (Nat.eq_dec i (S k)) as [->|]; auto. apply IH; auto. lia.
  Qed.
  Lemma fs_err : forall k f, (forall i, (i <= k)%nat -> valid (f i)) -> finite (fs k f) = true ->
    Rabs (value (fs k f) - rsum (S k) (fun i => value (f i))) <= ((1 + u) ^ k - 1) * rsum (S k) (fun i => Rabs (value (f i))).
  Proof.
    induction k as [|k IH]; intros f Hv F.
    - cbn. replace (value (f 0%nat) - (0 + value (f 0%nat))) with 0 by ring. rewrite Rabs_R0. lra.
    - cbn [fs] in F |- *. pose proof (proj1 (add_fin _ _ _ _ F)) as F1. specialize (IH f ltac:(auto) F1).
      destruct (add_err Hp He _ _ (@fs_valid k f ltac:(auto)) (Hv (S k) ltac:(auto)) F) as (d & Hd & E). rewrite E.
      change (rsum (S (S k)) ?g) with (rsum (S k) g + g (S k)). cbn beta.
      pose proof (rsum_abs (S k) (fun i => value (f i))) as HA. set (S0 := rsum (S k) (fun i => value (f i))) in *. set (A := rsum (S k) (fun i => Rabs (value (f i)))) in *.
      set (s := value (fs k f)) in *. set (x := value (f (S k))) in *. pose proof (@pow1u u k (u_pos prec)) as HG. change ((1 + u) ^ S k) with ((1 + u) * (1 + u) ^ k).
      set (g := (1 + u) ^ k) in *. pose proof (u_pos prec) as Hu. clearbody S0 A s x g. pose proof (Rabs_pos S0). pose proof (Rabs_pos x).
      replace ((s + x) * (1 + d) - (S0 + x)) with ((s - S0) * (1 + d) + d * (S0 + x)) by ring.
      eapply Rle_trans; [apply Rabs_triang|]. rewrite !Rabs_mult.
      assert (K1 : Rabs (1 + d) <= 1 + u). { eapply Rle_trans; [apply Rabs_triang|]. rewrite Rabs_R1. lra. }
      pose proof (Rabs_triang S0 x) as K2. pose proof (Rabs_pos (s - S0)). pose proof (Rabs_pos (1 + d)). pose proof (Rabs_pos d). pose proof (Rabs_pos (S0 + x)).
      assert (K3 : Rabs (s - S0) * Rabs (1 + d) <= (g - 1) * A * (1 + u)) by (apply Rmult_le_compat; lra).
      assert (K4 : Rabs d * Rabs (S0 + x) <= u * (A + Rabs x)) by (apply Rmult_le_compat; lra).
      assert (K5 : 0 <= (g - 1) * Rabs x) by (apply Rmult_le_pos; lra).
      assert (K6 : 0 <= u * (g - 1) * Rabs x) by (apply Rmult_le_pos; [apply Rmult_le_pos|]; lra).
      nra.
  Qed.
  (* products with error at most u |ab| + t each *)
  Lemma fs_dot_err : forall k f g t, 0 <= t -> (forall i, (i <= k)%nat -> valid (f i)) -> (forall i, (i <= k)%nat -> valid (g i)) ->
    finite (fs k (fun i => mul (f i) (g i))) = true ->
    (forall i, (i <= k)%nat -> Rabs (value (mul (f i) (g i)) - value (f i) * value (g i)) <= u * Rabs (value (f i) * value (g i)) + t) ->
    Rabs (value (fs k (fun i => mul (f i) (g i))) - rsum (S k) (fun i => value (f i) * value (g i))) <=
      ((1 + u) ^ S k - 1) * rsum (S k) (fun i => Rabs (value (f i) * value (g i))) + INR (S k) * (1 + u) ^ k * t.
  Proof.
    intros k f g t Ht Vf Vg F Hm. pose proof (@fs_err k (fun i => mul (f i) (g i)) ltac:(intros; apply mul_valid; auto) F) as H. cbn beta in H.
    set (P := fun i => value (mul (f i) (g i))) in *. set (Q := fun i => value (f i) * value (g i)) in *.
    change (rsum (S k) (fun i => value (mul (f i) (g i)))) with (rsum (S k) P) in H.
    change (rsum (S k) (fun i => Rabs (value (mul (f i) (g i))))) with (rsum (S k) (fun i => Rabs (P i))) in H.
    assert (H1 : Rabs (rsum (S k) P - rsum (S k) Q) <= u * rsum (S k) (fun i => Rabs (Q i)) + INR (S k) * t).
    { rewrite rsum_sub. eapply Rle_trans; [apply rsum_abs|]. rewrite <- rsum_lin. apply rsum_le. intros i Hi. apply Hm. lia. }
    assert (H2 : rsum (S k) (fun i => Rabs (P i)) <= (1 + u) * rsum (S k) (fun i => Rabs (Q i)) + INR (S k) * t).
    { rewrite <- rsum_lin. apply rsum_le. intros i Hi. specialize (Hm i ltac:(lia)). fold (P i) (Q i) in Hm.
      replace (P i) with (Q i + (P i - Q i)) by ring. eapply Rle_trans; [apply Rabs_triang|]. lra. }
    change (rsum (S k) (fun i => Rabs (value (f i) * value (g i)))) with (rsum (S k) (fun i => Rabs (Q i))).
    set (A := rsum (S k) (fun i => Rabs (Q i))) in *. set (SP := rsum (S k) P) in *. set (SQ := rsum (S k) Q) in *. set (AP := rsum (S k) (fun i => Rabs (P i))) in *.
    replace (value (fs k (fun i => mul (f i) (g i))) - SQ) with ((value (fs k (fun i => mul (f i) (g i))) - SP) + (SP - SQ)) by ring.
    eapply Rle_trans; [apply Rabs_triang|]. change ((1 + u) ^ S k) with ((1 + u) * (1 + u) ^ k). pose proof (@pow1u u k (u_pos prec)) as HG. set (G := (1 + u) ^ k) in *.
    assert (H3 : (G - 1) * AP <= (G - 1) * ((1 + u) * A + INR (S k) * t)) by (apply Rmult_le_compat_l; lra).
    clearbody A SP SQ AP G. replace (((1 + u) * G - 1) * A + INR (S k) * G * t) with ((G - 1) * ((1 + u) * A + INR (S k) * t) + (u * A + INR (S k) * t)) by ring.
    eapply Rle_trans; [apply Rplus_le_compat; [exact H|exact H1]|]. apply Rplus_le_compat_r. exact H3.
  Qed.
  Lemma mul_close : forall x y, valid x -> valid y -> finite (mul x y) = true ->
    Rabs (value (mul x y) - value x * value y) <= u * Rabs (value x * value y) + eta.
  Proof.
    intros x y Vx Vy F. destruct (mul_err Hp He x y Vx Vy F) as (d & h & Hd & Hh & E & _). rewrite E.
    replace (value x * value y * (1 + d) + h - value x * value y) with (d * (value x * value y) + h) by ring.
    eapply Rle_trans; [apply Rabs_triang|]. rewrite Rabs_mult. pose proof (Rabs_pos (value x * value y)). nra.
  Qed.
  Lemma mul_close_normal : forall x y, valid x -> valid y -> finite (mul x y) = true ->
    value x * value y = 0 \/ min_normal emax <= Rabs (value x * value y) ->
    Rabs (value (mul x y) - value x * value y) <= u * Rabs (value x * value y) + 0.
  Proof.
    intros x y Vx Vy F N. destruct (mul_err Hp He x y Vx Vy F) as (d & h & Hd & Hh & E & Hn). rewrite E, (Hn N).
    replace (value x * value y * (1 + d) + 0 - value x * value y) with (d * (value x * value y)) by ring.
    rewrite Rabs_mult. pose proof (Rabs_pos (value x * value y)). nra.
  Qed.

  Lemma vval_vk : forall N f i, (i < N)%nat -> vval (vk N f) i = value (f i).
  Proof. intros. unfold vval. rewrite nth_vk by auto. reflexivity. Qed.
  Lemma mval_mk : forall M N f i j, (i < M)%nat -> (j < N)%nat -> mval (mk M N f) i j = value (f i j).
  Proof. intros. unfold mval, mk. rewrite nth_vk by auto. apply vval_vk. auto. Qed.
  Lemma Forall_vk : forall A (P : A -> Prop) N f, Forall P (vk N f) <-> forall i, (i < N)%nat -> P (f i).
  Proof.
    intros A P N f. unfold vk. rewrite Forall_map, Forall_forall. split.
    - intros H i Hi. apply H, in_seq. lia.
    - intros H i Hi. apply in_seq in Hi. apply H. lia.
  Qed.
  Lemma Forall_mk : forall A (P : A -> Prop) M N f, Forall (Forall P) (mk M N f) <-> forall i j, (i < M)%nat -> (j < N)%nat -> P (f i j).
  Proof.
    intros A P M N f. unfold mk. rewrite Forall_vk. split.
    - intros H i j Hi. apply Forall_vk. auto.
    - intros H i Hi. apply Forall_vk. auto.
  Qed.

  (** Sum: at most (1+u)^(N-1) - 1 times the sum of the absolute values. *)
  Theorem C74_sum : forall N v s, length v = N -> Forall (fun x => valid x) v -> v_sum fo v = Ok s -> finite s = true ->
    Rabs (value s - rsum N (vval v)) <= ((1 + u) ^ (N - 1) - 1) * rsum N (fun i => Rabs (vval v i)).
  Proof.
    intros N v s Hv V E F. asfun (sf_ops prec emax rem). rewrite Forall_vk in V. destruct N as [|k]; [discriminate E|]. rewrite v_sum_fs in E. apply Ok_inj in E. subst s.
    pose proof (@fs_err k f ltac:(intros; apply V; lia) F) as H. rewrite Nat.sub_succ, Nat.sub_0_r.
    rewrite (@rsum_ext (S k) (vval (vk (S k) f)) (fun i => value (f i))) by (intros; apply vval_vk; auto).
    rewrite (@rsum_ext (S k) (fun i => Rabs (vval (vk (S k) f) i)) (fun i => Rabs (value (f i)))) by (intros; rewrite vval_vk; auto). exact H.
  Qed.
  (** Dot product, with the term for underflowing products. *)
  Theorem C74_dot : forall N a b d, length a = N -> length b = N -> Forall (fun x => valid x) a -> Forall (fun x => valid x) b ->
    v_dot fo N a b = Ok d -> finite d = true ->
    Rabs (value d - rsum N (fun i => vval a i * vval b i)) <=
      ((1 + u) ^ N - 1) * rsum N (fun i => Rabs (vval a i * vval b i)) + INR N * (1 + u) ^ (N - 1) * eta.
  Proof.
    intros N a b d Ha Hb Va Vb E F. asfun (sf_ops prec emax rem). rewrite Forall_vk in Va, Vb. destruct N as [|k]; [discriminate E|].
    rewrite v_dot_fs in E. apply Ok_inj in E. subst d. rewrite Nat.sub_succ, Nat.sub_0_r.
    rewrite (@rsum_ext (S k) _ (fun i => value (f0 i) * value (f i))) by (intros; rewrite !vval_vk; auto).
    rewrite (@rsum_ext (S k) (fun i => Rabs _) (fun i => Rabs (value (f0 i) * value (f i)))) by (intros; rewrite !vval_vk; auto).
    apply fs_dot_err; auto; try (intros; first [apply Va|apply Vb]; lia). { pose proof (eta_pos prec emax). lra. }
    intros i Hi. apply mul_close; try first [apply Va; lia|apply Vb; lia]. apply (@fs_fin k (fun i => mul (f0 i) (f i)) F). auto.
  Qed.
  (** Without underflow: every product is zero or at least the smallest normal float. *)
  Theorem C74_dot_normal : forall N a b d, length a = N -> length b = N -> Forall (fun x => valid x) a -> Forall (fun x => valid x) b ->
    (forall i, (i < N)%nat -> vval a i * vval b i = 0 \/ min_normal emax <= Rabs (vval a i * vval b i)) ->
    v_dot fo N a b = Ok d -> finite d = true ->
    Rabs (value d - rsum N (fun i => vval a i * vval b i)) <= ((1 + u) ^ N - 1) * rsum N (fun i => Rabs (vval a i * vval b i)).
  Proof.
    intros N a b d Ha Hb Va Vb Nn E F. asfun (sf_ops prec emax rem). rewrite Forall_vk in Va, Vb. destruct N as [|k]; [discriminate E|].
    rewrite v_dot_fs in E. apply Ok_inj in E. subst d.
    rewrite (@rsum_ext (S k) _ (fun i => value (f0 i) * value (f i))) by (intros; rewrite !vval_vk; auto).
    rewrite (@rsum_ext (S k) (fun i => Rabs _) (fun i => Rabs (value (f0 i) * value (f i)))) by (intros; rewrite !vval_vk; auto).
    replace (((1 + u) ^ S k - 1) * rsum (S k) (fun i => Rabs (value (f0 i) * value (f i)))) with
      (((1 + u) ^ S k - 1) * rsum (S k) (fun i => Rabs (value (f0 i) * value (f i))) + INR (S k) * (1 + u) ^ k * 0) by ring.
    apply fs_dot_err; auto; try (intros; first [apply Va|apply Vb]; lia). { lra. }
    intros i Hi. apply mul_close_normal; try first [apply Va; lia|apply Vb; lia]. { apply (@fs_fin k (fun i => mul (f0 i) (f i)) F). auto. }
    specialize (Nn i ltac:(lia)). rewrite !vval_vk in Nn by lia. exact Nn.
  Qed.
  (** (1+u)^n - 1 is the usual gamma_n = n u / (1 - n u) at most. *)
  Theorem C74_gamma : forall n, INR n * u < 1 -> (1 + u) ^ n - 1 <= INR n * u / (1 - INR n * u).
  Proof.
    intros n H. pose proof (u_pos prec) as Hu. pose proof (u_lt_1 Hp) as H1.
    assert (B : 1 - INR n * u <= (1 - u) ^ n).
    { clear H. induction n as [|n IH]; [cbn; lra|]. rewrite S_INR. cbn [pow]. assert (0 <= INR n) by apply pos_INR.
      assert (0 <= INR n * u * u) by (apply Rmult_le_pos; [apply Rmult_le_pos|]; lra).
      assert ((1 - u) * (1 - INR n * u) <= (1 - u) * (1 - u) ^ n) by (apply Rmult_le_compat_l; lra). lra. }
    assert (C : (1 + u) ^ n * (1 - u) ^ n <= 1).
    { rewrite <- Rpow_mult_distr. apply Rle_trans with (1 ^ n); [|rewrite pow1; lra]. apply pow_incr. assert (0 < u * u) by (apply Rmult_lt_0_compat; lra). split; [apply Rmult_le_pos; lra|]. replace ((1 + u) * (1 - u)) with (1 - u * u) by ring. lra. }
    apply Rmult_le_reg_r with (1 - INR n * u); [lra|]. unfold Rdiv. rewrite Rmult_assoc, Rinv_l by lra.
    pose proof (@pow1u u n Hu) as HG. set (G := (1 + u) ^ n) in *. assert (G * (1 - INR n * u) <= G * (1 - u) ^ n) by (apply Rmult_le_compat_l; lra). lra.
  Qed.
  Corollary C74_dot_gamma : forall N a b d, length a = N -> length b = N -> Forall (fun x => valid x) a -> Forall (fun x => valid x) b ->
    (forall i, (i < N)%nat -> vval a i * vval b i = 0 \/ min_normal emax <= Rabs (vval a i * vval b i)) -> INR N * u < 1 ->
    v_dot fo N a b = Ok d -> finite d = true ->
    Rabs (value d - rsum N (fun i => vval a i * vval b i)) <= INR N * u / (1 - INR N * u) * rsum N (fun i => Rabs (vval a i * vval b i)).
  Proof.
    intros N a b d Ha Hb Va Vb Nn G E F. eapply Rle_trans; [eapply C74_dot_normal; eauto|].
    apply Rmult_le_compat_r; [apply rsum_0; intros; apply Rabs_pos|]. apply C74_gamma. auto.
  Qed.

  (** Matrix products: every element is such a dot product. *)
  Lemma fdot_fs : forall k f g, fdot prec emax rem (S k) (vk (S k) f) (vk (S k) g) = fs k (fun i => mul (f i) (g i)).
  Proof. intros. unfold fdot. rewrite v_dot_fs. reflexivity. Qed.
  Lemma fdot_err : forall M f g, (0 < M)%nat -> (forall i, (i < M)%nat -> valid (f i)) -> (forall i, (i < M)%nat -> valid (g i)) ->
    finite (fdot prec emax rem M (vk M f) (vk M g)) = true ->
    Rabs (value (fdot prec emax rem M (vk M f) (vk M g)) - rsum M (fun i => value (f i) * value (g i))) <=
      ((1 + u) ^ M - 1) * rsum M (fun i => Rabs (value (f i) * value (g i))) + INR M * (1 + u) ^ (M - 1) * eta.
  Proof.
    intros [|k] f g H Vf Vg F; [lia|]. rewrite fdot_fs in *. rewrite Nat.sub_succ, Nat.sub_0_r.
    apply fs_dot_err; auto; try (intros; first [apply Vf|apply Vg]; lia). { pose proof (eta_pos prec emax). lra. }
    intros i Hi. apply mul_close; try first [apply Vf; lia|apply Vg; lia]. apply (@fs_fin k (fun i => mul (f i) (g i)) F). auto.
  Qed.
  Theorem C74_matrix_product : forall L M N a b, rect L M a -> rect M N b -> (0 < M)%nat ->
    Forall (Forall (fun x => valid x)) a -> Forall (Forall (fun x => valid x)) b ->
    exists c, m_dot fo L M N a b = Ok c /\ rect L N c /\
    forall i j x, elt c i j = Some x -> finite x = true ->
      Rabs (value x - rsum M (fun k => mval a i k * mval b k j)) <=
        ((1 + u) ^ M - 1) * rsum M (fun k => Rabs (mval a i k * mval b k j)) + INR M * (1 + u) ^ (M - 1) * eta.
  Proof.
    intros L M N a b Ra Rb HM Va Vb. asfun (sf_ops prec emax rem). rewrite Forall_mk in Va, Vb.
    rewrite (m_dot_d fo (fdot prec emax rem) (@fdot_ok prec emax rem)) by auto. eexists. split; [reflexivity|]. split; [apply rect_mk|].
    intros i j x Ex F. rewrite elt_mk in Ex. destruct (i <? L) eqn:Hi; [|discriminate]. destruct (j <? N) eqn:Hj; [|discriminate].
    apply Nat.ltb_lt in Hi, Hj. cbn [andb] in Ex. injection Ex as <-.
    rewrite (@rsum_ext M _ (fun k => value (f0 i k) * value (f k j))) by (intros; rewrite !mval_mk; auto).
    rewrite (@rsum_ext M (fun k => Rabs _) (fun k => Rabs (value (f0 i k) * value (f k j)))) by (intros; rewrite !mval_mk; auto).
    apply fdot_err; auto.
  Qed.
  Theorem C74_matrix_vector : forall M N a v, rect M N a -> length v = N -> (0 < N)%nat ->
    Forall (Forall (fun x => valid x)) a -> Forall (fun x => valid x) v ->
    exists c, m_dot_v fo M N a v = Ok c /\ length c = M /\
    forall i x, nth_error c i = Some x -> finite x = true ->
      Rabs (value x - rsum N (fun k => mval a i k * vval v k)) <=
        ((1 + u) ^ N - 1) * rsum N (fun k => Rabs (mval a i k * vval v k)) + INR N * (1 + u) ^ (N - 1) * eta.
  Proof.
    intros M N a v Ra Hv HN Va Vv. asfun (sf_ops prec emax rem). rewrite Forall_mk in Va. rewrite Forall_vk in Vv.
    rewrite (m_dot_v_d fo (fdot prec emax rem) (@fdot_ok prec emax rem)) by auto. eexists. split; [reflexivity|]. split; [apply vk_length|].
    intros i x Ex F. rewrite nth_error_vk in Ex. destruct (i <? M) eqn:Hi; [|discriminate]. apply Nat.ltb_lt in Hi. injection Ex as <-.
    rewrite (@rsum_ext N _ (fun k => value (f0 i k) * value (f k))) by (intros; rewrite !mval_mk, !vval_vk; auto).
    rewrite (@rsum_ext N (fun k => Rabs _) (fun k => Rabs (value (f0 i k) * value (f k)))) by (intros; rewrite !mval_mk, !vval_vk; auto).
    apply fdot_err; auto.
  Qed.
  Theorem C74_vector_matrix : forall M N v a, length v = M -> rect M N a -> (0 < M)%nat ->
    Forall (fun x => valid x) v -> Forall (Forall (fun x => valid x)) a ->
    exists c, v_dot_m fo M N v a = Ok c /\ length c = N /\
    forall j x, nth_error c j = Some x -> finite x = true ->
      Rabs (value x - rsum M (fun k => vval v k * mval a k j)) <=
        ((1 + u) ^ M - 1) * rsum M (fun k => Rabs (vval v k * mval a k j)) + INR M * (1 + u) ^ (M - 1) * eta.
  Proof.
    intros M N v a Hv Ra HM Vv Va. asfun (sf_ops prec emax rem). rewrite Forall_mk in Va. rewrite Forall_vk in Vv.
    rewrite (v_dot_m_d fo (fdot prec emax rem) (@fdot_ok prec emax rem)) by auto. eexists. split; [reflexivity|]. split; [apply vk_length|].
    intros j x Ex F. rewrite nth_error_vk in Ex. destruct (j <? N) eqn:Hj; [|discriminate]. apply Nat.ltb_lt in Hj. injection Ex as <-.
    rewrite (@rsum_ext M _ (fun k => value (f k) * value (f0 k j))) by (intros; rewrite !mval_mk, !vval_vk; auto).
    rewrite (@rsum_ext M (fun k => Rabs _) (fun k => Rabs (value (f k) * value (f0 k j)))) by (intros; rewrite !mval_mk, !vval_vk; auto).
    apply fdot_err; auto.
  Qed.

  Lemma fs_nonneg : forall k g, finite (fs k g) = true -> (forall i, (i <= k)%nat -> 0 <= value (g i)) -> (forall i, (i <= k)%nat -> valid (g i)) -> 0 <= value (fs k g).
  Proof.
    induction k as [|k IH]; intros g F P VV; cbn [fs] in *; auto.
    destruct (add_fin _ _ _ _ F) as (F1 & F2).
    destruct (add_err Hp He (fs k g) (g (S k))) as (d & Hd & ->); auto using fs_valid.
    pose proof (u_lt_1 Hp). assert (0 <= 1 + d). { unfold Rabs in Hd. destruct (Rcase_abs d); lra. }
    specialize (IH g F1 ltac:(auto) ltac:(auto)). specialize (P (S k) ltac:(auto)). apply Rmult_le_pos; lra.
  Qed.
  (** Squared length and length: a small relative error, for vectors without underflowing squares. *)
  Theorem C74_square_length : forall N v s, length v = N -> Forall (fun x => valid x) v ->
    (forall i, (i < N)%nat -> vval v i = 0 \/ min_normal emax <= vval v i * vval v i) ->
    v_square_length fo v = Ok s -> finite s = true ->
    0 <= value s /\
    Rabs (value s - rsum N (fun i => vval v i * vval v i)) <= ((1 + u) ^ N - 1) * rsum N (fun i => vval v i * vval v i).
  Proof.
    intros N v s Hv V Nn E F. asfun (sf_ops prec emax rem). rewrite Forall_vk in V. destruct N as [|k]; [discriminate E|].
    rewrite v_sq_fs in E. apply Ok_inj in E. subst s.
    rewrite (@rsum_ext (S k) _ (fun i => value (f i) * value (f i))) by (intros; rewrite !vval_vk; auto).
    assert (Nv : forall i, (i <= k)%nat -> value (f i) * value (f i) = 0 \/ min_normal emax <= Rabs (value (f i) * value (f i))).
    { intros i Hi. specialize (Nn i ltac:(lia)). rewrite vval_vk in Nn by lia. destruct Nn as [->|Nn]; [left; ring|right]. rewrite Rabs_pos_eq; auto.
      pose proof (Rle_0_sqr (value (f i))). auto. }
    split.
    - assert (P : forall i, (i <= k)%nat -> 0 <= value (mul (f i) (f i))).
      { intros i Hi. destruct (mul_err Hp He (f i) (f i)) as (d & h & Hd & _ & -> & Hh); try (apply V; lia).
        { apply (@fs_fin k (fun i => mul (f i) (f i)) F). auto. }
        rewrite Hh by auto. pose proof (Rle_0_sqr (value (f i))) as Q. unfold Rsqr in Q. pose proof (u_lt_1 Hp).
        assert (0 <= 1 + d). { unfold Rabs in Hd. destruct (Rcase_abs d); lra. }
        rewrite Rplus_0_r. apply Rmult_le_pos; auto. }
      assert (VV : forall i, (i <= k)%nat -> valid (mul (f i) (f i))). { intros. apply mul_valid; auto; apply V; lia. }
      apply (@fs_nonneg k (fun i => mul (f i) (f i)) F P VV).
    - pose proof (@fs_dot_err k f f 0 ltac:(lra) ltac:(intros; apply V; lia) ltac:(intros; apply V; lia) F) as H.
      rewrite Rmult_0_r, Rplus_0_r in H.
      rewrite (@rsum_ext (S k) (fun i => Rabs _) (fun i => value (f i) * value (f i))) in H.
      + apply H. intros i Hi. apply mul_close_normal; auto; try (apply V; lia). apply (@fs_fin k (fun i => mul (f i) (f i)) F). auto.
      + intros i Hi. apply Rabs_pos_eq. apply (Rle_0_sqr (value (f i))).
  Qed.
  Theorem C74_length : forall N v l, length v = N -> Forall (fun x => valid x) v ->
    (forall i, (i < N)%nat -> vval v i = 0 \/ min_normal emax <= vval v i * vval v i) ->
    v_length fo (SFsqrt prec emax) v = Ok l -> finite l = true ->
    let exact := sqrt (rsum N (fun i => vval v i * vval v i)) in
    Rabs (value l - exact) <= ((1 + u) ^ (N + 1) - 1) * exact.
  Proof.
    intros N v l Hv V Nn E F exact. unfold v_length in E. destruct (v_square_length fo v) as [s| | |] eqn:Es; try discriminate. cbn [bind] in E. apply Ok_inj in E. subst l.
    assert (Vs : valid s).
    { pose proof Hv as Hv'. pose proof V as V'. revert Es V'. clear - Hv' Hp He. asfun (sf_ops prec emax rem). destruct N as [|k]; [discriminate|]. rewrite v_sq_fs.
      intros Es V. apply Ok_inj in Es. subst s. rewrite Forall_vk in V. apply fs_valid. intros. apply mul_valid; auto; apply V; lia. }
    destruct (finite s) eqn:Fs.
    2: { exfalso. destruct s as [b|b| |b m e]; try discriminate; destruct b; discriminate. }
    destruct (C74_square_length Hv V Nn Es Fs) as (P & B).
    destruct (sqrt_err Hp He s Vs Fs P) as (_ & d & Hd & Ed). rewrite Ed. clear Ed F.
    set (X := rsum N (fun i => vval v i * vval v i)) in *. assert (PX : 0 <= X). { apply rsum_0. intros. apply (Rle_0_sqr (vval v i)). }
    rewrite pow_add, pow_1. pose proof (@pow1u u N (u_pos prec)) as HG. set (G := (1 + u) ^ N) in *. pose proof (u_pos prec) as Hu. pose proof (u_lt_1 Hp) as Hu1.
    unfold exact. clear exact. clearbody X G. set (y := value s) in *. clearbody y. clear - P B Hd PX HG Hu Hu1.
    assert (Dd : - u <= d <= u). { unfold Rabs in Hd. destruct (Rcase_abs d); lra. }
    assert (By : X - (G - 1) * X <= y <= X + (G - 1) * X). { unfold Rabs in B. destruct (Rcase_abs _); lra. }
    assert (SX : sqrt X * sqrt X = X) by (apply sqrt_sqrt; auto). assert (Sy : sqrt y * sqrt y = y) by (apply sqrt_sqrt; auto).
    pose proof (sqrt_pos X) as PsX. pose proof (sqrt_pos y) as Psy.
    assert (U : sqrt y <= G * sqrt X).
    { apply Rsqr_incr_0_var; [|apply Rmult_le_pos; lra]. unfold Rsqr. rewrite Sy. replace (G * sqrt X * (G * sqrt X)) with (G * G * (sqrt X * sqrt X)) by ring. rewrite SX.
      assert (0 <= (G - 1) * X) by (apply Rmult_le_pos; lra). assert (G * X <= G * (G * X)) by (apply Rmult_le_compat_l; nra). lra. }
    assert (Lo : (2 - G) * sqrt X <= sqrt y).
    { destruct (Rle_or_lt 2 G) as [Q|Q]. { assert (0 <= (G - 2) * sqrt X) by (apply Rmult_le_pos; lra). lra. }
      apply Rsqr_incr_0_var; [|auto]. unfold Rsqr. rewrite Sy. replace ((2 - G) * sqrt X * ((2 - G) * sqrt X)) with ((2 - G) * ((2 - G) * (sqrt X * sqrt X))) by ring. rewrite SX.
      assert (0 <= (2 - G) * X) by (apply Rmult_le_pos; lra). assert ((2 - G) * ((2 - G) * X) <= 1 * ((2 - G) * X)) by (apply Rmult_le_compat_r; lra). lra. }
    set (a := sqrt X) in *. set (b := sqrt y) in *. clearbody a b. clear SX Sy B By.
    assert (U2 : b * (1 + d) <= G * a * (1 + u)) by (apply Rmult_le_compat; lra).
    assert (L2 : b * (1 - u) <= b * (1 + d)) by (apply Rmult_le_compat_l; lra).
    assert (L3 : (2 - G) * a * (1 - u) <= b * (1 - u)) by (apply Rmult_le_compat_r; lra).
    assert (K : 0 <= (G - 1) * u * a) by (apply Rmult_le_pos; [apply Rmult_le_pos|]; lra).
    apply Rabs_le. split; [|lra].
    replace (- ((G * (1 + u) - 1) * a)) with ((2 - G) * a * (1 - u) - 2 * ((G - 1) * u * a) - a) by ring. lra.
  Qed.
  (** Normalisation: every component within a small relative error of the exact one. *)
  Theorem C74_normalize : forall N v w, length v = N -> Forall (fun x => valid x) v ->
    (forall i, (i < N)%nat -> vval v i = 0 \/ min_normal emax <= vval v i * vval v i) -> (1 + u) ^ (N + 1) < 2 ->
    v_normalize fo (SFsqrt prec emax) v = Ok w -> 
    (forall l, v_length fo (SFsqrt prec emax) v = Ok l -> finite l = true) ->
    let exact := sqrt (rsum N (fun i => vval v i * vval v i)) in
    0 < exact -> length w = N /\
    forall i x, nth_error w i = Some x -> finite x = true ->
      Rabs (value x - vval v i / exact) <= ((1 + u) / (2 - (1 + u) ^ (N + 1)) - 1) * Rabs (vval v i / exact) + eta.
  Proof.
    intros N v w Hv V Nn HG E Fl exact PX. unfold v_normalize in E. destruct (v_length fo (SFsqrt prec emax) v) as [l| | |] eqn:El; try discriminate. cbn [bind] in E.
    specialize (Fl l eq_refl). pose proof (C74_length Hv V Nn El Fl) as B. cbv zeta in B. fold exact in B.
    assert (Vl : valid l).
    { unfold v_length in El. destruct (v_square_length fo v) as [s| | |] eqn:Es; try discriminate. cbn [bind] in El. apply Ok_inj in El. subst l. apply sqrt_valid; auto.
      pose proof Hv as Hv'. pose proof V as V'. revert Es V'. clear - Hv' Hp He. asfun (sf_ops prec emax rem). destruct N as [|k]; [discriminate|]. rewrite v_sq_fs.
      intros Es V. apply Ok_inj in Es. subst s. rewrite Forall_vk in V. apply fs_valid. intros. apply mul_valid; auto; apply V; lia. }
    unfold v_sdiv in E. change (o_div fo) with (ok2 (SFdiv prec emax)) in E. change (v_map (ok1 (fun x => SFdiv prec emax x l)) v = Ok w) in E. rewrite v_map_pure in E. apply Ok_inj in E. subst w.
    split; [rewrite map_length; auto|]. intros i x Ex F. rewrite nth_error_map in Ex. destruct (nth_error v i) as [y|] eqn:Ey; [|discriminate]. cbn in Ex. injection Ex as <-.
    assert (Yv : vval v i = value y). { unfold vval. rewrite (nth_error_nth _ _ _ Ey). reflexivity. }
    assert (Vy : valid y). { rewrite Forall_forall in V. apply V. eapply nth_error_In; eauto. }
    set (G := (1 + u) ^ (N + 1)) in *. pose proof (u_pos prec) as Hu. assert (HG1 : 1 <= G) by (apply pow1u; auto).
    assert (Bl : (2 - G) * exact <= value l <= G * exact). { unfold Rabs in B. destruct (Rcase_abs _); lra. }
    assert (Lp : 0 < value l). { assert (0 < (2 - G) * exact) by (apply Rmult_lt_0_compat; lra). lra. }
    assert (Fy : finite y = true).
    { destruct y as [b|b| |b m e]; auto; exfalso; destruct l as [b'|b'| |b' m' e']; cbn in Lp; try lra; try discriminate; destruct b; discriminate. }
    destruct (div_err Hp He y l Vy Vl Fy Fl ltac:(lra) F) as (d & h & Hd & Hh & Er & _). rewrite Er, Yv. clear Er.
    assert (Dd : - u <= d <= u). { unfold Rabs in Hd. destruct (Rcase_abs d); lra. }
    set (q := value y) in *. set (L := value l) in *. clearbody q L. pose proof (u_lt_1 Hp) as Hu1.
    replace (q / L * (1 + d) + h - q / exact) with (q / exact * (exact / L * (1 + d) - 1) + h) by (field; lra).
    eapply Rle_trans; [apply Rabs_triang|]. apply Rplus_le_compat; auto. rewrite Rabs_mult, Rmult_comm. apply Rmult_le_compat_r; [apply Rabs_pos|].
    assert (U : exact / L <= / (2 - G)).
    { apply Rmult_le_reg_r with (L * (2 - G)); [apply Rmult_lt_0_compat; lra|]. field_simplify; lra. }
    assert (Lo : / G <= exact / L).
    { apply Rmult_le_reg_r with (L * G); [apply Rmult_lt_0_compat; lra|]. field_simplify; lra. }
    assert (IG : 2 - G <= / G). { apply Rmult_le_reg_r with G; [lra|]. rewrite Rinv_l by lra. assert (0 <= (G - 1) * (G - 1)) by apply Rle_0_sqr. lra. }
    set (r := exact / L) in *. clearbody r. assert (I1 : 0 < 2 - G) by lra. assert (I2 : 0 < / (2 - G)) by (apply Rinv_0_lt_compat; auto).
    assert (UU : r * (1 + d) <= / (2 - G) * (1 + u)) by (apply Rmult_le_compat; lra).
    assert (LL : (2 - G) * (1 - u) <= r * (1 + d)) by (apply Rmult_le_compat; lra).
    (* t + 1/t >= 2 with t = (2 - G) (1 - u), and (1 + u) (1 - u) <= 1 *)
    assert (I3 : 2 <= (2 - G) * (1 - u) + / (2 - G) * (1 + u) + 0).
    { apply Rmult_le_reg_r with (2 - G); [lra|]. replace (((2 - G) * (1 - u) + / (2 - G) * (1 + u) + 0) * (2 - G)) with ((2 - G) * (2 - G) * (1 - u) + (1 + u)) by (field; lra).
      set (z := 2 - G) in *. assert (z <= 1) by (unfold z; lra). clearbody z. assert (0 <= (1 - z) * (1 - z)) by apply Rle_0_sqr. assert (0 <= u * (1 - z)) by (apply Rmult_le_pos; lra).
      assert (0 <= u * (1 - z * z)). { apply Rmult_le_pos; [lra|]. assert (z * z <= 1 * 1) by (apply Rmult_le_compat; lra). lra. } lra. }
    apply Rabs_le. unfold Rdiv. lra.
  Qed.

  (** Products of complex numbers: both components. *)
  Lemma two_products : forall x y z w op e, (op = add /\ e = 1 \/ op = SFsub prec emax /\ e = -1) ->
    valid x -> valid y -> valid z -> valid w -> finite (op (mul x y) (mul z w)) = true ->
    Rabs (value (op (mul x y) (mul z w)) - (value x * value y + e * (value z * value w))) <=
      ((1 + u) ^ 2 - 1) * (Rabs (value x * value y) + Rabs (value z * value w)) + 2 * (1 + u) * eta.
  Proof.
    intros x y z w op e Hop Vx Vy Vz Vw F.
    assert (X : finite (mul x y) = true /\ finite (mul z w) = true /\ exists d, Rabs d <= u /\ value (op (mul x y) (mul z w)) = (value (mul x y) + e * value (mul z w)) * (1 + d)).
    { destruct Hop as [(-> & ->)|(-> & ->)].
      - destruct (add_fin _ _ _ _ F). split; auto. split; auto. destruct (add_err Hp He (mul x y) (mul z w)) as (d & Hd & ->); auto using mul_valid. exists d. split; auto. ring.
      - destruct (sub_fin _ _ _ _ F). split; auto. split; auto. destruct (sub_err Hp He (mul x y) (mul z w)) as (d & Hd & ->); auto using mul_valid. exists d. split; auto. ring. }
    destruct X as (F1 & F2 & d & Hd & ->). pose proof (mul_close _ _ Vx Vy F1) as H1. pose proof (mul_close _ _ Vz Vw F2) as H2.
    set (p := value (mul x y)) in *. set (q := value (mul z w)) in *. set (P := value x * value y) in *. set (Q := value z * value w) in *.
    assert (Ae : Rabs e = 1). { destruct Hop as [(_ & ->)|(_ & ->)]; unfold Rabs; destruct (Rcase_abs _); lra. }
    clearbody p q P Q. clear F F1 F2 Vx Vy Vz Vw Hop.
    replace ((p + e * q) * (1 + d) - (P + e * Q)) with (((p - P) + e * (q - Q)) * (1 + d) + d * (P + e * Q)) by ring.
    pose proof (u_pos prec) as Hu. pose proof (eta_pos prec emax) as Ht.
    assert (K1 : Rabs (1 + d) <= 1 + u). { eapply Rle_trans; [apply Rabs_triang|]. rewrite Rabs_R1. lra. }
    assert (K2 : Rabs ((p - P) + e * (q - Q)) <= u * (Rabs P + Rabs Q) + 2 * eta).
    { eapply Rle_trans; [apply Rabs_triang|]. rewrite Rabs_mult, Ae. lra. }
    assert (K3 : Rabs (P + e * Q) <= Rabs P + Rabs Q). { eapply Rle_trans; [apply Rabs_triang|]. rewrite Rabs_mult, Ae. lra. }
    eapply Rle_trans; [apply Rabs_triang|]. rewrite !Rabs_mult.
    replace (((1 + u) ^ 2 - 1) * (Rabs P + Rabs Q) + 2 * (1 + u) * eta) with ((u * (Rabs P + Rabs Q) + 2 * eta) * (1 + u) + u * (Rabs P + Rabs Q)) by ring.
    apply Rplus_le_compat; apply Rmult_le_compat; auto using Rabs_pos.
  Qed.
  Theorem C74_complex_mul : forall a b, valid (re a) -> valid (im a) -> valid (re b) -> valid (im b) ->
    exists c, c_mul fo a b = Ok c /\
    (finite (re c) = true -> Rabs (value (re c) - (value (re a) * value (re b) - value (im a) * value (im b))) <=
       ((1 + u) ^ 2 - 1) * (Rabs (value (re a) * value (re b)) + Rabs (value (im a) * value (im b))) + 2 * (1 + u) * eta) /\
    (finite (im c) = true -> Rabs (value (im c) - (value (re a) * value (im b) + value (im a) * value (re b))) <=
       ((1 + u) ^ 2 - 1) * (Rabs (value (re a) * value (im b)) + Rabs (value (im a) * value (re b))) + 2 * (1 + u) * eta).
  Proof.
    intros [a b] [c d]. cbn [re im]. intros Va Vb Vc Vd. exists (Cx (SFsub prec emax (mul a c) (mul b d)) (add (mul a d) (mul b c))). split; [reflexivity|]. cbn [re im]. split; intros F.
    - replace (value a * value c - value b * value d) with (value a * value c + -1 * (value b * value d)) by ring. apply two_products; auto.
    - replace (value a * value d + value b * value c) with (value a * value d + 1 * (value b * value c)) by ring. apply two_products; auto.
  Qed.

  (* ----------------------------------------------------------------------- *)
  (** * C78: integers up to 2^prec                                             *)
  Local Notation int := (is_int prec emax).
  Local Notation small n := (Z.abs n <= 2 ^ prec)%Z.
  Lemma i_mul : forall x y a b, int x a -> int y b -> small (a * b) -> int (mul x y) (a * b).
  Proof.
    intros x y a b (V & F & E) (V' & F' & E') H. destruct (mul_int Hp He x y (a * b) V V' F F') as (F2 & E2); auto. { rewrite E, E', mult_IZR. reflexivity. }
    split; [apply mul_valid; auto|auto].
  Qed.
  Lemma i_add : forall x y a b, int x a -> int y b -> small (a + b) -> int (add x y) (a + b).
  Proof.
    intros x y a b (V & F & E) (V' & F' & E') H. destruct (add_int Hp He x y (a + b) V V' F F') as (F2 & E2); auto. { rewrite E, E', plus_IZR. reflexivity. }
    split; [apply add_valid; auto|auto].
  Qed.
  Lemma i_sub : forall x y a b, int x a -> int y b -> small (a - b) -> int (SFsub prec emax x y) (a - b).
  Proof.
    intros x y a b (V & F & E) (V' & F' & E') H. destruct (sub_int Hp He x y (a - b) V V' F F') as (F2 & E2); auto. { rewrite E, E', minus_IZR. reflexivity. }
    split; [apply sub_valid; auto|auto].
  Qed.
  Lemma zsum_abs : forall n f, (Z.abs (zsum n f) <= zsum n (fun i => Z.abs (f i)))%Z.
  Proof. induction n; intros f; cbn; [lia|]. specialize (IHn f). lia. Qed.
  Lemma zsum_0 : forall n f, (0 <= zsum n (fun i => Z.abs (f i)))%Z.
  Proof. induction n; intros f; cbn; [lia|]. specialize (IHn f). lia. Qed.
  Lemma zsum_at : forall n f i, (i < n)%nat -> (Z.abs (f i) <= zsum n (fun i => Z.abs (f i)))%Z.
  Proof.
    induction n; intros f i Hi; cbn; [lia|]. pose proof (zsum_0 n f). destruct (Nat.eq_dec i n) as [->|]; [lia|]. specialize (IHn f i ltac:(lia)). lia.
  Qed.
  Lemma fs_int : forall k f z, (forall i, (i <= k)%nat -> int (f i) (z i)) -> (zsum (S k) (fun i => Z.abs (z i)) <= 2 ^ prec)%Z -> int (fs k f) (zsum (S k) z).
  Proof.
    induction k as [|k IH]; intros f z H B. { cbn. apply H. lia. }
    cbn [fs]. change (zsum (S (S k)) z) with (zsum (S k) z + z (S k))%Z. change (zsum (S (S k)) ?g) with (zsum (S k) g + g (S k))%Z in B. cbn beta in B.
    apply i_add; auto. { apply IH; auto. lia. } pose proof (zsum_abs (S k) z). lia.
  Qed.

  Theorem C78_sum : forall N v z, length v = N -> (0 < N)%nat -> (forall i x, nth_error v i = Some x -> int x (z i)) ->
    (zsum N (fun i => Z.abs (z i)) <= 2 ^ prec)%Z ->
    exists s, v_sum fo v = Ok s /\ int s (zsum N z).
  Proof.
    intros N v z Hv HN H B. asfun (sf_ops prec emax rem). destruct N as [|k]; [lia|]. rewrite v_sum_fs. eexists. split; [reflexivity|]. apply fs_int; auto.
    intros i Hi. apply H. rewrite nth_error_vk. replace (i <? S k)%nat with true by (symmetry; apply Nat.ltb_lt; lia). reflexivity.
  Qed.
  Lemma fdot_int : forall M f g y z, (0 < M)%nat -> (forall i, (i < M)%nat -> int (f i) (y i)) -> (forall i, (i < M)%nat -> int (g i) (z i)) ->
    (zsum M (fun i => Z.abs (y i * z i)) <= 2 ^ prec)%Z -> int (fdot prec emax rem M (vk M f) (vk M g)) (zsum M (fun i => y i * z i)%Z).
  Proof.
    intros [|k] f g y z HM Hf Hg B; [lia|]. rewrite fdot_fs. apply fs_int; auto. intros i Hi. apply i_mul; try first [apply Hf; lia|apply Hg; lia].
    pose proof (@zsum_at (S k) (fun i => y i * z i)%Z i ltac:(lia)) as Q. cbv beta in Q. lia.
  Qed.
  Theorem C78_dot : forall N a b y z, length a = N -> length b = N -> (0 < N)%nat ->
    (forall i x, nth_error a i = Some x -> int x (y i)) -> (forall i x, nth_error b i = Some x -> int x (z i)) ->
    (zsum N (fun i => Z.abs (y i * z i)) <= 2 ^ prec)%Z ->
    exists d, v_dot fo N a b = Ok d /\ int d (zsum N (fun i => y i * z i)%Z).
  Proof.
    intros N a b y z Ha Hb HN Hy Hz B. rewrite (@fdot_ok prec emax rem N a b) by auto. eexists. split; [reflexivity|]. asfun (sf_ops prec emax rem). apply fdot_int; auto.
    - intros i Hi. apply Hy. rewrite nth_error_vk. replace (i <? N)%nat with true by (symmetry; apply Nat.ltb_lt; lia). reflexivity.
    - intros i Hi. apply Hz. rewrite nth_error_vk. replace (i <? N)%nat with true by (symmetry; apply Nat.ltb_lt; lia). reflexivity.
  Qed.
  Theorem C78_matrix_product : forall L M N a b y z, rect L M a -> rect M N b -> (0 < M)%nat ->
    (forall i j x, elt a i j = Some x -> int x (y i j)) -> (forall i j x, elt b i j = Some x -> int x (z i j)) ->
    (forall i j, (i < L)%nat -> (j < N)%nat -> zsum M (fun k => Z.abs (y i k * z k j)) <= 2 ^ prec)%Z ->
    exists c, m_dot fo L M N a b = Ok c /\ rect L N c /\
      forall i j x, elt c i j = Some x -> int x (zsum M (fun k => y i k * z k j)%Z).
  Proof.
    intros L M N a b y z Ra Rb HM Hy Hz B. asfun (sf_ops prec emax rem).
    rewrite (m_dot_d fo (fdot prec emax rem) (@fdot_ok prec emax rem)) by auto. eexists. split; [reflexivity|]. split; [apply rect_mk|].
    intros i j x Ex. rewrite elt_mk in Ex. destruct (i <? L) eqn:Hi; [|discriminate]. destruct (j <? N) eqn:Hj; [|discriminate].
    cbn [andb] in Ex. injection Ex as <-. pose proof Hi as Hi'. pose proof Hj as Hj'. apply Nat.ltb_lt in Hi, Hj.
    apply (@fdot_int M (f0 i) (fun k => f k j) (y i) (fun k => z k j)); auto.
    - intros k Hk. apply Hy. rewrite elt_mk. apply Nat.ltb_lt in Hk. rewrite Hi', Hk. reflexivity.
    - intros k Hk. apply Hz. rewrite elt_mk. apply Nat.ltb_lt in Hk. rewrite Hj', Hk. reflexivity.
  Qed.
  Theorem C78_matrix_vector : forall M N a v y z, rect M N a -> length v = N -> (0 < N)%nat ->
    (forall i j x, elt a i j = Some x -> int x (y i j)) -> (forall i x, nth_error v i = Some x -> int x (z i)) ->
    (forall i, (i < M)%nat -> zsum N (fun k => Z.abs (y i k * z k)) <= 2 ^ prec)%Z ->
    exists c, m_dot_v fo M N a v = Ok c /\ length c = M /\
      forall i x, nth_error c i = Some x -> int x (zsum N (fun k => y i k * z k)%Z).
  Proof.
    intros M N a v y z Ra Hv HN Hy Hz B. asfun (sf_ops prec emax rem).
    rewrite (m_dot_v_d fo (fdot prec emax rem) (@fdot_ok prec emax rem)) by auto. eexists. split; [reflexivity|]. split; [apply vk_length|].
    intros i x Ex. rewrite nth_error_vk in Ex. destruct (i <? M) eqn:Hi; [|discriminate]. injection Ex as <-. pose proof Hi as Hi'. apply Nat.ltb_lt in Hi.
    apply (@fdot_int N (f0 i) f (y i) z); auto.
    - intros k Hk. apply Hy. rewrite elt_mk. apply Nat.ltb_lt in Hk. rewrite Hi', Hk. reflexivity.
    - intros k Hk. apply Hz. rewrite nth_error_vk. apply Nat.ltb_lt in Hk. rewrite Hk. reflexivity.
  Qed.
  Theorem C78_complex_mul : forall a b x y z w, int (re a) x -> int (im a) y -> int (re b) z -> int (im b) w ->
    (Z.abs (x * z) + Z.abs (y * w) <= 2 ^ prec)%Z -> (Z.abs (x * w) + Z.abs (y * z) <= 2 ^ prec)%Z ->
    exists c, c_mul fo a b = Ok c /\ int (re c) (x * z - y * w) /\ int (im c) (x * w + y * z).
  Proof.
    intros [a b] [c d] x y z w. cbn [re im]. intros Ha Hb Hc Hd H1 H2. eexists. split; [reflexivity|]. cbn [re im].
    split; [apply i_sub|apply i_add]; try (apply i_mul; auto); lia.
  Qed.
  (** Quaternions with components at most A and B in size, 4 A B <= 2^prec. *)
  Theorem C78_quaternion_mul : forall a b w x y z w' x' y' z' A B,
    int (qw a) w -> int (qx a) x -> int (qy a) y -> int (qz a) z -> int (qw b) w' -> int (qx b) x' -> int (qy b) y' -> int (qz b) z' ->
    (Z.abs w <= A /\ Z.abs x <= A /\ Z.abs y <= A /\ Z.abs z <= A)%Z -> (Z.abs w' <= B /\ Z.abs x' <= B /\ Z.abs y' <= B /\ Z.abs z' <= B)%Z ->
    (4 * (A * B) <= 2 ^ prec)%Z ->
    exists c, q_mul fo a b = Ok c /\
      int (qw c) (w * w' - x * x' - y * y' - z * z') /\ int (qx c) (w * x' + x * w' + y * z' - z * y') /\
      int (qy c) (w * y' - x * z' + y * w' + z * x') /\ int (qz c) (w * z' + x * y' - y * x' + z * w').
  Proof.
    intros [a1 a2 a3 a4] [b1 b2 b3 b4] w x y z w' x' y' z' A B. cbn [qw qx qy qz]. intros Ha1 Ha2 Ha3 Ha4 Hb1 Hb2 Hb3 Hb4 (A1 & A2 & A3 & A4) (B1 & B2 & B3 & B4) H.
    assert (M : forall s t, (Z.abs s <= A -> Z.abs t <= B -> - (A * B) <= s * t <= A * B)%Z). { intros s t Hs Ht. apply Z.abs_le. rewrite Z.abs_mul. apply Z.mul_le_mono_nonneg; lia. }
    assert (P : (0 <= A * B)%Z) by (apply Z.mul_nonneg_nonneg; lia).
    pose proof (M w w' A1 B1). pose proof (M w x' A1 B2). pose proof (M w y' A1 B3). pose proof (M w z' A1 B4). pose proof (M x w' A2 B1). pose proof (M x x' A2 B2). pose proof (M x y' A2 B3). pose proof (M x z' A2 B4). pose proof (M y w' A3 B1). pose proof (M y x' A3 B2). pose proof (M y y' A3 B3). pose proof (M y z' A3 B4). pose proof (M z w' A4 B1). pose proof (M z x' A4 B2). pose proof (M z y' A4 B3). pose proof (M z z' A4 B4). clear M A1 A2 A3 A4 B1 B2 B3 B4.
    set (K := (A * B)%Z) in *. clearbody K.
    eexists. split; [reflexivity|]. cbn [qw qx qy qz].
    repeat match goal with
    | |- _ /\ _ => split
    | |- int (SFsub _ _ _ _) _ => apply i_sub
    | |- int (SFadd _ _ _ _) _ => apply i_add
    | |- int (SFmul _ _ _ _) _ => apply i_mul; auto
    end.
    all: clear Ha1 Ha2 Ha3 Ha4 Hb1 Hb2 Hb3 Hb4; apply Z.abs_le; lia.
  Qed.
  (** The 3D cross product. *)
  Definition int_vec3 v x y z : Prop := exists a b c, v = [a; b; c] /\ int a x /\ int b y /\ int c z.
  Theorem C78_cross : forall a b x y z x' y' z', int_vec3 a x y z -> int_vec3 b x' y' z' ->
    (Z.abs (y * z') + Z.abs (z * y') <= 2 ^ prec)%Z -> (Z.abs (z * x') + Z.abs (x * z') <= 2 ^ prec)%Z -> (Z.abs (x * y') + Z.abs (y * x') <= 2 ^ prec)%Z ->
    exists c, v_cross3 fo a b = Ok c /\ int_vec3 c (y * z' - z * y') (z * x' - x * z') (x * y' - y * x').
  Proof.
    intros a b x y z x' y' z' (a1 & a2 & a3 & -> & Ha1 & Ha2 & Ha3) (b1 & b2 & b3 & -> & Hb1 & Hb2 & Hb3) H1 H2 H3.
    eexists. split; [reflexivity|]. do 3 eexists. split; [reflexivity|]. split; [|split]; (apply i_sub; [apply i_mul; auto; lia..|lia]).
  Qed.
End C74.

(** In [f64], 0.1 * 0.1 + 0.2 * 0.3 is finite, so the bound applies; 3 * 5 + 7 * (-2) is exactly 1. *)
Section Ex.
  Local Open Scope R_scope.
  Definition f64_01 := S754_finite false 7205759403792794 (-56).
  Definition f64_02 := S754_finite false 7205759403792794 (-55).
  Definition f64_03 := S754_finite false 5404319552844595 (-54).
  Local Notation o64 := (sf_ops 53 1024 (fun x _ => x)).
  Example C74_ex : exists d, v_dot o64 2 [f64_01; f64_02] [f64_01; f64_03] = Ok d /\ finite d = true /\
    Rabs (value d - rsum 2 (fun i => vval [f64_01; f64_02] i * vval [f64_01; f64_03] i)) <=
      ((1 + roundoff 53) ^ 2 - 1) * rsum 2 (fun i => Rabs (vval [f64_01; f64_02] i * vval [f64_01; f64_03] i)) + INR 2 * (1 + roundoff 53) ^ 1 * half_tiny 53 1024.
  Proof.
    assert (exists d, v_dot o64 2 [f64_01; f64_02] [f64_01; f64_03] = Ok d /\ finite d = true) as (d & E & F) by (eexists; split; vm_compute; reflexivity).
    exists d. split; auto. split; auto. apply (@C74_dot 53 1024 (fun x _ => x)) with (N := 2%nat); auto; try lia; repeat constructor.
  Qed.
  Definition f64_3 := S754_finite false 6755399441055744 (-51).
  Definition f64_5 := S754_finite false 5629499534213120 (-50).
  Definition f64_7 := S754_finite false 7881299347898368 (-50).
  Definition f64_m2 := S754_finite true 4503599627370496 (-51).
  Lemma int_3_5_7 : is_int 53 1024 f64_3 3 /\ is_int 53 1024 f64_5 5 /\ is_int 53 1024 f64_7 7 /\ is_int 53 1024 f64_m2 (-2).
  Proof.
    repeat split; unfold value, f64_3, f64_5, f64_7, f64_m2, powerRZ; rewrite pow_IZR;
      (match goal with |- _ * / IZR ?b = _ => let v := eval vm_compute in b in replace b with v by (vm_compute; reflexivity) end); lra.
  Qed.
  Example C78_ex : exists d, v_dot o64 2 [f64_3; f64_7] [f64_5; f64_m2] = Ok d /\ is_int 53 1024 d 1.
  Proof.
    destruct int_3_5_7 as (I3 & I5 & I7 & I2).
    apply (@C78_dot 53 1024 (fun x _ => x) ltac:(lia) ltac:(lia) 2 [f64_3; f64_7] [f64_5; f64_m2] (fun i => nth i [3; 7]%Z 0%Z) (fun i => nth i [5; -2]%Z 0%Z)); auto.
    - intros [|[|i]] x Hx; cbn in Hx; try (injection Hx as <-; assumption). destruct i; discriminate.
    - intros [|[|i]] x Hx; cbn in Hx; try (injection Hx as <-; assumption). destruct i; discriminate.
    - vm_compute. discriminate.
  Qed.
End Ex.

Print Assumptions C74_sum.
Print Assumptions C74_dot.
Print Assumptions C74_dot_normal.
Print Assumptions C74_gamma.
Print Assumptions C74_dot_gamma.
Print Assumptions C74_matrix_product.
Print Assumptions C74_matrix_vector.
Print Assumptions C74_vector_matrix.
Print Assumptions C74_square_length.
Print Assumptions C74_length.
Print Assumptions C74_normalize.
Print Assumptions C74_complex_mul.
Print Assumptions C78_sum.
Print Assumptions C78_dot.
Print Assumptions C78_matrix_product.
Print Assumptions C78_matrix_vector.
Print Assumptions C78_complex_mul.
Print Assumptions C78_quaternion_mul.
Print Assumptions C78_cross.
