(** Non-trivial case: for [f64] vectors of two components in [0, 1] the running bound exists, so the theorem applies to their
    dot product; here 0.1 * 0.1 + 0.2 * 0.3. *)
Local Open Scope R_scope.
Lemma step_ok : forall e b t, Rabs e + (b + roundoff 53 * (Rabs e + b) + t) < 4 -> step 53 1024 e b t = Ok (e, b + roundoff 53 * (Rabs e + b) + t).
Proof.
  intros e b t H. unfold step. destruct (Rlt_dec _ _) as [|N]; auto. exfalso. apply N. eapply Rlt_le_trans; [exact H|].
  change (powerRZ 2 1024) with (2 ^ Pos.to_nat 1024). replace 4 with (2 ^ 2) by (cbn; lra). apply Rle_pow; [lra|]. apply Nat.leb_le. vm_compute. reflexivity.
Qed.
Lemma small64 : roundoff 53 <= / 4 /\ half_tiny 53 1024 <= / 4.
Proof.
  assert (H : forall n, (2 <= n)%nat -> / 2 ^ n <= / 4). { intros n Hn. apply Rinv_le_contravar; [lra|]. replace 4 with (2 ^ 2) by (cbn; lra). apply Rle_pow; [lra|auto]. }
  split; [apply (H 53%nat); lia|]. unfold half_tiny. change (powerRZ 2 (2 - 1024 - 53)) with (/ 2 ^ Pos.to_nat 1075). apply H. apply Nat.leb_le. vm_compute. reflexivity.
Qed.
Lemma dot_bounded : forall a b c d, 0 <= a <= 1 -> 0 <= b <= 1 -> 0 <= c <= 1 -> 0 <= d <= 1 ->
  exists r, v_dot (bound_ops 53 1024) 2 [(a, 0); (b, 0)] [(c, 0); (d, 0)] = Ok r.
Proof.
  intros a b c d Ha Hb Hc Hd. destruct small64 as (U & E). pose proof (u_pos 53) as UP. pose proof (eta_pos 53 1024) as EP.
  assert (M : forall x y, 0 <= x <= 1 -> 0 <= y <= 1 -> exists t, o_mul (bound_ops 53 1024) (x, 0) (y, 0) = Ok (x * y, t) /\ 0 <= t <= / 2).
  { intros x y Hx Hy. cbn [o_mul bound_ops fst snd]. assert (P : 0 <= x * y <= 1) by nra. 
    replace (Rabs x * 0 + 0 * Rabs y + 0 * 0) with 0 by ring. assert (Q : 0 <= roundoff 53 * (x * y) <= / 4) by nra.
    eexists. split; [apply step_ok|]; rewrite (Rabs_pos_eq (x * y)) by lra; rewrite Rplus_0_r, Rplus_0_l; lra. }
  destruct (M a c Ha Hc) as (t & E1 & T1). destruct (M b d Hb Hd) as (t' & E2 & T2).
  assert (P1 : 0 <= a * c <= 1) by nra. assert (P2 : 0 <= b * d <= 1) by nra.
  assert (S : exists r, o_add (bound_ops 53 1024) (a * c, t) (b * d, t') = Ok r).
  { cbn [o_add bound_ops fst snd]. eexists. apply step_ok. rewrite Rabs_pos_eq by lra. assert (0 <= roundoff 53 * (a * c + b * d + (t + t')) <= 3 / 4) by nra. lra. }
  destruct S as (r & Er). exists r. unfold v_dot. cbn [v_zip_map]. unfold v_zip_map. 
  assert (Z : v_zip 2 [(a, 0); (b, 0)] [(c, 0); (d, 0)] = Ok [((a, 0), (c, 0)); ((b, 0), (d, 0))]) by reflexivity.
  rewrite Z. cbn [bind]. rewrite v_map_res. cbn [map_res]. rewrite E1, E2. cbn [bind].
  change (v_sum (bound_ops 53 1024) [(a * c, t); (b * d, t')]) with (let! y := o_add (bound_ops 53 1024) (a * c, t) (b * d, t') in Ok y). rewrite Er. reflexivity.
Qed.
Example C93_ex : exists r s, v_dot (bound_ops 53 1024) 2 [(value f64_01, 0); (value f64_02, 0)] [(value f64_01, 0); (value f64_03, 0)] = Ok r /\
  v_dot f64 2 [f64_01; f64_02] [f64_01; f64_03] = Ok s /\ within 53 1024 r s.
Proof.
  assert (V : forall m e k, Z.pos k = (2 ^ (- e))%Z -> (e < 0)%Z -> (Z.pos m <= Z.pos k)%Z -> 0 <= value (S754_finite false m e) <= 1).
  { intros m e k Hk Hneg Hm. unfold value. assert (E : powerRZ 2 e = / IZR (Z.pos k)). { rewrite Hk. replace e with (- (- e))%Z at 1 by lia. rewrite powerRZ_neg'. f_equal. change 2 with (IZR radix2). rewrite <- bpow_powerRZ. symmetry. apply (IZR_Zpower radix2). lia. }
    rewrite E. assert (0 < IZR (Z.pos k)) by (apply IZR_lt; lia). assert (IZR (Z.pos m) <= IZR (Z.pos k)) by (apply IZR_le; lia). assert (0 <= IZR (Z.pos m)) by (apply IZR_le; lia).
    rewrite Rmult_1_l. split. { apply Rmult_le_pos; auto. left. now apply Rinv_0_lt_compat. } apply Rmult_le_reg_r with (IZR (Z.pos k)); auto. rewrite Rmult_assoc, Rinv_l by lra. lra. }
  destruct (@dot_bounded (value f64_01) (value f64_02) (value f64_01) (value f64_03)) as (r & Er); try (eapply V; [vm_compute; reflexivity|lia|vm_compute; discriminate]).
  exists r. destruct (@C93_v_dot 53 1024 (fun x _ => x) eq_refl eq_refl 2 [(value f64_01, 0); (value f64_02, 0)] [(value f64_01, 0); (value f64_03, 0)] [f64_01; f64_02] [f64_01; f64_03] r) as (_ & s & Es & Ws); auto.
  - repeat (apply Forall2_cons || apply Forall2_nil); (split; [vm_compute; reflexivity|split; [reflexivity|cbn [fst snd]; rewrite Rminus_diag_eq, Rabs_R0; auto; lra]]).
  - repeat (apply Forall2_cons || apply Forall2_nil); (split; [vm_compute; reflexivity|split; [reflexivity|cbn [fst snd]; rewrite Rminus_diag_eq, Rabs_R0; auto; lra]]).
  - exists s. auto.
Qed.
