(** When it returns at all: exactly when no intermediate result leaves the word. *)
Section C70_dot.
  Local Open Scope Z_scope.
  Context (signed : bool) (w : Z).
  Local Notation prod u v := (fun i => vget z_ops u i * vget z_ops v i).
  Lemma fold_checked : forall n f z r,
    fold_res (o_add (checked_ops signed w)) z (vk n f) = Ok r <->
    r = z + bigsum z_ring n f /\ (forall k, (1 <= k <= n)%nat -> in_word signed w (z + bigsum z_ring k f)).
  Proof.
    induction n as [|n IH]; intros f z r.
    - cbn. rewrite Z.add_0_r. split; [intros E; apply Ok_inj in E; split; [auto|lia]|intros (-> & _); reflexivity].
    - rewrite vk_S. cbn [fold_res o_add checked_ops]. unfold check.
      assert (B : forall k, z + bigsum z_ring (S k) f = (z + f 0%nat) + bigsum z_ring k (fun i => f (S i))).
      { intros k. rewrite bigsum_shift. cbn [r_add z_ring c_ring CRing_of_theory]. cbn. lia. }
      destruct (in_wordb signed w (z + f 0%nat)) eqn:E; cbn [bind].
      + apply in_wordb_spec in E. rewrite IH, B. split; intros (-> & H); split; auto; intros k Hk.
        * destruct k as [|k]; [lia|]. rewrite B. destruct k; [cbn; rewrite Z.add_0_r; auto|]. apply H. lia.
        * rewrite <- B. apply H. lia.
      + split; [discriminate|]. intros (_ & H). specialize (H 1%nat ltac:(lia)). rewrite B in H. cbn in H. rewrite Z.add_0_r in H.
        apply in_wordb_spec in H. congruence.
  Qed.
  Lemma map_checked : forall n f g l,
    v_zip_map n (o_mul (checked_ops signed w)) (vk n f) (vk n g) = Ok l <->
    l = vk n (fun i => f i * g i) /\ forall i, (i < n)%nat -> in_word signed w (f i * g i).
  Proof.
    intros n f g l. rewrite v_zip_map_res by apply vk_length. revert f g l. induction n as [|n IH]; intros f g l.
    - cbn. split; [intros E; apply Ok_inj in E; split; [auto|lia]|intros (-> & _); reflexivity].
    - rewrite !vk_S. cbn [map2_res]. change (o_mul (checked_ops signed w) (f 0%nat) (g 0%nat)) with (check signed w (f 0%nat * g 0%nat)).
      unfold check. destruct (in_wordb signed w (f 0%nat * g 0%nat)) eqn:E; cbn [bind].
      + apply in_wordb_spec in E. split.
        * intros X. destruct (map2_res (o_mul (checked_ops signed w)) (vk n (fun i => f (S i))) (vk n (fun i => g (S i)))) as [l'| | |] eqn:El;
            cbn [bind] in X; try discriminate. apply Ok_inj in X. subst l. apply IH in El as (-> & H). split; auto.
          intros [|i] Hi; auto. apply H. lia.
        * intros (-> & H). pose proof (proj2 (IH (fun i => f (S i)) (fun i => g (S i)) (vk n (fun i => f (S i) * g (S i))))) as X. rewrite X; [reflexivity|].
          split; [reflexivity|]. intros i Hi. apply H. lia.
      + split; [discriminate|]. intros (_ & H). specialize (H 0%nat ltac:(lia)). apply in_wordb_spec in H. congruence.
  Qed.
  Theorem C70_dot_exact : forall N u v r, length u = N -> length v = N ->
    v_dot (checked_ops signed w) N u v = Ok r <->
    (0 < N)%nat /\ r = bigsum z_ring N (prod u v) /\
    (forall i, (i < N)%nat -> in_word signed w (vget z_ops u i * vget z_ops v i)) /\
    (forall k, (2 <= k <= N)%nat -> in_word signed w (bigsum z_ring k (prod u v))).
  Proof.
    intros N u v r Hu Hv. asfun z_ops. unfold v_dot.
    assert (V : forall k, (k <= N)%nat -> bigsum z_ring k (fun i => vget z_ops (vk N f0) i * vget z_ops (vk N f) i) = bigsum z_ring k (fun i => f0 i * f i)).
    { intros k Hk. apply bigsum_ext. intros. rewrite !vget_vk by lia. reflexivity. }
    destruct N as [|N]. { split; [discriminate|intros (H & _); lia]. }
    assert (B : forall k, bigsum z_ring (S k) (fun i => f0 i * f i) = f0 0%nat * f 0%nat + bigsum z_ring k (fun i => f0 (S i) * f (S i))).
    { intros k. rewrite bigsum_shift. reflexivity. }
    split.
    - intros X. destruct (v_zip_map (S N) (o_mul (checked_ops signed w)) (vk (S N) f0) (vk (S N) f)) as [l| | |] eqn:El; try discriminate.
      cbn [bind] in X. apply map_checked in El as (-> & H). rewrite vk_S in X. unfold v_sum in X. rewrite v_fold_first_cons in X.
      apply fold_checked in X as (-> & K). split; [lia|]. split; [rewrite V, B by lia; reflexivity|]. split.
      + intros i Hi. rewrite !vget_vk by auto. auto.
      + intros k Hk. rewrite V by lia. destruct k as [|k]; [lia|]. rewrite B. apply K. lia.
    - intros (_ & -> & H & K).
      assert (El : v_zip_map (S N) (o_mul (checked_ops signed w)) (vk (S N) f0) (vk (S N) f) = Ok (vk (S N) (fun i => f0 i * f i))).
      { apply map_checked. split; auto. intros i Hi. specialize (H i Hi). rewrite !vget_vk in H by auto. auto. }
      rewrite El. cbn [bind]. rewrite vk_S. unfold v_sum. rewrite v_fold_first_cons. apply fold_checked. split. { rewrite V, B by lia. reflexivity. }
      intros k Hk. specialize (K (S k) ltac:(lia)). rewrite V, B in K by lia. exact K.
  Qed.
  (** In particular when the absolute values of the terms add up to a representable number. *)
  Corollary C70_dot_no_overflow : forall N u v, length u = N -> length v = N -> (0 < N)%nat -> signed = true ->
    bigsum z_ring N (fun i => Z.abs (vget z_ops u i * vget z_ops v i)) <= int_max signed w ->
    v_dot (checked_ops signed w) N u v = Ok (bigsum z_ring N (prod u v)).
  Proof.
    intros N u v Hu Hv HN Hs H. apply C70_dot_exact; auto. split; auto. split; auto.
    set (p := prod u v) in *. set (A := fun i => Z.abs (p i)).
    assert (Bd : forall k, (k <= N)%nat -> Z.abs (bigsum z_ring k p) <= bigsum z_ring k A /\ bigsum z_ring k A <= bigsum z_ring N A).
    { intros k Hk. split.
      - clear. induction k as [|k IH]; cbn [bigsum]; [cbn; lia|]. change (r_add z_ring) with Z.add. unfold A at 2. lia.
      - induction N as [|M IH] in Hk |- *; [replace k with 0%nat by lia; lia|]. destruct (Nat.eq_dec k (S M)) as [->|]; [lia|].
        specialize (IH ltac:(lia)). cbn [bigsum]. change (r_add z_ring) with Z.add. assert (0 <= A M) by (apply Z.abs_nonneg). lia. }
    assert (Ab : forall i, (i < N)%nat -> A i <= bigsum z_ring N A).
    { intros i Hi. pose proof (proj2 (Bd (S i) ltac:(lia))) as X. cbn [bigsum] in X. change (r_add z_ring) with Z.add in X.
      pose proof (proj1 (Bd i ltac:(lia))). lia. }
    assert (Rg : forall x, Z.abs x <= int_max signed w -> in_word signed w x). { intros x. rewrite Hs. unfold in_word, int_min, int_max. lia. }
    split.
    - intros i Hi. apply Rg. specialize (Ab i Hi). unfold A, p in *. lia.
    - intros k Hk. apply Rg. destruct (Bd k ltac:(lia)). unfold A, p in *. lia.
  Qed.
End C70_dot.
Example C70_dot_ex : forall r,
  v_dot (checked_ops true 8) 2 [100; 100]%Z [1; 1]%Z = Panic /\ v_dot (checked_ops true 8) 3 [100; 100; -100]%Z [1; -1; 1]%Z = Ok (-100)%Z /\
  v_dot z_ops 3 [100; 100; -100]%Z [1; -1; 1]%Z = Ok (-100)%Z /\
  m_det (checked_ops true 8) 2 [[11; 5]; [3; 10]]%Z = Ok 95%Z /\ m_det (checked_ops true 8) 2 [[11; 5]; [3; 12]]%Z = Panic /\
  (m_det (checked_ops true 8) 2 [[11; 5]; [3; 10]]%Z = Ok r -> m_det z_ops 2 [[11; 5]; [3; 10]]%Z = Ok r).
Proof. intros r. repeat (split; [vm_compute; reflexivity|]). apply C70_m_det. repeat constructor. Qed.
