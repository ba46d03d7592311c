(** The results spelled out. *)
Section C71_values.
  Local Open Scope Z_scope.
  Context (signed : bool) (w : Z) (Hw : width signed w).
  Local Notation wrapping := (wrapping_ops signed w).
  Local Notation fits := (in_word signed w).
  (** [wrap] is exactly reduction to the word. *)
  Theorem C71_wrap : forall x y, y = wrap signed w x <-> fits y /\ exists k, y = x + k * 2 ^ w.
  Proof.
    intros x y. split. { intros ->. apply (@wrap_spec signed w Hw). }
    intros (Hy & k & E). rewrite <- (@wrap_id signed w Hw y Hy) at 1. apply (@wrap_cong signed w Hw y x k). auto.
  Qed.
  Theorem C71_dot_value : forall N u v, length u = N -> length v = N -> (0 < N)%nat -> Forall fits u -> Forall fits v ->
    v_dot wrapping N u v = Ok (wrap signed w (bigsum z_ring N (fun i => vget z_ops u i * vget z_ops v i))).
  Proof. intros. rewrite (@C71_v_dot signed w Hw) by auto. rewrite (C14_value z_ring) by auto. reflexivity. Qed.
  Theorem C71_product_value : forall L M N a b, rect L M a -> rect M N b -> (0 < M)%nat -> Forall (Forall fits) a -> Forall (Forall fits) b ->
    exists r, m_dot wrapping L M N a b = Ok r /\ rect L N r /\ forall i j, (i < L)%nat -> (j < N)%nat ->
      elt r i j = Some (wrap signed w (bigsum z_ring M (fun k => mget z_ops a i k * mget z_ops b k j))).
  Proof.
    intros L M N a b Ra Rb HM Fa Fb. rewrite (@C71_m_dot signed w Hw) by auto. destruct (C26_element z_ring Ra Rb HM) as (r & -> & Rr & E).
    eexists. split; [reflexivity|]. split.
    - destruct Rr as (Lr & Fr). split; [rewrite map_length; auto|]. rewrite Forall_map. eapply Forall_impl; [|exact Fr]. intros l. rewrite map_length. auto.
    - intros i j Hi Hj. specialize (E i j Hi Hj). unfold elt in *. rewrite nth_error_map. destruct (nth_error r i) as [x|]; [|discriminate]. cbn [option_map].
      rewrite nth_error_map, E. reflexivity.
  Qed.
  Theorem C71_det_value : forall N m, rect N N m -> Forall (Forall fits) m ->
    m_det wrapping N m = Ok (wrap signed w (leibniz z_ring N (mget z_ops m))).
  Proof. intros. rewrite (@C71_m_det signed w Hw) by auto. rewrite (C30_leibniz z_ring) by auto. reflexivity. Qed.
End C71_values.
Example C71_ex :
  width true 8 /\ Forall (in_word true 8) [100; 100]%Z /\ v_dot (wrapping_ops true 8) 2 [100; 100]%Z [1; 1]%Z = Ok (-56)%Z /\
  m_det (wrapping_ops true 8) 2 [[11; 5]; [3; 13]]%Z = Ok (-128)%Z /\ m_det z_ops 2 [[11; 5]; [3; 13]]%Z = Ok 128%Z /\
  q_mul (wrapping_ops true 8) (Qt 100 1 0 0)%Z (Qt 2 0 0 1)%Z = Ok (Qt (-56) 2 (-1) 100)%Z.
Proof. split; [cbn; lia|]. split; [repeat constructor; cbv; discriminate|]. vm_compute. auto. Qed.
