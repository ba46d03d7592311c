(** C75 - C77: sampling and approximate comparison. *)
From Coq Require Import Reals Lra Lia Psatz.
From Verif Require Import SpecFacts VFacts VecProofs PropVector MFacts MatProofs PropMatrix AlgFacts CxFacts RealInst RealFacts PropReal
  PropSquare SpecDet SpecTransform PropTransform PropRot SpecDistr PropAlgebra DetFacts.
Set Implicit Arguments.
Local Open Scope nat_scope.
Local Open Scope list_scope.

(* ------------------------------------------------------------------------- *)
(** * C75                                                                      *)
Section C75.
  Context {G T : Type} (inner : distr G T).
  (** A vector is [N] draws from the inner distribution, in index order; a failure is the failure of one of them. *)
  Theorem C75_vector : forall N g,
    (forall g' v, v_distribution N inner g = Ok (g', v) <-> drawn inner N g g' v) /\
    (forall g' v, v_distribution N inner g = Ok (g', v) -> length v = N) /\
    (~ returns (v_distribution N inner g) ->
       exists k g1 l, k < N /\ drawn inner k g g1 l /\ fails_like (v_distribution N inner g) (inner g1)).
  Proof. intros. apply v_init_spec. Qed.
  (** A matrix is [M * N] draws in row-major order. *)
  Theorem C75_matrix : forall M N g,
    (forall g' m, m_distribution M N inner g = Ok (g', m) <-> rect M N m /\ drawn inner (M * N) g g' (concat m)) /\
    (~ returns (m_distribution M N inner g) ->
       exists k g1 l, k < M * N /\ drawn inner k g g1 l /\ fails_like (m_distribution M N inner g) (inner g1)).
  Proof. intros. apply m_init_spec. Qed.

  Theorem C75_complex : forall g g' z, c_distr (v_distribution 2 inner) g = Ok (g', z) <-> drawn inner 2 g g' [re z; im z].
  Proof.
    intros g g' z. unfold c_distr. rewrite <- (proj1 (C75_vector 2 g) g' [re z; im z]). destruct (v_distribution 2 inner g) as [[g1 v]| | |] eqn:E; cbn [bind].
    2-4: split; discriminate.
    pose proof (proj1 (proj2 (C75_vector 2 g)) g1 v E) as L. destruct v as [|a [|b [|? ?]]]; try discriminate. cbn. destruct z as [x y]. split; intros X; inversion X; reflexivity.
  Qed.
  Theorem C75_quaternion : forall g g' z, q_distr (v_distribution 4 inner) g = Ok (g', z) <-> drawn inner 4 g g' [qw z; qx z; qy z; qz z].
  Proof.
    intros g g' z. unfold q_distr. rewrite <- (proj1 (C75_vector 4 g) g' [qw z; qx z; qy z; qz z]). destruct (v_distribution 4 inner g) as [[g1 v]| | |] eqn:E; cbn [bind].
    2-4: split; discriminate.
    pose proof (proj1 (proj2 (C75_vector 4 g)) g1 v E) as L. destruct v as [|a [|b [|c [|d [|? ?]]]]]; try discriminate. cbn. destruct z. split; intros X; inversion X; reflexivity.
  Qed.
  Lemma drawn_app : forall n k (f : G -> res (G * T)) g g1 g2 a b, drawn f n g g1 a -> drawn f k g1 g2 b -> drawn f (n + k) g g2 (a ++ b).
  Proof. intros n k f g g1 g2 a b H. revert b. induction H; intros bs' H'; cbn; auto. econstructor; eauto. Qed.
  (** An affine transformation: the shift first, then the matrix. *)
  Theorem C75_affine : forall N g g' s m, affine_distr inner N (m_distribution N N inner) g = Ok (g', (s, m)) ->
    length s = N /\ rect N N m /\ drawn inner (N + N * N) g g' (s ++ concat m).
  Proof.
    intros N g g' s m. unfold affine_distr. destruct (v_distribution N inner g) as [[g1 v]| | |] eqn:E; cbn [bind]; try discriminate.
    destruct (m_distribution N N inner g1) as [[g2 a]| | |] eqn:E2; cbn [bind]; try discriminate. unfold chain_new. intros X. apply Ok_inj in X.
    injection X as -> -> ->. apply (proj1 (C75_matrix N N g1)) in E2 as (Rm & D2). pose proof (proj1 (proj2 (C75_vector N g)) g1 s E).
    apply (proj1 (C75_vector N g)) in E. split; auto. split; auto. eapply drawn_app; eauto.
  Qed.
End C75.
(** The draws and the final generator state are functions of the initial state. *)
Theorem C75_deterministic : forall G T (inner : distr G T) n g g1 g2 a b,
  drawn inner n g g1 a -> drawn inner n g g2 b -> g1 = g2 /\ a = b.
Proof.
  intros G T inner n g g1 g2 a b H. revert g2 b. induction H as [c|n c c1 x c2 xs E D IH]; intros g2 b H'; inversion H'; subst; auto.
  rewrite E in H0. apply Ok_inj in H0. injection H0 as <- <-. edestruct IH as (-> & ->); eauto.
Qed.
Example C75_ex :
  v_distribution 3 (fun g => Ok (g + 2, g * g)) 1 = Ok (7, [1; 9; 25]) /\
  m_distribution 2 2 (fun g => Ok (S g, g)) 1 = Ok (5, [[1; 2]; [3; 4]]) /\
  c_distr (v_distribution 2 (fun g => Ok (S g, g))) 1 = Ok (3, Cx 1 2) /\
  affine_distr (fun g => Ok (S g, g)) 2 (m_distribution 2 2 (fun g => Ok (S g, g))) 1 = Ok (7, ([1; 2], [[3; 4]; [5; 6]])).
Proof. repeat split. Qed.

(* ------------------------------------------------------------------------- *)
(** * C76                                                                      *)
(** The rejection loop, whatever is drawn and tested: with a test that always returns, it returns exactly the first
    accepted value; running out of [fuel] means that many rejections. *)
Theorem C76_rejection : forall G A (draw : distr G A) (test : A -> bool) fuel g,
  (forall g' x, reject_loop fuel draw (ok1 test) g = Ok (g', x) <->
     exists n, n < fuel /\ first_good (fun g g' x => draw g = Ok (g', x)) (fun x => test x = true) n g g' x) /\
  ((forall g, returns (draw g)) -> reject_loop fuel draw (ok1 test) g = Fuel ->
     exists g', all_bad (fun g g' x => draw g = Ok (g', x)) (fun x => test x = true) fuel g g').
Proof.
  intros G A draw test. induction fuel as [|k IH]; intros g; cbn [reject_loop].
  - split; [intros; split; [discriminate|intros (n & H & _); lia]|]. intros. eexists. constructor.
  - split.
    + intros g' x. destruct (draw g) as [[g1 y]| | |] eqn:E; cbn [bind].
      2-4: split; [discriminate|]; intros (n & H & F); inversion F; subst; congruence.
      unfold ok1. cbn [bind]. destruct (test y) eqn:Et.
      * split.
        -- intros X. apply Ok_inj in X. injection X as <- <-. exists 0. split; [lia|]. constructor; auto.
        -- intros (n & H & F). inversion F; subst; rewrite E in H0; apply Ok_inj in H0; injection H0 as <- <-; [reflexivity|congruence].
      * change (fun a : A => Ok (test a)) with (ok1 test). rewrite (proj1 (IH g1)). split.
        -- intros (n & H & F). exists (S n). split; [lia|]. econstructor; eauto. congruence.
        -- intros (n & H & F). inversion F; subst; rewrite E in H0; apply Ok_inj in H0; injection H0 as <- <-; [congruence|].
           exists n0. split; [lia|auto].
    + intros Hd. destruct (Hd g) as ((g1 & y) & E). rewrite E. cbn [bind ok1]. destruct (test y) eqn:Et; [discriminate|]. intros F.
      destruct (proj2 (IH g1) Hd F) as (g' & B). exists g'. econstructor; eauto. congruence.
Qed.

Lemma reject_ext : forall G A (draw : distr G A) acc acc' (P : A -> Prop) fuel g,
  (forall g g' x, draw g = Ok (g', x) -> P x) -> (forall x, P x -> acc x = acc' x) -> reject_loop fuel draw acc g = reject_loop fuel draw acc' g.
Proof.
  intros G A draw acc acc' P fuel g HP HE. revert g. induction fuel as [|k IH]; intros g; cbn [reject_loop]; auto.
  destruct (draw g) as [[g1 y]| | |] eqn:E; cbn [bind]; auto. rewrite HE by eauto. destruct (acc' y) as [[]| | |]; cbn [bind]; auto.
Qed.
Lemma first_good_impl : forall G A (src src' : G -> G -> A -> Prop) (good good' : A -> Prop) n g g' x,
  (forall g g' x, src g g' x -> src' g g' x /\ (good x <-> good' x)) -> first_good src good n g g' x -> first_good src' good' n g g' x.
Proof.
  intros G A src src' good good' n g g' x H F. induction F; destruct (H _ _ _ H0) as (K & E).
  - constructor; tauto.
  - econstructor; eauto. tauto.
Qed.
Lemma first_good_last : forall G A (src : G -> G -> A -> Prop) (good : A -> Prop) n g g' x, first_good src good n g g' x -> good x /\ exists g1, src g1 g' x.
Proof. intros G A src good n g g' x F. induction F; eauto. Qed.

(** [NonZero] for any scalar type, floats included: it never returns a vector whose computed length fails the test
    (in particular no vector whose length is NaN), and never anything else than a draw. *)
Theorem C76_nonzero_any : forall G T (o : Ops T) (F : FloatOps T) (normal : distr G T) fuel N g g' x,
  nonzero_v o F normal fuel N g = Ok (g', x) ->
  exists l g1, v_length o (f_sqrt F) x = Ok l /\ o_lt o (f_epsilon F) l = true /\ drawn normal N g1 g' x.
Proof.
  intros G T o F normal fuel N. unfold nonzero_v. induction fuel as [|k IH]; intros g g' x; cbn [reject_loop]; [discriminate|].
  destruct (v_distribution N normal g) as [[g1 y]| | |] eqn:E; cbn [bind]; try discriminate.
  destruct (v_length o (f_sqrt F) y) as [l| | |] eqn:El; cbn [bind]; try discriminate. destruct (o_lt o (f_epsilon F) l) eqn:Et; [|apply IH].
  intros X. apply Ok_inj in X. injection X as <- <-. exists l, g. split; auto. split; auto. apply (proj1 (C75_vector normal N g)). auto.
Qed.

Section C76.
  Local Open Scope R_scope.
  Context {G : Type} (normal : distr G R) (eps : R).
  Local Notation fl := (r_float eps).
  Local Notation draw N := (fun g g' (x : list R) => drawn normal N g g' x).
  (** The Euclidean length of the components. *)
  Definition len (x : list R) : R := sqrt (bigsum r_ring (length x) (fun i => nth i x 0 * nth i x 0)).
  Lemma len_v : forall N x, length x = N -> (0 < N)%nat -> v_length r_ops sqrt x = Ok (len x).
  Proof.
    intros N x L H. unfold len. rewrite L. pose proof (@vk_of _ N x 0 L) as E. rewrite E at 1. apply rv_length. auto.
  Qed.
  Lemma nonzero_test : forall N fuel g, (0 < N)%nat ->
    nonzero_v r_ops fl normal fuel N g = reject_loop fuel (v_distribution N normal) (ok1 (fun x => r_ltb eps (len x))) g.
  Proof.
    intros N fuel g HN. unfold nonzero_v. apply reject_ext with (P := fun x => length x = N).
    - intros ? ? ? E. eapply (proj1 (proj2 (C75_vector normal N _))); eauto.
    - intros x L. cbn [f_sqrt f_epsilon r_float o_lt r_ops]. rewrite (len_v _ L HN). reflexivity.
  Qed.
  (** [NonZero] draws vectors until the length exceeds epsilon, and returns that one. *)
  Theorem C76_nonzero : forall N fuel g g' x, (0 < N)%nat ->
    nonzero_v r_ops fl normal fuel N g = Ok (g', x) <-> exists n, (n < fuel)%nat /\ first_good (draw N) (fun x => eps < len x) n g g' x.
  Proof.
    intros N fuel g g' x HN. rewrite nonzero_test by auto. rewrite (proj1 (C76_rejection _ _ _ _)).
    split; intros (n & Hn & F); exists n; split; auto; eapply first_good_impl; try exact F; cbn beta; intros; rewrite r_ltb_true.
    - split; [|tauto]. apply (proj1 (C75_vector normal N _)). auto.
    - split; [|tauto]. apply (proj1 (C75_vector normal N _)). auto.
  Qed.
  Corollary C76_nonzero_length : forall N fuel g g' x, (0 < N)%nat -> 0 <= eps ->
    nonzero_v r_ops fl normal fuel N g = Ok (g', x) -> length x = N /\ v_length r_ops sqrt x = Ok (len x) /\ 0 < len x /\ eps < len x.
  Proof.
    intros N fuel g g' x HN He H. apply C76_nonzero in H as (n & _ & F); auto. destruct (first_good_last F) as (Hl & g1 & D).
    assert (L : length x = N). { apply (proj1 (proj2 (C75_vector normal N g1)) g'). apply (proj1 (C75_vector normal N g1)). auto. }
    split; auto. split; [apply (len_v _ L HN)|]. lra.
  Qed.
  (** The length of an empty vector panics, so [NonZero] cannot produce one. *)
  Theorem C76_nonzero_empty : forall fuel g, nonzero_v r_ops fl normal (S fuel) 0 g = Panic.
  Proof. intros. reflexivity. Qed.

  (** [Unit] returns the normalized first non-zero draw; its length is one. *)
  Theorem C76_unit : forall N fuel g g' u, (0 < N)%nat -> 0 <= eps ->
    unit_v r_ops fl normal fuel N g = Ok (g', u) ->
    length u = N /\ len u = 1 /\ v_length r_ops sqrt u = Ok 1 /\
    exists n x, (n < fuel)%nat /\ first_good (draw N) (fun x => eps < len x) n g g' x /\ forall i, nth i x 0 = len x * nth i u 0.
  Proof.
    intros N fuel g g' u HN He H. unfold unit_v in H. destruct (nonzero_v r_ops fl normal fuel N g) as [[g1 x]| | |] eqn:E; cbn [bind] in H; try discriminate.
    destruct (@C76_nonzero_length _ _ _ _ _ HN He E) as (L & _ & Lp & Lt).
    assert (Nm : v_normalize r_ops (f_sqrt fl) x = Ok (vk N (fun i => nth i x 0 / len x))).
    { pose proof (@vk_of _ N x 0 L) as Ex. cbn [f_sqrt r_float]. rewrite Ex at 1. unfold len in Lp |- *. rewrite L in Lp |- *. apply rv_normalize; auto.
      change (sqrt (bigsum r_ring N (fun i => nth i x 0 * nth i x 0)) <> 0). lra. }
    rewrite Nm in H. cbn [bind] in H. apply Ok_inj in H. injection H as <- <-.
    assert (Lu : len (vk N (fun i => nth i x 0 / len x)) = 1).
    { unfold len at 1. rewrite vk_length. apply sqrt_lem_1; try lra. { apply rsum_nonneg. intros. apply sqpos. } rewrite Rmult_1_l.
      rewrite (@bigsum_ext _ _ r_ring N _ (fun i => (/ len x * / len x) * (nth i x 0 * nth i x 0))).
      2: { intros i Hi. rewrite (nth_vk (fun i => nth i x 0 / len x) 0 Hi). field. lra. }
      change (1 = rsum N (fun i => / len x * / len x * (nth i x 0 * nth i x 0))). rewrite rsum_mul_l.
      assert (S : rsum N (fun i => nth i x 0 * nth i x 0) = len x * len x).
      { unfold len. rewrite L. symmetry. apply sqrt_sqrt. apply rsum_nonneg. intros. apply sqpos. }
      rewrite S. field. lra. }
    split; [apply vk_length|]. split; auto. split. { rewrite (len_v (vk N _) (vk_length _ _) HN). rewrite Lu. reflexivity. }
    apply C76_nonzero in E as (n & Hn & F); auto. exists n, x. split; auto. split; auto.
    intros i. destruct (Nat.lt_ge_cases i N) as [Hi|Hi].
    - rewrite (nth_vk (fun i => nth i x 0 / len x) 0 Hi). field. lra.
    - rewrite !nth_overflow by (rewrite ?vk_length; lia). lra.
  Qed.

  (** [Invertible] draws matrices until the determinant is more than epsilon away from zero; the result has an inverse. *)
  Theorem C76_invertible : forall N fuel g g' m,
    invertible_m r_ops fl normal fuel N g = Ok (g', m) <->
    exists n, (n < fuel)%nat /\
      first_good (fun g g' m => rect N N m /\ drawn normal (N * N) g g' (concat m))
        (fun m => eps < Rabs (leibniz r_ring N (mget r_ops m))) n g g' m.
  Proof.
    intros N fuel g g' m. unfold invertible_m.
    rewrite (@reject_ext _ _ _ _ (ok1 (fun x => negb (r_leb (Rabs (Rabs (leibniz r_ring N (mget r_ops x)))) eps))) (fun x => rect N N x)).
    2: { intros ? ? ? E. apply (proj1 (C75_matrix normal N N _)) in E. tauto. }
    2: { intros x Hx. rewrite (C30_leibniz r_ring Hx). reflexivity. }
    rewrite (proj1 (C76_rejection _ _ _ _)).
    split; intros (n & Hn & F); exists n; split; auto; eapply first_good_impl; try exact F; cbn beta; intros g0 g1 x Hx;
      rewrite Rabs_Rabsolu; rewrite (proj1 (C75_matrix normal N N _)) in *; split; auto; rewrite negb_true_iff, r_leb_false; tauto.
  Qed.
  Corollary C76_invertible_inverse : forall N fuel g g' m, 0 <= eps -> invertible_m r_ops fl normal fuel N g = Ok (g', m) ->
    rect N N m /\ exists d a, m_det r_ops N m = Ok d /\ eps < Rabs d /\ m_inv r_ops N m = Ok a /\
      m_dot r_ops N N N m a =! m_one r_ops N /\ m_dot r_ops N N N a m =! m_one r_ops N.
  Proof.
    intros N fuel g g' m He H. apply C76_invertible in H as (n & _ & F). destruct (first_good_last F) as (Hd & g1 & Rm & _).
    split; auto. pose proof (C30_leibniz r_ring Rm) as Ed. set (d := leibniz r_ring N (mget r_ops m)) in *.
    assert (Dz : d <> 0). { intros Z. rewrite Z, Rabs_R0 in Hd. lra. }
    destruct (C33_inverse r_field Rm Ed Dz) as (a & Ea & _ & L1 & L2). exists d, a. auto.
  Qed.
  (** The same for complex coefficients, with |re| + |im| of the determinant. *)
  Theorem C76_invertible_complex : forall crem (cnormal : distr G (complex R)) N fuel g g' m, 0 <= eps ->
    invertible_cm r_ops fl crem cnormal fuel N g = Ok (g', m) ->
    rect N N m /\ (exists g1, drawn cnormal (N * N) g1 g' (concat m)) /\
    exists d a, m_det (c_ops r_ops crem) N m = Ok d /\ eps < Rabs (re d) + Rabs (im d) /\ m_inv (c_ops r_ops crem) N m = Ok a /\
      m_dot (c_ops r_ops crem) N N N m a =! m_one (c_ops r_ops crem) N /\ m_dot (c_ops r_ops crem) N N N a m =! m_one (c_ops r_ops crem) N.
  Proof.
    intros crem cnormal N fuel g g' m He H. unfold invertible_cm in H. revert g H. induction fuel as [|k IH]; intros g; cbn [reject_loop]; [discriminate|].
    destruct (m_distribution N N cnormal g) as [[g1 y]| | |] eqn:E; cbn [bind]; try discriminate.
    pose proof (proj1 (proj1 (C75_matrix cnormal N N g) _ _) E) as (Ry & D).
    pose proof (C30_leibniz (c_ring_inst r_ring crem) Ry) as Ed. set (d := leibniz (c_ring_inst r_ring crem) N (mget (c_ops r_ops crem) y)) in *. clearbody d.
    rewrite Ed. cbn [bind].
    assert (En : c_norm_l1 r_ops (ok1 (f_abs fl)) d = Ok (Rabs (re d) + Rabs (im d))). { destruct d. reflexivity. }
    rewrite En. cbn [bind]. destruct (negb (is_epsilon r_ops fl (Rabs (re d) + Rabs (im d)))) eqn:Et; [|apply IH].
    intros X. apply Ok_inj in X. injection X as <- <-. split; auto. split; [eauto|].
    apply negb_true_iff in Et. unfold is_epsilon in Et. cbn [o_le r_ops f_abs f_epsilon r_float] in Et. apply r_leb_false in Et.
    pose proof (Rabs_pos (re d)). pose proof (Rabs_pos (im d)). rewrite Rabs_pos_eq in Et by lra.
    assert (Dz : d <> o_zero (c_ops r_ops crem)). { intros Z. rewrite Z in Et. cbn in Et. rewrite Rabs_R0 in Et. lra. }
    destruct (C33_inverse (c_field_inst (F:=r_field) crem r_real2) Ry Ed Dz) as (a & Ea & _ & L1 & L2). exists d, a. auto.
  Qed.

  (** Complex numbers and quaternions *)
  Theorem C76_unit_complex : forall fuel g g' z, 0 <= eps ->
    c_distr (unit_v r_ops fl normal fuel 2) g = Ok (g', z) -> unit_c r_ops z.
  Proof.
    intros fuel g g' z He. unfold c_distr. destruct (unit_v r_ops fl normal fuel 2 g) as [[g1 v]| | |] eqn:E; cbn [bind]; try discriminate.
    apply C76_unit in E as (L & Lu & _); auto. destruct v as [|a [|b [|? ?]]]; try discriminate. cbn [c_from_vector bind]. intros X. apply Ok_inj in X. injection X as <- <-.
    apply unit_c_r. unfold len in Lu. cbn in Lu. apply (f_equal (fun t => t * t)) in Lu. rewrite sqrt_sqrt in Lu by nra. lra.
  Qed.
  Theorem C76_unit_quaternion : forall fuel g g' z, 0 <= eps ->
    q_distr (unit_v r_ops fl normal fuel 4) g = Ok (g', z) -> unit_q r_ops z.
  Proof.
    intros fuel g g' z He. unfold q_distr. destruct (unit_v r_ops fl normal fuel 4 g) as [[g1 v]| | |] eqn:E; cbn [bind]; try discriminate.
    apply C76_unit in E as (L & Lu & _); auto. destruct v as [|a [|b [|c [|d [|? ?]]]]]; try discriminate. cbn [q_from_vector bind]. intros X. apply Ok_inj in X. injection X as <- <-.
    apply unit_q_r. unfold len in Lu. cbn in Lu. apply (f_equal (fun t => t * t)) in Lu. rewrite sqrt_sqrt in Lu by nra. lra.
  Qed.
  Theorem C76_nonzero_complex_quaternion : forall fuel g g', 0 <= eps ->
    (forall z, c_distr (nonzero_v r_ops fl normal fuel 2) g = Ok (g', z) -> exists n, c_norm r_ops fl z = Ok n /\ eps < n) /\
    (forall z, q_distr (nonzero_v r_ops fl normal fuel 4) g = Ok (g', z) -> exists n, q_norm r_ops fl z = Ok n /\ eps < n).
  Proof.
    intros fuel g g' He. split; intros z; unfold c_distr, q_distr.
    - destruct (nonzero_v r_ops fl normal fuel 2 g) as [[g1 v]| | |] eqn:E; cbn [bind]; try discriminate.
      apply C76_nonzero_length in E as (L & Lv & _ & Lt); auto. destruct v as [|a [|b [|? ?]]]; try discriminate. cbn [c_from_vector bind]. intros X. apply Ok_inj in X. injection X as <- <-.
      eexists. split; [exact Lv|auto].
    - destruct (nonzero_v r_ops fl normal fuel 4 g) as [[g1 v]| | |] eqn:E; cbn [bind]; try discriminate.
      apply C76_nonzero_length in E as (L & Lv & _ & Lt); auto. destruct v as [|a [|b [|c [|d [|? ?]]]]]; try discriminate. cbn [q_from_vector bind]. intros X. apply Ok_inj in X. injection X as <- <-.
      eexists. split; [exact Lv|auto].
  Qed.

  (** [Uniform] rotations: unit, and the rotation by the sampled angle (about the sampled unit axis). *)
  Theorem C76_uniform2 : forall (ranged : distr G R) g g' r, uniform_rot2 fl ranged g = Ok (g', r) ->
    unit_c r_ops r /\ exists a, ranged g = Ok (g', a) /\ r = Cx (cos a) (sin a).
  Proof.
    intros ranged g g' r. unfold uniform_rot2. destruct (ranged g) as [[g1 a]| | |] eqn:E; cbn [bind]; try discriminate.
    intros X. apply Ok_inj in X. injection X as <- <-. split; eauto. apply unit_c_r. apply sc1.
  Qed.
  Theorem C76_uniform3 : forall (ranged : distr G R) fuel g g' r, 0 <= eps -> uniform_rot3 r_ops fl normal fuel ranged g = Ok (g', r) ->
    unit_q r_ops r /\ exists g1 n a, unit_v r_ops fl normal fuel 3 g = Ok (g1, n) /\ unit3 n /\ ranged g1 = Ok (g', a) /\
      rot3_new r_ops fl n a = Ok r.
  Proof.
    intros ranged fuel g g' r He. unfold uniform_rot3. destruct (unit_v r_ops fl normal fuel 3 g) as [[g1 n]| | |] eqn:E; cbn [bind]; try discriminate.
    destruct (ranged g1) as [[g2 a]| | |] eqn:Ea; cbn [bind]; try discriminate. destruct (rot3_new r_ops fl n a) as [q| | |] eqn:Eq; cbn [bind]; try discriminate.
    intros X. apply Ok_inj in X. injection X as <- <-. pose proof E as E0. apply C76_unit in E as (L & Lu & _); auto.
    assert (U : unit3 n).
    { destruct n as [|x [|y [|z [|? ?]]]]; try discriminate. apply unit3_i. unfold len in Lu. cbn in Lu. apply (f_equal (fun t => t * t)) in Lu.
      rewrite sqrt_sqrt in Lu by nra. lra. }
    destruct (C61_new3 eps a U) as (q' & Eq' & Uq & _). assert (q' = q) by congruence. subst q'. split; auto. exists g1, n, a. auto.
  Qed.

  (** The scalar [Normal]: for a draw u of [0, 1) and phi of [0, pi) every intermediate value is defined, the result is
      sqrt(-2 ln(1-u)) cos(phi). *)
  Theorem C76_normal : forall (unit half_turn : distr G R) g g1 g2 u phi,
    unit g = Ok (g1, u) -> half_turn g1 = Ok (g2, phi) -> 0 <= u < 1 ->
    normal_float r_ops fl ln unit half_turn g = Ok (g2, sqrt (ln (1 - u) * - 2) * cos phi) /\
    0 < 1 - u /\ 0 <= ln (1 - u) * - 2 /\ (sqrt (ln (1 - u) * - 2) * cos phi) * (sqrt (ln (1 - u) * - 2) * cos phi) <= - 2 * ln (1 - u).
  Proof.
    intros unit half_turn g g1 g2 u phi E1 E2 Hu. unfold normal_float. rewrite E1. cbn [bind]. cbn -[ln sqrt cos]. rewrite E2.
    assert (Hl : ln (1 - u) <= 0). { destruct (Req_dec u 0) as [->|]; [rewrite Rminus_0_r, ln_1; lra|]. left. rewrite <- ln_1. apply ln_increasing; lra. }
    split; [reflexivity|]. split; [lra|]. split; [lra|].
    match goal with |- sqrt ?q * _ * _ <= _ => assert (Hq : 0 <= q) by lra; set (p := q) in * end.
    replace (sqrt p * cos phi * (sqrt p * cos phi)) with ((sqrt p * sqrt p) * (cos phi * cos phi)) by ring.
    rewrite sqrt_sqrt by exact Hq. replace (-2 * ln (1 - u)) with p by (unfold p; ring).
    pose proof (sin2_cos2 phi) as SC. unfold Rsqr in SC. pose proof (sqpos (sin phi)). pose proof (sqpos (cos phi)). clearbody p. nra.
  Qed.
End C76.

(** A generator that counts: the first vector drawn is zero and is rejected. *)
Section C76_ex.
  Local Open Scope R_scope.
  Definition counting : distr nat R := fun g => Ok (S g, match g with 0%nat | 1%nat => 0 | 2%nat => 3 | _ => 6 end).
  Example C76_nonzero_ex : nonzero_v r_ops (r_float (1/2)) counting 5 2 0%nat = Ok (4%nat, [3; 6]).
  Proof.
    apply C76_nonzero; [lia|]. exists 1%nat. split; [lia|]. eapply fg_later with (g1 := 2%nat) (y := [0; 0]).
    - repeat econstructor.
    - unfold len. cbn. rewrite !Rmult_0_l, !Rplus_0_l, sqrt_0. lra.
    - apply fg_now.
      + repeat econstructor.
      + unfold len. cbn. replace (0 + 3 * 3 + 6 * 6) with 45 by ring. apply Rlt_trans with 1; [lra|]. rewrite <- sqrt_1 at 1. apply sqrt_lt_1_alt. lra.
  Qed.
  Example C76_invertible_ex : invertible_m r_ops (r_float (1/2)) counting 5 1 0%nat = Ok (3%nat, [[3]]).
  Proof.
    apply C76_invertible. exists 2%nat. split; [lia|]. eapply fg_later with (g1 := 1%nat) (y := [[0]]); [split; [repeat constructor|repeat econstructor]| |].
    { unfold leibniz, lsum, lprod, signed. cbn. rewrite Rmult_1_r, Rplus_0_r, Rabs_R0. lra. }
    eapply fg_later with (g1 := 2%nat) (y := [[0]]); [split; [repeat constructor|repeat econstructor]| |].
    { unfold leibniz, lsum, lprod, signed. cbn. rewrite Rmult_1_r, Rplus_0_r, Rabs_R0. lra. }
    apply fg_now. { split; [repeat constructor|]. repeat econstructor. }
    unfold leibniz, lsum, lprod, signed. cbn. rewrite Rmult_1_r, Rplus_0_r, Rabs_pos_eq; lra.
  Qed.
End C76_ex.

Print Assumptions C75_vector.
Print Assumptions C75_matrix.
Print Assumptions C75_complex.
Print Assumptions C75_quaternion.
Print Assumptions C75_affine.
Print Assumptions C75_deterministic.
Print Assumptions C76_rejection.
Print Assumptions C76_nonzero_any.
Print Assumptions C76_nonzero.
Print Assumptions C76_nonzero_length.
Print Assumptions C76_nonzero_empty.
Print Assumptions C76_unit.
Print Assumptions C76_invertible.
Print Assumptions C76_invertible_inverse.
Print Assumptions C76_invertible_complex.
Print Assumptions C76_unit_complex.
Print Assumptions C76_unit_quaternion.
Print Assumptions C76_nonzero_complex_quaternion.
Print Assumptions C76_uniform2.
Print Assumptions C76_uniform3.
Print Assumptions C76_normal.
