(** C104: a NaN cannot get lost.  If the scalar's operations hand a bad value on (a NaN, say), then so does every
    sum, product, determinant, inverse and transformation that reads it. *)
From Coq Require Import ZArith SpecFloat Lia.
From Verif Require Import SpecFacts VFacts VecProofs MFacts MatProofs AlgFacts DetFacts SqProofs RelFacts ComplexModel MoebiusModel TransformModel MathModel FloatInst PropFloat PropOrder.
Set Implicit Arguments.
Local Open Scope nat_scope.
Local Open Scope list_scope.

(* ------------------------------------------------------------------------- *)
(** * Specification                                                           *)
(** An operation hands on a bad operand: whenever it returns, the result is bad too. *)
Definition keeps1 {T : Type} (bad : T -> bool) (f : T -> res T) : Prop := forall x z, f x = Ok z -> bad x = true -> bad z = true.
Definition keeps2 {T : Type} (bad : T -> bool) (f : T -> T -> res T) : Prop :=
  forall x y z, f x y = Ok z -> bad x = true \/ bad y = true -> bad z = true.
Definition absorbing {T : Type} (bad : T -> bool) (o : Ops T) : Prop :=
  keeps2 bad (o_add o) /\ keeps2 bad (o_sub o) /\ keeps2 bad (o_mul o) /\ keeps1 bad (o_neg o).
Definition absorbing_div {T : Type} (bad : T -> bool) (o : Ops T) : Prop := absorbing bad o /\ keeps2 bad (o_div o).
(** Some component is bad; all are. *)
Definition has {T : Type} (bad : T -> bool) (u : list T) : Prop := exists x, In x u /\ bad x = true.
Definition all {T : Type} (bad : T -> bool) (u : list T) : Prop := forall x, In x u -> bad x = true.
Definition mhas {T : Type} (bad : T -> bool) (m : list (list T)) : Prop := exists r, In r m /\ has bad r.
Definition mall {T : Type} (bad : T -> bool) (m : list (list T)) : Prop := forall r, In r m -> all bad r.
Definition c_has {T : Type} (bad : T -> bool) (z : complex T) : bool := bad (re z) || bad (im z).
Definition c_all {T : Type} (bad : T -> bool) (z : complex T) : bool := bad (re z) && bad (im z).
Definition q_has {T : Type} (bad : T -> bool) (q : quat T) : bool := bad (qw q) || bad (qx q) || bad (qy q) || bad (qz q).
Definition q_all {T : Type} (bad : T -> bool) (q : quat T) : bool := bad (qw q) && bad (qx q) && bad (qy q) && bad (qz q).
(** Row [i] and column [j] of a matrix. *)
Definition row_has {T : Type} (bad : T -> bool) (m : list (list T)) (i : nat) : Prop := exists j x, elt m i j = Some x /\ bad x = true.
Definition col_has {T : Type} (bad : T -> bool) (m : list (list T)) (j : nat) : Prop := exists i x, elt m i j = Some x /\ bad x = true.

(** Not a finite number: NaN or an infinity. *)
Definition not_finite (x : spec_float) : bool := match x with S754_nan | S754_infinity _ => true | _ => false end.

(* ------------------------------------------------------------------------- *)
(** * Proofs: run the code on booleans ("is it bad?") next to the real run     *)
Definition t_ops : Ops bool := pure_ops false false orb orb orb orb orb (fun b => b) (fun b => b) Bool.eqb (fun _ _ => false) (fun _ _ => true).

Lemma fold_orb : forall l b, fold_res (o_add t_ops) b l = Ok (b || existsb (fun c => c) l)%bool.
Proof. induction l as [|a l IH]; intros b; cbn [fold_res existsb]. { rewrite Bool.orb_false_r. reflexivity. } cbn. rewrite IH, Bool.orb_assoc. reflexivity. Qed.
Lemma t_sum : forall u, 0 < length u -> v_sum t_ops u = Ok (existsb (fun c => c) u).
Proof. intros [|b u] H; [cbn in H; lia|]. unfold v_sum. rewrite v_fold_first_cons, fold_orb. reflexivity. Qed.
Definition t_any (N : nat) (f : nat -> bool) : bool := existsb f (seq 0 N).
Lemma existsb_vk : forall N f, existsb (fun c => c) (vk N f) = t_any N f.
Proof. intros. unfold vk, t_any. induction (seq 0 N); cbn; congruence. Qed.
Lemma t_any_true : forall N f, t_any N f = true <-> exists k, k < N /\ f k = true.
Proof.
  intros. unfold t_any. rewrite existsb_exists. split; intros (k & H & K); exists k; split; auto.
  - apply in_seq in H. lia.
  - apply in_seq. lia.
Qed.
Lemma t_sum_vk : forall N f, 0 < N -> v_sum t_ops (vk N f) = Ok (t_any N f).
Proof. intros. rewrite t_sum by (rewrite vk_length; auto). rewrite existsb_vk. reflexivity. Qed.
Definition tdot (N : nat) (u v : list bool) : bool := t_any N (fun k => orb (nth k u false) (nth k v false)).
Lemma t_dot_ok : forall N u v, length u = N -> length v = N -> 0 < N -> v_dot t_ops N u v = Ok (tdot N u v).
Proof.
  intros N u v Hu Hv H. destruct (@vk_ex _ t_ops N u Hu) as (f & ->). destruct (@vk_ex _ t_ops N v Hv) as (g & ->). unfold v_dot, v_mul.
  rewrite (@v_zip_map_vk _ _ _ N (o_mul t_ops) f g (fun i => orb (f i) (g i))) by reflexivity. cbn [bind]. rewrite t_sum_vk by auto.
  f_equal. unfold tdot, t_any. apply Bool.eq_iff_eq_true. rewrite !existsb_exists. split; intros (k & Hk & E); exists k; split; auto; revert E; apply in_seq in Hk; rewrite !nth_vk by lia; auto.
Qed.

(** The determinant on booleans. *)
Lemma t_rdet : forall N f rows cols, length cols = length rows -> (forall i, In i rows -> i < N) -> (forall j, In j cols -> j < N) ->
  exists b, rdet t_ops (mk N N f) rows cols = Ok b /\ (forall i j, In i rows -> In j cols -> f i j = true -> b = true).
Proof.
  intros N f rows. induction rows as [|r rows IH]; intros cols L Hr Hc.
  { exists false. split; [reflexivity|]. intros i j [] . }
  assert (S1 : forall k, k < length cols -> exists b, rdet t_ops (mk N N f) rows (remove_at k cols) = Ok b /\
    (forall i j, In i rows -> In j (remove_at k cols) -> f i j = true -> b = true)).
  { intros k Hk. apply IH. { rewrite remove_at_length by auto. cbn in L. lia. } { intros. apply Hr. right. auto. }
    intros j Hj. apply In_nth with (d := 0) in Hj as (a & Ha & <-). rewrite nth_remove_at. rewrite remove_at_length in Ha by auto.
    apply Hc. apply nth_In. unfold skip. destruct (a <? k) eqn:E; [apply Nat.ltb_lt in E|]; lia. }
  assert (F : forall ks, (forall k, In k ks -> k < length cols) -> forall a, exists b,
    fold_res (fun a k => let! x := m_index (mk N N f) (r, nth k cols 0) in let! c := rdet t_ops (mk N N f) rows (remove_at k cols) in
       let! c1 := rneg t_ops k c in let! p := o_mul t_ops x c1 in o_add t_ops a p) a ks = Ok b /\
    (a = true -> b = true) /\
    (forall k, In k ks -> f r (nth k cols 0) = true \/ (exists i j, In i rows /\ In j (remove_at k cols) /\ f i j = true) -> b = true)).
  { induction ks as [|k ks IHk]; intros Hk a; cbn [fold_res]. { exists a. repeat split; auto; intros k []. }
    destruct (S1 k) as (d & Ed & Kd). { apply Hk. left. auto. }
    assert (Hn : nth k cols 0 < N). { apply Hc. apply nth_In. apply Hk. left. auto. }
    assert (Hri : r < N). { apply Hr. left. auto. }
    rewrite m_index_mk by auto. cbn [bind]. rewrite Ed. cbn [bind]. assert (En : rneg t_ops k d = Ok d) by (unfold rneg; destruct (_ =? 0); reflexivity).
    rewrite En. cbn [bind]. destruct (IHk (fun k' H' => Hk k' (or_intror H')) (orb a (orb (f r (nth k cols 0)) d))) as (b & Eb & Ka & Kb).
    exists b. cbn. split; [exact Eb|]. split. { intros ->. apply Ka. reflexivity. }
    intros k' [<-|Hk'] K; [|eauto]. apply Ka. destruct K as [K|(i & j & K1 & K2 & K3)].
    - rewrite K. cbn. apply Bool.orb_true_r.
    - rewrite (Kd i j) by auto. rewrite !Bool.orb_true_r. reflexivity. }
  destruct (F (seq 0 (length cols))) with (a := false) as (b & Eb & _ & Kb). { intros k Hk. apply in_seq in Hk. lia. }
  exists b. split; [exact Eb|]. intros i j [<-|Hi] Hj E.
  - apply In_nth with (d := 0) in Hj as (p & Hp & <-). apply Kb with p. { apply in_seq. lia. } left. auto.
  - apply In_nth with (d := 0) in Hj as (p & Hp & <-).
    assert (L2 : 1 < length cols). { destruct rows; [destruct Hi|]. cbn in L. lia. }
    assert (exists k, k < length cols /\ k <> p) as (k & Hk & Np). { destruct p; [exists 1|exists 0]; lia. }
    apply Kb with k. { apply in_seq. lia. } right. exists i, (nth p cols 0). repeat split; auto.
    assert (exists a, skip k a = p /\ a < length cols - 1) as (a & <- & Ha).
    { unfold skip. destruct (lt_dec p k); [exists p|exists (p - 1)].
      - assert (X : (p <? k) = true) by (apply Nat.ltb_lt; auto). rewrite X. split; auto. lia.
      - assert (X : (p - 1 <? k) = false) by (apply Nat.ltb_ge; lia). rewrite X. split; lia. }
    rewrite <- nth_remove_at. apply nth_In. rewrite remove_at_length by auto. auto.
Qed.

Lemma map_res_nth_inv : forall A B (f : A -> res B) l w, map_res f l = Ok w -> forall i y, nth_error w i = Some y -> exists x, nth_error l i = Some x /\ f x = Ok y.
Proof.
  intros A B f l. induction l as [|a l IH]; intros w E; cbn [map_res] in E. { apply Ok_inj in E. subst w. intros [|i] y H; discriminate. }
  destruct (f a) as [b| | |] eqn:Ea; try discriminate. cbn [bind] in E. destruct (map_res f l) as [t| | |]; try discriminate. cbn [bind] in E. apply Ok_inj in E. subst w.
  intros [|i] y H; cbn in H. { injection H as <-. exists a. auto. } apply (IH t eq_refl i y H).
Qed.
Lemma v_map_nth_inv : forall A B (f : A -> res B) l w, v_map f l = Ok w -> forall i y, nth_error w i = Some y -> exists x, nth_error l i = Some x /\ f x = Ok y.
Proof. intros A B f l w E. rewrite v_map_res in E. apply map_res_nth_inv. exact E. Qed.
Lemma m_map_elt_inv : forall A B (f : A -> res B) m w, m_map f m = Ok w -> forall i j y, elt w i j = Some y -> exists x, elt m i j = Some x /\ f x = Ok y.
Proof.
  intros A B f m w E i j y H. rewrite m_map_res in E. unfold elt in *. destruct (nth_error w i) as [r|] eqn:Er; [|discriminate].
  destruct (map_res_nth_inv _ _ E _ Er) as (s & Es & Fs). rewrite Es. apply (map_res_nth_inv _ _ Fs _ H).
Qed.

Section Absorb.
  Context {T : Type} (o : Ops T) (bad : T -> bool).
  Definition R (x : T) (b : bool) : Prop := b = true -> bad x = true.
  Context (A : absorbing bad o).
  Local Notation rr := (rrel false).

  Lemma rr_keeps2 : forall f, keeps2 bad f -> forall x b y c, R x b -> R y c -> rr R (f x y) (Ok (b || c)).
  Proof.
    intros f K x b y c Hx Hy. destruct (f x y) as [z| | |] eqn:E; cbn; auto. intros H. apply (K _ _ _ E). apply Bool.orb_true_iff in H as [->| ->]; auto.
  Qed.
  Lemma t_rel : OpsRel false R o t_ops.
  Proof.
    destruct A as (Ka & Ks & Km & Kn). constructor; try (intros; apply rr_keeps2; auto); try (intros H; discriminate H).
    intros x b H. cbn. destruct (o_neg o x) as [z| | |] eqn:E; cbn; auto. intros ->. apply (Kn _ _ E). auto.
  Qed.
  Lemma t_div_rel : keeps2 bad (o_div o) -> DivRel false R o t_ops.
  Proof. intros K x b y c. apply (rr_keeps2 K). Qed.

  (** The booleans of a vector and a matrix. *)
  Definition tv (u : list T) (i : nat) : bool := match nth_error u i with Some x => bad x | None => false end.
  Definition tm (m : list (list T)) (i j : nat) : bool := match elt m i j with Some x => bad x | None => false end.
  Lemma tv_rel : forall N u, length u = N -> vrel N R u (vk N (tv u)).
  Proof.
    intros N u H. split; auto. apply Forall2_nth. { rewrite vk_length. auto. } intros i x b E1 E2. rewrite nth_error_vk in E2.
    destruct (i <? N); [|discriminate]. injection E2 as <-. unfold R, tv. rewrite E1. auto.
  Qed.
  Lemma tm_rel : forall M N m, rect M N m -> mrel M N R m (mk M N (tm m)).
  Proof.
    intros M N m H. apply mrel_elt; auto using rect_mk. intros i j x b E1 E2. rewrite elt_mk in E2. destruct (_ && _)%bool; [|discriminate].
    injection E2 as <-. unfold R, tm. rewrite E1. auto.
  Qed.
  Lemma has_tv : forall N u, length u = N -> has bad u -> exists k, k < N /\ tv u k = true.
  Proof.
    intros N u L (x & Hx & B). apply In_nth_error in Hx as (k & E). exists k. split. { rewrite <- L. apply nth_error_Some. congruence. }
    unfold tv. rewrite E. exact B.
  Qed.
  Lemma mhas_tm : forall M N m, rect M N m -> mhas bad m -> exists i j, i < M /\ j < N /\ tm m i j = true.
  Proof.
    intros M N m (L & F) (r & Hr & x & Hx & B). apply In_nth_error in Hr as (i & Ei). apply In_nth_error in Hx as (j & Ej). exists i, j.
    assert (i < M) by (rewrite <- L; apply nth_error_Some; congruence). pose proof (nth_error_Forall F Ei) as Lr. cbn in Lr.
    assert (j < N) by (rewrite <- Lr; apply nth_error_Some; congruence). repeat split; auto. unfold tm, elt. rewrite Ei, Ej. exact B.
  Qed.
  Lemma elt_tm : forall m i j x, elt m i j = Some x -> bad x = true -> tm m i j = true.
  Proof. intros m i j x E B. unfold tm. rewrite E. exact B. Qed.
  Lemma elt_lt : forall M N (m : list (list T)) i j x, rect M N m -> elt m i j = Some x -> i < M /\ j < N.
  Proof.
    intros M N m i j x (L & F) E. unfold elt in E. destruct (nth_error m i) as [r|] eqn:Ei; [|discriminate]. pose proof (nth_error_Forall F Ei) as Lr. cbn in Lr.
    split; [rewrite <- L|rewrite <- Lr]; apply nth_error_Some; congruence.
  Qed.

  Arguments tv_rel {N u} _. Arguments tm_rel {M N m} _. Arguments has_tv {N u} _ _. Arguments mhas_tm {M N m} _ _.
  (** Reading the conclusions off. *)
  Lemma read1 : forall z r, rr R (Ok z) r -> r = Ok true -> bad z = true.
  Proof. intros z r H ->. apply H. reflexivity. Qed.
  Lemma readv : forall N w f, rr (vrel N R) (Ok w) (Ok (vk N f)) -> forall i x, nth_error w i = Some x -> f i = true -> bad x = true.
  Proof.
    intros N w f H i x E K. cbn in H. destruct (vrel_length H) as (L & _). destruct H as (_ & F). assert (Hi : i < N) by (rewrite <- L; apply nth_error_Some; congruence).
    assert (E2 : nth_error (vk N f) i = Some (f i)). { rewrite nth_error_vk. apply Nat.ltb_lt in Hi. rewrite Hi. reflexivity. }
    apply (Forall2_nth_inv _ F E E2). exact K.
  Qed.
  Lemma readm : forall M N w f, rr (mrel M N R) (Ok w) (Ok (mk M N f)) -> forall i j x, elt w i j = Some x -> f i j = true -> bad x = true.
  Proof.
    intros M N w f H i j x E K. cbn in H. destruct (mrel_rect H) as (Rw & _). destruct (elt_lt _ _ Rw E) as (Hi & Hj).
    assert (E2 : elt (mk M N f) i j = Some (f i j)). { rewrite elt_mk. apply Nat.ltb_lt in Hi, Hj. rewrite Hi, Hj. reflexivity. }
    apply (mrel_elt_inv _ _ H E E2). exact K.
  Qed.
  Lemma all_nth : forall u, (forall i x, nth_error u i = Some x -> bad x = true) -> all bad u.
  Proof. intros u H x Hx. apply In_nth_error in Hx as (i & E). eauto. Qed.
  Lemma mall_elt : forall m, (forall i j x, elt m i j = Some x -> bad x = true) -> mall bad m.
  Proof.
    intros m H r Hr x Hx. apply In_nth_error in Hr as (i & Ei). apply In_nth_error in Hx as (j & Ej). apply (H i j). unfold elt. rewrite Ei. exact Ej.
  Qed.

  (* ----------------------------------------------------------------------- *)
  (** ** Vectors                                                               *)
  Theorem C104_elementwise : forall N u v w, length u = N -> length v = N ->
    v_add o N u v = Ok w \/ v_sub o N u v = Ok w \/ v_mul o N u v = Ok w ->
    forall i x y z, nth_error u i = Some x -> nth_error v i = Some y -> nth_error w i = Some z -> bad x = true \/ bad y = true -> bad z = true.
  Proof.
    intros N u v w Hu Hv E i x y z Ex Ey Ez B.
    assert (K : orb (tv u i) (tv v i) = true). { unfold tv. rewrite Ex, Ey. apply Bool.orb_true_iff. auto. }
    destruct E as [E|[E|E]].
    - pose proof (rr_v_add t_rel (tv_rel Hu) (tv_rel Hv)) as G. unfold v_add at 2 in G. rewrite (@v_zip_map_vk _ _ _ N (o_add t_ops) (tv u) (tv v) (fun i => orb (tv u i) (tv v i))) in G by reflexivity.
      rewrite E in G. eapply readv; eauto.
    - pose proof (rr_v_sub t_rel (tv_rel Hu) (tv_rel Hv)) as G. unfold v_sub at 2 in G. rewrite (@v_zip_map_vk _ _ _ N (o_sub t_ops) (tv u) (tv v) (fun i => orb (tv u i) (tv v i))) in G by reflexivity.
      rewrite E in G. eapply readv; eauto.
    - pose proof (rr_v_mul t_rel (tv_rel Hu) (tv_rel Hv)) as G. unfold v_mul at 2 in G. rewrite (@v_zip_map_vk _ _ _ N (o_mul t_ops) (tv u) (tv v) (fun i => orb (tv u i) (tv v i))) in G by reflexivity.
      rewrite E in G. eapply readv; eauto.
  Qed.
  (** Sum of the components, dot product, squared length. *)
  Theorem C104_sum : forall u z, v_sum o u = Ok z -> has bad u -> bad z = true.
  Proof.
    intros u z E H. destruct (has_tv eq_refl H) as (k & Hk & K). pose proof (rr_v_sum t_rel (tv_rel (u := u) eq_refl)) as G. rewrite t_sum_vk, E in G by lia.
    apply G. apply t_any_true. eauto.
  Qed.
  Theorem C104_dot : forall N u v z, length u = N -> length v = N -> v_dot o N u v = Ok z -> has bad u \/ has bad v -> bad z = true.
  Proof.
    intros N u v z Hu Hv E H. pose proof (rr_v_dot t_rel (tv_rel Hu) (tv_rel Hv)) as G. rewrite E in G.
    assert (exists k, k < N /\ orb (tv u k) (tv v k) = true) as (k & Hk & K).
    { destruct H as [H|H]; [destruct (has_tv Hu H) as (k & Hk & K)|destruct (has_tv Hv H) as (k & Hk & K)]; exists k; rewrite K; auto using Bool.orb_true_r. }
    rewrite t_dot_ok in G by (rewrite ?vk_length; auto; lia). apply G. apply t_any_true. exists k. rewrite !nth_vk by auto. auto.
  Qed.
  Theorem C104_square_length : forall u z, v_square_length o u = Ok z -> has bad u -> bad z = true.
  Proof.
    intros u z E H. destruct (has_tv eq_refl H) as (k & Hk & K). pose proof (rr_v_square_length t_rel (tv_rel (u := u) eq_refl)) as G. rewrite E in G.
    unfold v_square_length in G. rewrite (@v_map_vk _ _ _ (fun i => orb (tv u i) (tv u i))) in G by reflexivity. cbn [bind] in G. rewrite t_sum_vk in G by lia.
    apply G. apply t_any_true. exists k. rewrite K. auto.
  Qed.
  Theorem C104_cross2 : forall a b c d z, v_cross2 o [a; b] [c; d] = Ok z -> has bad [a; b; c; d] -> bad z = true.
  Proof.
    intros a b c d z E (x & Hx & B).
    assert (V : forall x y, vrel 2 R [x; y] [bad x; bad y]). { intros. repeat apply vrel_cons; try apply vrel_nil; intros H; exact H. }
    pose proof (rr_v_cross2 t_rel (V a b) (V c d)) as G. rewrite E in G. apply G. clear G. cbn.
    destruct Hx as [->|[->|[->|[->|[]]]]]; rewrite B; rewrite ?Bool.orb_true_r; reflexivity.
  Qed.
  (** Component [i] of the cross product reads the other two components of both vectors. *)
  Theorem C104_cross3 : forall a1 a2 a3 b1 b2 b3 x y z, v_cross3 o [a1; a2; a3] [b1; b2; b3] = Ok [x; y; z] ->
    (has bad [a2; a3; b2; b3] -> bad x = true) /\ (has bad [a3; a1; b3; b1] -> bad y = true) /\ (has bad [a1; a2; b1; b2] -> bad z = true).
  Proof.
    intros a1 a2 a3 b1 b2 b3 x y z E.
    assert (V : forall x y z, vrel 3 R [x; y; z] [bad x; bad y; bad z]). { intros. repeat apply vrel_cons; try apply vrel_nil; intros H; exact H. }
    pose proof (rr_v_cross3 t_rel (V a1 a2 a3) (V b1 b2 b3)) as G. rewrite E in G. cbn in G. destruct G as (_ & F).
    inversion F as [|? ? ? ? F1 F']; subst. inversion F' as [|? ? ? ? F2 F'']; subst. inversion F'' as [|? ? ? ? F3 _]; subst.
    repeat split; intros (t & Ht & B); [apply F1|apply F2|apply F3]; destruct Ht as [->|[->|[->|[->|[]]]]]; rewrite B; rewrite ?Bool.orb_true_r; reflexivity.
  Qed.

  (* ----------------------------------------------------------------------- *)
  (** ** Matrices                                                              *)
  Theorem C104_product : forall L M N a b c, rect L M a -> rect M N b -> m_dot o L M N a b = Ok c ->
    forall i j z, elt c i j = Some z -> row_has bad a i \/ col_has bad b j -> bad z = true.
  Proof.
    intros L M N a b c Ra Rb E i j z Ez H. pose proof (rr_m_dot t_rel (tm_rel Ra) (tm_rel Rb)) as G. rewrite E in G.
    assert (exists k, k < M /\ orb (tm a i k) (tm b k j) = true) as (k & Hk & K).
    { destruct H as [(k & x & Ex & B)|(k & x & Ex & B)]; exists k.
      - destruct (elt_lt _ _ Ra Ex). rewrite (elt_tm _ _ _ Ex B). auto.
      - destruct (elt_lt _ _ Rb Ex). rewrite (elt_tm _ _ _ Ex B). auto using Bool.orb_true_r. }
    rewrite (m_dot_d t_ops tdot t_dot_ok) in G by lia. apply (@readm _ _ _ _ G _ _ _ Ez). apply t_any_true. exists k. rewrite !nth_vk by auto. auto.
  Qed.
  Theorem C104_mat_vec : forall M N a v w, rect M N a -> length v = N -> m_dot_v o M N a v = Ok w ->
    forall i z, nth_error w i = Some z -> row_has bad a i \/ has bad v -> bad z = true.
  Proof.
    intros M N a v w Ra Hv E i z Ez H. pose proof (rr_m_dot_v t_rel (tm_rel Ra) (tv_rel Hv)) as G. rewrite E in G.
    assert (exists k, k < N /\ orb (tm a i k) (tv v k) = true) as (k & Hk & K).
    { destruct H as [(k & x & Ex & B)|H].
      - exists k. destruct (elt_lt _ _ Ra Ex). rewrite (elt_tm _ _ _ Ex B). auto.
      - destruct (has_tv Hv H) as (k & Hk & K). exists k. rewrite K. auto using Bool.orb_true_r. }
    rewrite (m_dot_v_d t_ops tdot t_dot_ok) in G by lia. apply (@readv _ _ _ G _ _ Ez). apply t_any_true. exists k. rewrite !nth_vk by auto. auto.
  Qed.
  Theorem C104_vec_mat : forall M N a v w, rect M N a -> length v = M -> v_dot_m o M N v a = Ok w ->
    forall j z, nth_error w j = Some z -> col_has bad a j \/ has bad v -> bad z = true.
  Proof.
    intros M N a v w Ra Hv E i z Ez H. pose proof (rr_v_dot_m t_rel (tm_rel Ra) (tv_rel Hv)) as G. rewrite E in G.
    assert (exists k, k < M /\ orb (tv v k) (tm a k i) = true) as (k & Hk & K).
    { destruct H as [(k & x & Ex & B)|H].
      - exists k. destruct (elt_lt _ _ Ra Ex). rewrite (elt_tm _ _ _ Ex B). auto using Bool.orb_true_r.
      - destruct (has_tv Hv H) as (k & Hk & K). exists k. rewrite K. auto. }
    rewrite (v_dot_m_d t_ops tdot t_dot_ok) in G by lia. apply (@readv _ _ _ G _ _ Ez). apply t_any_true. exists k. rewrite !nth_vk by auto. auto.
  Qed.
  Theorem C104_outer : forall M N u v m, length u = M -> length v = N -> m_outer o M N u v = Ok m ->
    forall i j x y z, nth_error u i = Some x -> nth_error v j = Some y -> elt m i j = Some z -> bad x = true \/ bad y = true -> bad z = true.
  Proof.
    intros M N u v m Hu Hv E i j x y z Ex Ey Ez B. pose proof (rr_m_outer t_rel (tv_rel Hu) (tv_rel Hv)) as G. rewrite E in G.
    assert (O : m_outer t_ops M N (vk M (tv u)) (vk N (tv v)) = Ok (mk M N (fun i j => orb (tv u i) (tv v j)))).
    { unfold m_outer. rewrite m_indices_mk. cbn [bind]. apply m_map_mk. intros a b Ha Hb. unfold v_index, index. rewrite !nth_error_vk.
      apply Nat.ltb_lt in Ha, Hb. rewrite Ha, Hb. reflexivity. }
    rewrite O in G. apply (@readm _ _ _ _ G _ _ _ Ez). unfold tv. rewrite Ex, Ey. apply Bool.orb_true_iff. auto.
  Qed.
  (** The sum of all elements of a matrix, and the 1-norms. *)
  Theorem C104_matrix_sum : forall M N m z, rect M N m -> m_sum o m = Ok z -> mhas bad m -> bad z = true.
  Proof.
    intros M N m z Rm E H. destruct (mhas_tm Rm H) as (i & j & Hi & Hj & _). unfold m_sum in E. rewrite (m_fold_first_flat _ Rm) in E by lia.
    apply (C104_sum E). destruct H as (r & Hr & x & Hx & B). exists x. split; auto. apply in_concat. eauto.
  Qed.
  Theorem C104_norm_l1 : forall (n1 : T -> res T) v z, keeps1 bad n1 -> v_norm_l1 o n1 v = Ok z -> has bad v -> bad z = true.
  Proof.
    intros n1 v z K E (x & Hx & B). unfold v_norm_l1 in E. destruct (v_map n1 v) as [w| | |] eqn:Ew; try discriminate. cbn [bind] in E. apply (C104_sum E).
    apply In_nth_error in Hx as (i & Ei). rewrite v_map_res in Ew. pose proof (map_res_length _ _ Ew) as L.
    destruct (nth_error w i) as [y|] eqn:Ey. 2: { apply nth_error_None in Ey. assert (i < length v) by (apply nth_error_Some; congruence). lia. }
    exists y. split; [eapply nth_error_In; eauto|]. destruct (map_res_nth_inv _ _ Ew _ Ey) as (x' & Ex' & Fx). rewrite Ei in Ex'. injection Ex' as <-. apply (K _ _ Fx B).
  Qed.
  (** An affine map: component [i] of the image reads the whole point, row [i] of the matrix and component [i] of the shift. *)
  Theorem C104_affine : forall N s m p w, length s = N -> rect N N m -> length p = N -> t_apply (affine_transform o N) (s, m) p = Ok w ->
    forall i x z, nth_error s i = Some x -> nth_error w i = Some z -> bad x = true \/ row_has bad m i \/ has bad p -> bad z = true.
  Proof.
    intros N s m p w Hs Rm Hp E i x z Ex Ez H. change (t_apply (affine_transform o N) (s, m) p) with (let! q := m_dot_v o N N m p in v_add o N q s) in E.
    destruct (m_dot_v o N N m p) as [q| | |] eqn:Eq; try discriminate. cbn [bind] in E.
    assert (Lq : length q = N).
    { pose proof (rr_m_dot_v t_rel (tm_rel Rm) (tv_rel Hp)) as G. rewrite Eq in G. destruct (m_dot_v t_ops N N (mk N N (tm m)) (vk N (tv p))); cbn in G; try contradiction. apply (vrel_length G). }
    assert (i < N) by (rewrite <- Hs; apply nth_error_Some; congruence).
    destruct (nth_error q i) as [y|] eqn:Ey. 2: { apply nth_error_None in Ey. lia. }
    apply (@C104_elementwise N q s w Lq Hs (or_introl E) i y x z Ey Ex Ez). destruct H as [H|H]; [right; exact H|left]. apply (@C104_mat_vec N N m p q Rm Hp Eq i y Ey H).
  Qed.
  (** The determinant reads every element. *)
  Theorem C104_det : forall N m z, rect N N m -> m_det o N m = Ok z -> mhas bad m -> bad z = true.
  Proof.
    intros N m z Rm E H. destruct (mhas_tm Rm H) as (i & j & Hi & Hj & K). pose proof (rr_m_det t_rel (tm_rel Rm)) as G. rewrite E in G.
    rewrite m_det_spec in G. destruct (@t_rdet N (tm m) (seq 0 N) (seq 0 N)) as (b & Eb & Kb); auto; try (intros k Hk; apply in_seq in Hk; lia).
    rewrite Eb in G. apply G. apply (Kb i j); auto; apply in_seq; lia.
  Qed.
  (** A cofactor reads every element outside its row and column. *)
  Theorem C104_cofactor : forall N m i j z, rect N N m -> i < N -> j < N -> m_cofactor o N m i j = Ok z ->
    (exists p q x, p <> i /\ q <> j /\ elt m p q = Some x /\ bad x = true) -> bad z = true.
  Proof.
    intros N m i j z Rm Hi Hj E (p & q & x & Np & Nq & Ex & B). destruct (elt_lt _ _ Rm Ex) as (Hp & Hq). pose proof (rr_m_cofactor t_rel i j (tm_rel Rm)) as G. rewrite E in G.
    rewrite m_cofactor_spec in G by auto.
    assert (M1 : forall k a, k < N -> In a (remove_at k (seq 0 N)) <-> a < N /\ a <> k).
    { intros k a Hk. destruct N as [|n]; [lia|]. rewrite remove_at_seq by auto. rewrite in_map_iff. split.
      - intros (y & <- & Hy). apply in_seq in Hy. unfold skip. destruct (y <? k) eqn:Y; [apply Nat.ltb_lt in Y|apply Nat.ltb_ge in Y]; lia.
      - intros (H1 & H2). destruct (lt_dec a k); [exists a|exists (a - 1)]; split; try (apply in_seq; lia); unfold skip.
        + assert (X : (a <? k) = true) by (apply Nat.ltb_lt; auto). rewrite X. auto.
        + assert (X : (a - 1 <? k) = false) by (apply Nat.ltb_ge; lia). rewrite X. lia. }
    destruct (@t_rdet N (tm m) (remove_at i (seq 0 N)) (remove_at j (seq 0 N))) as (b & Eb & Kb).
    { rewrite !remove_at_length by (rewrite seq_length; auto). auto. } { intros a Ha. apply M1 in Ha; lia. } { intros a Ha. apply M1 in Ha; lia. }
    rewrite Eb in G. cbn [bind] in G. assert (En : rneg t_ops (i + j) b = Ok b) by (unfold rneg; destruct (_ =? 0); reflexivity). rewrite En in G.
    apply G. apply (Kb p q). { apply M1; auto. } { apply M1; auto. } exact (elt_tm _ _ _ Ex B).
  Qed.

  (* ----------------------------------------------------------------------- *)
  (** ** Complex numbers, quaternions, rotations                               *)
  Lemma c_rel : forall z, crel R z (Cx (bad (re z)) (bad (im z))).
  Proof. intros []. split; intros H; exact H. Qed.
  Lemma q_rel : forall q, qrel R q (Qt (bad (qw q)) (bad (qx q)) (bad (qy q)) (bad (qz q))).
  Proof. intros []. repeat split; intros H; exact H. Qed.
  Ltac bools := repeat match goal with |- context [bad ?x] => destruct (bad x) end; cbn; auto.
  Theorem C104_complex : forall a b z,
    (c_mul o a b = Ok z -> c_has bad a = true \/ c_has bad b = true -> c_all bad z = true) /\
    (c_add o a b = Ok z \/ c_sub o a b = Ok z -> (bad (re a) = true \/ bad (re b) = true -> bad (re z) = true) /\ (bad (im a) = true \/ bad (im b) = true -> bad (im z) = true)).
  Proof.
    intros a b z. split.
    - intros E H. pose proof (rr_c_mul t_rel (c_rel a) (c_rel b)) as G. rewrite E in G. destruct G as (G1 & G2). unfold R in *. cbn in G1, G2.
      unfold c_all, c_has in *. apply Bool.andb_true_iff. split; [apply G1|apply G2]; revert H; clear; bools; intros []; discriminate.
    - intros E. assert (G : crel R z (Cx (orb (bad (re a)) (bad (re b))) (orb (bad (im a)) (bad (im b))))).
      { destruct E as [E|E]; [pose proof (rr_c_add t_rel (c_rel a) (c_rel b)) as G|pose proof (rr_c_sub t_rel (c_rel a) (c_rel b)) as G]; rewrite E in G; exact G. }
      destruct G as (G1 & G2). split; intros H; [apply G1|apply G2]; apply Bool.orb_true_iff; auto.
  Qed.
  Theorem C104_quaternion : forall a b z,
    (q_mul o a b = Ok z -> q_has bad a = true \/ q_has bad b = true -> q_all bad z = true) /\
    (q_add o a b = Ok z \/ q_sub o a b = Ok z ->
       (bad (qw a) = true \/ bad (qw b) = true -> bad (qw z) = true) /\ (bad (qx a) = true \/ bad (qx b) = true -> bad (qx z) = true) /\
       (bad (qy a) = true \/ bad (qy b) = true -> bad (qy z) = true) /\ (bad (qz a) = true \/ bad (qz b) = true -> bad (qz z) = true)).
  Proof.
    intros a b z. split.
    - intros E H. pose proof (rr_q_mul t_rel (q_rel a) (q_rel b)) as G. rewrite E in G. destruct G as (G1 & G2 & G3 & G4). unfold R in *. cbn in G1, G2, G3, G4.
      unfold q_all, q_has in *. apply Bool.andb_true_iff. split; [apply Bool.andb_true_iff; split; [apply Bool.andb_true_iff; split|]|]; [apply G1|apply G2|apply G3|apply G4];
      revert H; clear; bools; intros []; discriminate.
    - intros E. assert (G : qrel R z (Qt (orb (bad (qw a)) (bad (qw b))) (orb (bad (qx a)) (bad (qx b))) (orb (bad (qy a)) (bad (qy b))) (orb (bad (qz a)) (bad (qz b))))).
      { destruct E as [E|E]; [pose proof (rr_q_add t_rel (q_rel a) (q_rel b)) as G|pose proof (rr_q_sub t_rel (q_rel a) (q_rel b)) as G]; rewrite E in G; exact G. }
      destruct G as (G1 & G2 & G3 & G4). repeat split; intros H; [apply G1|apply G2|apply G3|apply G4]; apply Bool.orb_true_iff; auto.
  Qed.
  (** A rotation with a bad number in it, or of a point with one, has nothing but bad numbers in its result. *)
  Theorem C104_rotation : 
    (forall r x y w, rot2_apply o r [x; y] = Ok w -> c_has bad r = true \/ has bad [x; y] -> all bad w) /\
    (forall r x y z w, rot3_apply o r [x; y; z] = Ok w -> q_has bad r = true \/ has bad [x; y; z] -> all bad w).
  Proof.
    split.
    - intros r x y w E H. assert (V : vrel 2 R [x; y] [bad x; bad y]) by (repeat apply vrel_cons; try apply vrel_nil; intros K; exact K).
      pose proof (rr_rot2_apply t_rel (c_rel r) V) as G. rewrite E in G. cbn in G. destruct G as (_ & F).
      inversion F as [|a ? ? ? F1 F']; subst. inversion F' as [|b ? ? ? F2 F'']; subst. inversion F''; subst.
      assert (H' : orb (c_has bad r) (orb (bad x) (bad y)) = true).
      { destruct H as [->|(t & Ht & B)]; auto. destruct Ht as [<-|[<-|[]]]; rewrite B, ?Bool.orb_true_r; reflexivity. }
      unfold R in *. intros t [<-|[<-|[]]]; [apply F1|apply F2]; revert H'; unfold c_has; clear; bools.
    - intros r x y z w E H. assert (V : vrel 3 R [x; y; z] [bad x; bad y; bad z]) by (repeat apply vrel_cons; try apply vrel_nil; intros K; exact K).
      pose proof (rr_rot3_apply t_rel (q_rel r) V) as G. rewrite E in G. cbn in G. destruct G as (_ & F).
      inversion F as [|a ? ? ? F1 F']; subst. inversion F' as [|b ? ? ? F2 F'']; subst. inversion F'' as [|c ? ? ? F3 F3']; subst. inversion F3'; subst.
      assert (H' : orb (q_has bad r) (orb (bad x) (orb (bad y) (bad z))) = true).
      { destruct H as [->|(t & Ht & B)]; auto. destruct Ht as [<-|[<-|[<-|[]]]]; rewrite B, ?Bool.orb_true_r; reflexivity. }
      unfold R in *. intros t [<-|[<-|[<-|[]]]]; [apply F1|apply F2|apply F3]; revert H'; unfold q_has; clear; bools.
  Qed.
End Absorb.

Section AbsorbDiv.
  Context {T : Type} (o : Ops T) (bad : T -> bool) (A : absorbing_div bad o).
  Local Notation rr := (rrel false).
  Let Ar := proj1 A.
  Let D : DivRel false (R bad) o t_ops := @t_div_rel _ o bad (proj2 A).
  Ltac bools := repeat match goal with |- context [bad ?x] => destruct (bad x) end; cbn; auto.

  (** The adjugate, and the inverse: one bad element makes every element of the inverse bad. *)
  Theorem C104_inverse : forall N m a, rect N N m -> m_inv o N m = Ok a -> mhas bad m -> mall bad a.
  Proof.
    intros N m a Rm E H. unfold m_inv in E. destruct (m_adj o N m) as [b| | |] eqn:Eb; try discriminate. cbn [bind] in E.
    destruct (m_det o N m) as [d| | |] eqn:Ed; try discriminate. cbn [bind] in E. pose proof (C104_det Ar Rm Ed H) as Bd.
    apply mall_elt. intros i j x Ex. apply (m_map_elt_inv _ _ E) in Ex as (y & Ey & Ex). apply ((proj2 A) _ _ _ Ex). auto.
  Qed.
  Theorem C104_complex_div : forall a b z,
    (c_inv o a = Ok z -> c_has bad a = true -> c_all bad z = true) /\
    (c_div o a b = Ok z -> c_has bad a = true \/ c_has bad b = true -> c_all bad z = true).
  Proof.
    intros a b z. split.
    - intros E H. pose proof (rr_c_inv (t_rel Ar) D (c_rel bad a)) as G. rewrite E in G. destruct G as (G1 & G2). unfold R in *. cbn in G1, G2.
      unfold c_all, c_has in *. apply Bool.andb_true_iff. split; [apply G1|apply G2]; revert H; clear; bools.
    - intros E H. pose proof (rr_c_div (t_rel Ar) D (c_rel bad a) (c_rel bad b)) as G. rewrite E in G. destruct G as (G1 & G2). unfold R in *. cbn in G1, G2.
      unfold c_all, c_has in *. apply Bool.andb_true_iff. split; [apply G1|apply G2]; revert H; clear; bools; intros []; discriminate.
  Qed.
  Theorem C104_quaternion_div : forall a b z,
    (q_inv o a = Ok z -> q_has bad a = true -> q_all bad z = true) /\
    (q_div o a b = Ok z -> q_has bad a = true \/ q_has bad b = true -> q_all bad z = true).
  Proof.
    intros a b z. split.
    - intros E H. pose proof (rr_q_inv (t_rel Ar) D (q_rel bad a)) as G. rewrite E in G. destruct G as (G1 & G2 & G3 & G4). unfold R in *. cbn in G1, G2, G3, G4.
      unfold q_all, q_has in *. apply Bool.andb_true_iff. split; [apply Bool.andb_true_iff; split; [apply Bool.andb_true_iff; split|]|]; [apply G1|apply G2|apply G3|apply G4]; revert H; clear; bools.
    - intros E H. pose proof (rr_q_div (t_rel Ar) D (q_rel bad a) (q_rel bad b)) as G. rewrite E in G. destruct G as (G1 & G2 & G3 & G4). unfold R in *. cbn in G1, G2, G3, G4.
      unfold q_all, q_has in *. apply Bool.andb_true_iff. split; [apply Bool.andb_true_iff; split; [apply Bool.andb_true_iff; split|]|]; [apply G1|apply G2|apply G3|apply G4];
      revert H; clear; bools; intros []; discriminate.
  Qed.
  (** Dividing by a length: the unit vector of a vector with one bad component is bad throughout. *)
  Theorem C104_normalize : forall sqrt v w, (forall x, bad x = true -> bad (sqrt x) = true) ->
    v_normalize o sqrt v = Ok w -> has bad v -> all bad w.
  Proof.
    intros sqrt v w S E H. unfold v_normalize, v_length in E. destruct (v_square_length o v) as [s| | |] eqn:Es; try discriminate. cbn [bind] in E.
    pose proof (C104_square_length Ar Es H) as Bs. apply all_nth. intros i x Ex. apply (v_map_nth_inv _ _ E) in Ex as (y & Ey & Ex).
    apply ((proj2 A) _ _ _ Ex). auto.
  Qed.
  (** Complex numbers and quaternions are scalars of the same kind: everything above holds of matrices of them too. *)
  Theorem C104_scalars : forall rem, absorbing_div (c_has bad) (c_ops o rem) /\ absorbing_div (q_has bad) (q_ops o).
  Proof.
    assert (ca : forall z, c_all bad z = true -> c_has bad z = true) by (intros []; unfold c_all, c_has; bools).
    assert (qa : forall z, q_all bad z = true -> q_has bad z = true) by (intros []; unfold q_all, q_has; bools).
    assert (C : forall a b z, (bad (re a) = true \/ bad (re b) = true -> bad (re z) = true) /\ (bad (im a) = true \/ bad (im b) = true -> bad (im z) = true) ->
      c_has bad a = true \/ c_has bad b = true -> c_has bad z = true).
    { intros a b z. unfold c_has. rewrite !Bool.orb_true_iff. tauto. }
    assert (Q : forall a b z, (bad (qw a) = true \/ bad (qw b) = true -> bad (qw z) = true) /\ (bad (qx a) = true \/ bad (qx b) = true -> bad (qx z) = true) /\
       (bad (qy a) = true \/ bad (qy b) = true -> bad (qy z) = true) /\ (bad (qz a) = true \/ bad (qz b) = true -> bad (qz z) = true) ->
      q_has bad a = true \/ q_has bad b = true -> q_has bad z = true).
    { intros a b z. unfold q_has. rewrite !Bool.orb_true_iff. tauto. }
    intros rem. split; (split; [split; [|split; [|split]]|]).
    - intros a b z E. apply C. apply (C104_complex Ar). auto.
    - intros a b z E. apply C. apply (C104_complex Ar). auto.
    - intros a b z E H. apply ca. apply (C104_complex Ar a b z); auto.
    - intros a z E H. pose proof (rr_c_neg (t_rel Ar) (c_rel bad a)) as G. cbn in E. rewrite E in G. destruct G as (G1 & G2). unfold R in *. cbn in G1, G2.
      revert H. unfold c_has. rewrite !Bool.orb_true_iff. tauto.
    - intros a b z E H. apply ca. apply (C104_complex_div a b z); auto.
    - intros a b z E. apply Q. apply (C104_quaternion Ar). auto.
    - intros a b z E. apply Q. apply (C104_quaternion Ar). auto.
    - intros a b z E H. apply qa. apply (C104_quaternion Ar a b z); auto.
    - intros a z E H. pose proof (rr_q_neg (t_rel Ar) (q_rel bad a)) as G. cbn in E. rewrite E in G. destruct G as (G1 & G2 & G3 & G4). unfold R in *. cbn in G1, G2, G3, G4.
      revert H. unfold q_has. rewrite !Bool.orb_true_iff. tauto.
    - intros a b z E H. apply qa. apply (C104_quaternion_div a b z); auto.
  Qed.
  (** A Moebius transformation: a bad coefficient or a bad point makes the image bad (of a scalar; in every part of a quaternion). *)
  Theorem C104_moebius : forall a b c d,
    (forall x z, mo_apply_self o [[a; b]; [c; d]] x = Ok z -> has bad [a; b; c; d; x] -> bad z = true) /\
    (forall (a b c d : complex T) q z, mo_apply_q o [[a; b]; [c; d]] q = Ok z ->
       has (c_has bad) [a; b; c; d] \/ q_has bad q = true -> q_all bad z = true).
  Proof.
    destruct Ar as (Ka & Ks & Km & Kn). intros a b c d. split.
    - intros x z E (t & Ht & B). unfold mo_apply_self, mo_apply in E. cbn in E.
      destruct (o_mul o a x) as [ax| | |] eqn:E1; try discriminate. cbn in E. destruct (o_add o ax b) as [n| | |] eqn:E2; try discriminate. cbn in E.
      destruct (o_mul o c x) as [cx| | |] eqn:E3; try discriminate. cbn in E. destruct (o_add o cx d) as [e| | |] eqn:E4; try discriminate. cbn in E.
      apply (proj2 A _ _ _ E). destruct Ht as [<-|[<-|[<-|[<-|[<-|[]]]]]]; [left|left|right|right|left]; (apply (Ka _ _ _ E2) || apply (Ka _ _ _ E4)); auto; left; (apply (Km _ _ _ E1) || apply (Km _ _ _ E3)); auto.
    - clear a b c d. intros a b c d q z E H. unfold mo_apply_q, mo_apply in E. cbn [mo_a mo_b mo_c mo_d] in E.
      assert (Em : forall x q r, c_mul_q o x q = Ok r -> c_has bad x = true \/ q_has bad q = true -> q_has bad r = true).
      { clear - A. intros x q r E H. pose proof (rr_c_mul_q (t_rel (proj1 A)) (c_rel bad x) (q_rel bad q)) as G. rewrite E in G. destruct G as (G1 & G2 & G3 & G4). unfold R in *. cbn in G1, G2, G3, G4.
        revert H. unfold q_has, c_has in *. rewrite !Bool.orb_true_iff in *. tauto. }
      assert (Ea : forall q x r, q_add_c o q x = Ok r -> c_has bad x = true \/ q_has bad q = true -> q_has bad r = true).
      { clear - A. intros q x r E H. pose proof (rr_q_add_c (t_rel (proj1 A)) (q_rel bad q) (c_rel bad x)) as G. rewrite E in G. destruct G as (G1 & G2 & G3 & G4). unfold R in *. cbn in G1, G2, G3, G4.
        revert H. unfold q_has, c_has in *. rewrite !Bool.orb_true_iff in *. tauto. }
      change (mo_a [[a; b]; [c; d]]) with (Ok a) in E. change (mo_b [[a; b]; [c; d]]) with (Ok b) in E.
      change (mo_c [[a; b]; [c; d]]) with (Ok c) in E. change (mo_d [[a; b]; [c; d]]) with (Ok d) in E. cbn [bind] in E.
      destruct (c_mul_q o a q) as [ax| | |] eqn:E1; try discriminate. cbn [bind] in E. destruct (q_add_c o ax b) as [n| | |] eqn:E2; try discriminate. cbn [bind] in E.
      destruct (c_mul_q o c q) as [cx| | |] eqn:E3; try discriminate. cbn [bind] in E. destruct (q_add_c o cx d) as [e| | |] eqn:E4; try discriminate. cbn [bind] in E.
      apply (C104_quaternion_div n e z); auto. destruct H as [(t & Ht & B)|B].
      + destruct Ht as [<-|[<-|[<-|[<-|[]]]]]; [left|left|right|right]; (apply (Ea _ _ _ E2) || apply (Ea _ _ _ E4)); auto; right; (apply (Em _ _ _ E1) || apply (Em _ _ _ E3)); auto.
      + left. apply (Ea _ _ _ E2). right. apply (Em _ _ _ E1). auto.
  Qed.
End AbsorbDiv.

(* ------------------------------------------------------------------------- *)
(** * IEEE floats                                                             *)
(** NaN is handed on by the scalar operations of any binary format, and so is "not finite" except by division. *)
Theorem C104_ieee : forall prec emax rem,
  absorbing_div is_nan (sf_ops prec emax rem) /\ absorbing not_finite (sf_ops prec emax rem).
Proof.
  intros. split; [split|]; [split; [|split; [|split]]| |split; [|split; [|split]]];
    try (intros x y z E H; apply Ok_inj in E; subst z; destruct x as [[]|[]| |[] m e], y as [[]|[]| |[] m' e']; cbn in H; try reflexivity; destruct H; discriminate);
    intros x z E H; apply Ok_inj in E; subst z; destruct x as [[]|[]| |[] m e]; try discriminate; reflexivity.
Qed.
(** Division does not hand on an infinity: 1 / inf = 0, and the "inverse" of the 1 x 1 matrix [inf] is the matrix [0]. *)
Theorem C104_infinity_refuted : exists m a, rect 1 1 m /\ m_inv f64 1 m = Ok a /\ mhas not_finite m /\ ~ mhas not_finite a.
Proof.
  exists [[S754_infinity false]], [[S754_zero false]]. split; [split; [|constructor; auto]; reflexivity|]. split; [vm_compute; reflexivity|]. split.
  - exists [S754_infinity false]. split; [left; auto|]. exists (S754_infinity false). split; [left|]; auto.
  - intros (r & [<-|[]] & x & [<-|[]] & H). discriminate H.
Qed.
(** What a user may conclude from a finite result. *)
Theorem C104_finite : forall prec emax rem N m d, rect N N m -> m_det (sf_ops prec emax rem) N m = Ok d -> not_finite d = false ->
  forall r x, In r m -> In x r -> not_finite x = false.
Proof.
  intros prec emax rem N m d Rm E F r x Hr Hx. destruct (not_finite x) eqn:B; auto.
  rewrite (C104_det (proj2 (C104_ieee prec emax rem)) Rm E) in F; [discriminate|]. exists r. split; auto. exists x. auto.
Qed.
(** The [NonZero] sampler never hands out a NaN ... *)
Theorem C104_sampler : forall G prec emax rem (F : FloatOps spec_float) (normal : distr G spec_float) fuel N g g' v,
  (forall x, is_nan x = true -> is_nan (f_sqrt F x) = true) ->
  nonzero_v (sf_ops prec emax rem) F normal fuel N g = Ok (g', v) -> forall x, In x v -> is_nan x = false.
Proof.
  intros G prec emax rem F normal fuel N g g' v S E x Hx. unfold nonzero_v in E. revert g E. induction fuel as [|k IH]; intros g E; cbn [reject_loop] in E; [discriminate|].
  destruct (v_distribution N normal g) as [[g1 y]| | |] eqn:Ed; try discriminate. cbn [bind] in E.
  unfold v_length in E. destruct (v_square_length (sf_ops prec emax rem) y) as [s| | |] eqn:Es; try discriminate. cbn [bind] in E.
  destruct (o_lt (sf_ops prec emax rem) (f_epsilon F) (f_sqrt F s)) eqn:L; [|apply (IH g1 E)]. apply Ok_inj in E. injection E as <- <-.
  destruct (is_nan x) eqn:B; auto. exfalso.
  assert (Bs : is_nan (f_sqrt F s) = true). { apply S. apply (C104_square_length (proj1 (proj1 (C104_ieee prec emax rem))) Es). exists x. auto. }
  destruct (f_sqrt F s) as [[]|[]| |[] ? ?]; try discriminate. cbn in L. rewrite SFltb_nan_r in L. discriminate.
Qed.
(** ... but [Invertible] takes the first matrix that contains one, although no inverse of it exists. *)
Theorem C104_invertible_refuted : forall G prec emax rem (F : FloatOps spec_float) (normal : distr G spec_float) fuel N g g' m,
  (forall x, is_nan x = true -> is_nan (f_abs F x) = true) ->
  m_distribution N N normal g = Ok (g', m) -> rect N N m -> mhas is_nan m -> 
  invertible_m (sf_ops prec emax rem) F normal (S fuel) N g = Ok (g', m) /\
  (forall a, m_inv (sf_ops prec emax rem) N m = Ok a -> mall is_nan a).
Proof.
  intros G prec emax rem F normal fuel N g g' m S E Rm H. destruct (C104_ieee prec emax rem) as (A & _). split; [|intros a Ea; apply (C104_inverse A Rm Ea H)].
  unfold invertible_m. cbn [reject_loop]. rewrite E. cbn [bind].
  destruct (@m_det_good _ (sf_ops prec emax rem) N m false Rm) as [(d & Ed)|(X & _)]; try discriminate; try (intros; left; eexists; reflexivity).
  rewrite Ed. cbn [bind]. pose proof (C104_det (proj1 A) Rm Ed H) as B. unfold is_epsilon.
  assert (Ba : is_nan (f_abs F (f_abs F d)) = true) by auto. destruct (f_abs F (f_abs F d)) as [[]|[]| |[] ? ?]; try discriminate. reflexivity.
Qed.
(** The exception among the norms: the maximum norm forgets a NaN (C07 says which of the two it returns). *)
Theorem C104_norm_l_inf_refuted : exists v z, has is_nan v /\ v_norm_l_inf f64 (ok1 SFabs) v = Ok z /\ is_nan z = false.
Proof.
  exists [SFone 53 1024; S754_nan], (SFone 53 1024). split; [|split; vm_compute; reflexivity]. exists S754_nan. split; [right; left|]; auto.
Qed.
(** Non-vacuity: on f64, a 2 x 2 matrix with one NaN has determinant NaN and an inverse of NaNs; and the absolute value and
    the square root of the standard library's specification keep NaN. *)
Example C104_example : exists m d a, rect 2 2 m /\ mhas is_nan m /\ ~ mall is_nan m /\ m_det f64 2 m = Ok d /\ is_nan d = true /\ m_inv f64 2 m = Ok a /\ mall is_nan a /\
  (forall x, is_nan x = true -> is_nan (SFsqrt 53 1024 x) = true /\ is_nan (SFabs x) = true).
Proof.
  exists [[S754_zero false; SFone 53 1024]; [SFone 53 1024; S754_nan]], S754_nan, [[S754_nan; S754_nan]; [S754_nan; S754_nan]].
  split; [split; [reflexivity|repeat constructor]|]. split. { exists [SFone 53 1024; S754_nan]. split; [right; left; auto|]. exists S754_nan. split; [right; left|]; auto. }
  split. { intros H. specialize (H [S754_zero false; SFone 53 1024] (or_introl eq_refl) (S754_zero false) (or_introl eq_refl)). discriminate H. }
  split; [vm_compute; reflexivity|]. split; [reflexivity|]. split; [vm_compute; reflexivity|]. split.
  - intros r [<-|[<-|[]]] x [<-|[<-|[]]]; reflexivity.
  - intros [[]|[]| |[] ? ?] H; try discriminate. split; reflexivity.
Qed.

Print Assumptions C104_elementwise.
Print Assumptions C104_sum.
Print Assumptions C104_dot.
Print Assumptions C104_square_length.
Print Assumptions C104_cross2.
Print Assumptions C104_cross3.
Print Assumptions C104_product.
Print Assumptions C104_mat_vec.
Print Assumptions C104_vec_mat.
Print Assumptions C104_outer.
Print Assumptions C104_matrix_sum.
Print Assumptions C104_norm_l1.
Print Assumptions C104_affine.
Print Assumptions C104_det.
Print Assumptions C104_cofactor.
Print Assumptions C104_complex.
Print Assumptions C104_quaternion.
Print Assumptions C104_rotation.
Print Assumptions C104_inverse.
Print Assumptions C104_complex_div.
Print Assumptions C104_quaternion_div.
Print Assumptions C104_normalize.
Print Assumptions C104_scalars.
Print Assumptions C104_moebius.
Print Assumptions C104_ieee.
Print Assumptions C104_infinity_refuted.
Print Assumptions C104_finite.
Print Assumptions C104_sampler.
Print Assumptions C104_invertible_refuted.
Print Assumptions C104_norm_l_inf_refuted.
