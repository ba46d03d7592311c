(** C98, C99: the derived traits [Clone], [PartialEq], [Default] and [Debug]. *)
From Coq Require Import List String Arith Lia Bool Permutation.
From Verif Require Import Spec DeriveModel PropOwn PropVector PropFmt VFacts MFacts.
Import ListNotations.
Set Implicit Arguments.
Local Open Scope list_scope.

(* ------------------------------------------------------------------------- *)
(** * Specification                                                            *)

(** [one] clones values whose scalars are [leaves x]: either every scalar is cloned once, in order, nothing is dropped and
    the result has the shape of the original and the clones as its scalars; or some clone fails, the outcome is that
    failure, and every clone made before it is dropped once. *)
Definition clones {C T X : Type} (cl : C -> T -> res (C * T)) (leaves : X -> list T) (alike : X -> X -> Prop) (one : C -> X -> ow T (C * X)) : Prop :=
  forall c x, let (log, r) := one c x in
    (log = [] /\ exists c' y, r = Ok (c', y) /\ called cl c (leaves x) c' (leaves y) /\ alike x y) \/
    (exists outs after, fails_at cl c (leaves x) r outs after /\ Permutation log outs).

(** The outcome [r] of comparing the pairs [l], one after the other, up to the first difference. *)
Definition compares {C X : Type} (e : C -> X -> X -> res (C * bool)) (c : C) (l : list (X * X)) (r : res (C * bool)) : Prop :=
  let e2 c p := e c (fst p) (snd p) in
  (exists c' bs, r = Ok (c', true) /\ called e2 c l c' bs /\ Forall (fun b => b = true) bs) \/
  (exists before p after c1 bs, l = before ++ p :: after /\ called e2 c before c1 bs /\ Forall (fun b => b = true) bs /\
     ((exists c', e2 c1 p = Ok (c', false) /\ r = Ok (c', false)) \/ (~ returns (e2 c1 p) /\ fails_like r (e2 c1 p)))).

(* ------------------------------------------------------------------------- *)
(** * Clone                                                                    *)

Lemma called_snoc_app : forall C A B (f : C -> A -> res (C * B)) c l1 c1 r1 l2 c2 r2,
  called f c l1 c1 r1 -> called f c1 l2 c2 r2 -> called f c (l1 ++ l2) c2 (r1 ++ r2).
Proof. intros. eapply called_app; eauto. Qed.

Section Clone.
  Context {C T : Type} (cl : C -> T -> res (C * T)).
  Lemma fails_refail : forall A B D (r : res A) (x : res D), fails_like r x -> fails_like (@refail A B r) x.
  Proof. intros A B D [a| | |] x H; cbn in *; auto. contradiction. Qed.
  Lemma clone_loop_spec : forall X (one : C -> X -> ow T (C * X)) glue alike, clones cl glue alike one ->
    forall v acc c0 c pre, called cl c0 (flat_map glue pre) c (flat_map glue acc) -> Forall2 alike pre acc ->
    let (log, r) := clone_loop one glue c v acc in
    (log = [] /\ exists c' y, r = Ok (c', y) /\ called cl c0 (flat_map glue (pre ++ v)) c' (flat_map glue y) /\ Forall2 alike (pre ++ v) y) \/
    (exists outs after, fails_at cl c0 (flat_map glue (pre ++ v)) r outs after /\ Permutation log outs).
  Proof.
    intros X one glue alike H. induction v as [|x v IH]; intros acc c0 c pre P A; cbn [clone_loop].
    - left. split; auto. exists c, acc. rewrite app_nil_r. auto.
    - pose proof (H c x) as Hx. revert Hx. destruct (one c x) as [d r]. intros Hx. destruct Hx as [(-> & c' & y & -> & K & Al)|(outs & after & F & Pm)].
      + specialize (IH (acc ++ [y]) c0 c' (pre ++ [x])). rewrite <- app_assoc in IH. cbn [app] in IH.
        revert IH. destruct (clone_loop one glue c' v (acc ++ [y])) as [d1 r1]. intros IH. apply IH.
        * rewrite !flat_map_app. cbn [flat_map]. rewrite !app_nil_r. eapply called_snoc_app; eauto.
        * apply Forall2_app; auto.
      + destruct F as (before & z & c1 & E1 & E2 & E3 & E4).
        assert (W : forall r' : res (C * list X), fails_like r' (cl c1 z) ->
          fails_at cl c0 (flat_map glue (pre ++ x :: v)) r' (flat_map glue acc ++ outs) (after ++ flat_map glue v)).
        { intros r' F. exists (flat_map glue pre ++ before), z, c1. rewrite flat_map_app. cbn [flat_map]. rewrite E1. split; [now rewrite <- !app_assoc|].
          split; [eapply called_snoc_app; eauto|]. split; auto. }
        destruct r as [a| | |]; [exfalso; destruct (cl c1 z); cbn in E4; auto|..]; right; exists (flat_map glue acc ++ outs), (after ++ flat_map glue v);
          (split; [apply W; auto|]; rewrite Permutation_app_comm; apply Permutation_app_head; auto).
  Qed.
  Lemma clone_loop_clones : forall X (one : C -> X -> ow T (C * X)) glue alike, clones cl glue alike one ->
    clones cl (flat_map glue) (Forall2 alike) (fun c v => clone_loop one glue c v []).
  Proof.
    intros X one glue alike H c v. pose proof (clone_loop_spec H v (acc := []) (c0 := c) (c := c) (pre := [])) as K. apply K; constructor.
  Qed.
  Lemma scalar_clones : clones cl (fun x => [x]) (fun _ _ => True) (fun c x => ([], cl c x)).
  Proof.
    intros c x. destruct (cl c x) as [[c' y]| | |] eqn:E.
    - left. split; auto. exists c', y. split; auto. split; auto. econstructor; eauto. constructor.
    - right. exists [], []. split; auto. exists [], x, c. rewrite E. repeat split; auto. { constructor. } intros (? & ?); discriminate.
    - right. exists [], []. split; auto. exists [], x, c. rewrite E. repeat split; auto. { constructor. } intros (? & ?); discriminate.
    - right. exists [], []. split; auto. exists [], x, c. rewrite E. repeat split; auto. { constructor. } intros (? & ?); discriminate.
  Qed.
  Lemma flat_one : forall (v : list T), flat_map (fun x => [x]) v = v.
  Proof. induction v as [|x v IH]; cbn; [auto|rewrite IH; auto]. Qed.
  Lemma Forall2_len : forall A B (P : A -> B -> Prop) u v, Forall2 P u v -> List.length u = List.length v.
  Proof. intros A B P u v F. induction F; cbn; auto. Qed.

  (** Vectors (and [Shift]). *)
  Theorem C98_clone_vector : clones cl (fun v => v) (fun u v => List.length u = List.length v) (v_clone cl).
  Proof.
    intros c v. pose proof (clone_loop_clones scalar_clones c v) as K. cbv beta in K. unfold v_clone.
    revert K. destruct (clone_loop (fun c x => ([], cl c x)) (fun x => [x]) c v []) as [log r]. intros K. rewrite flat_one in K.
    destruct K as [(-> & c' & y & -> & K1 & K2)|K]; [|right; auto]. left. split; auto. exists c', y. rewrite flat_one in K1. repeat split; auto.
    eapply Forall2_len; eauto.
  Qed.
  (** Matrices (and [Linear], [Moebius]): the scalars in row-major order. *)
  Theorem C98_clone_matrix : clones cl (@concat T) (fun a b => forall M N, rect M N a -> rect M N b) (m_clone cl).
  Proof.
    intros c m. pose proof (clone_loop_clones C98_clone_vector c m) as K. cbv beta in K. unfold m_clone.
    revert K. destruct (clone_loop (v_clone cl) (fun r => r) c m []) as [log r]. intros K.
    assert (Z : forall m : list (list T), flat_map (fun r => r) m = concat m) by (intros; rewrite flat_map_concat_map, map_id; auto). rewrite Z in K.
    destruct K as [(-> & c' & y & -> & K1 & K2)|K]; [|right; auto]. left. split; auto. exists c', y. rewrite Z in K1. repeat split; auto.
    - destruct H as (L & _). rewrite <- L. symmetry. eapply Forall2_len; eauto.
    - destruct H as (_ & F). clear - F K2. induction K2; inversion F; subst; constructor; auto.
  Qed.
  Theorem C98_clone_complex : clones cl (fun z => [re z; im z]) (fun _ _ => True) (c_clone cl).
  Proof.
    intros c z. pose proof (C98_clone_vector c (c_into_vector z)) as K. unfold c_clone. revert K. destruct (v_clone cl c (c_into_vector z)) as [log r]. intros K.
    change (c_into_vector z) with [re z; im z] in K. destruct K as [(-> & c' & y & -> & K1 & K2)|(outs & after & F & Pm)].
    - left. split; auto. destruct y as [|a [|b [|? ?]]]; try discriminate. exists c', (Cx a b). cbn. auto.
    - right. exists outs, after. split; auto. destruct F as (b & x & c1 & E1 & E2 & E3 & E4). exists b, x, c1. repeat split; auto.
      destruct r as [a| | |]; auto. exfalso. destruct (cl c1 x); cbn in E4; auto.
  Qed.
  Theorem C98_clone_quaternion : clones cl (fun z => [qw z; qx z; qy z; qz z]) (fun _ _ => True) (q_clone cl).
  Proof.
    intros c z. pose proof (C98_clone_vector c (q_into_vector z)) as K. unfold q_clone. revert K. destruct (v_clone cl c (q_into_vector z)) as [log r]. intros K.
    change (q_into_vector z) with [qw z; qx z; qy z; qz z] in K. destruct K as [(-> & c' & y & -> & K1 & K2)|(outs & after & F & Pm)].
    - left. split; auto. destruct y as [|a [|b [|d [|e [|? ?]]]]]; try discriminate. exists c', (Qt a b d e). cbn. auto.
    - right. exists outs, after. split; auto. destruct F as (b & x & c1 & E1 & E2 & E3 & E4). exists b, x, c1. repeat split; auto.
      destruct r as [a| | |]; auto. exfalso. destruct (cl c1 x); cbn in E4; auto.
  Qed.
  (** [Chain], whatever it is made of: the scalars of the outer part, then those of the inner part. *)
  Theorem C98_clone_chain : forall A B (ca : C -> A -> ow T (C * A)) la alikea (cb : C -> B -> ow T (C * B)) lb alikeb,
    clones cl la alikea ca -> clones cl lb alikeb cb ->
    clones cl (fun t => la (fst t) ++ lb (snd t)) (fun s t => alikea (fst s) (fst t) /\ alikeb (snd s) (snd t)) (chain_clone ca la cb).
  Proof.
    intros A B ca la alikea cb lb alikeb Ha Hb c (x, y). unfold chain_clone. cbn [fst snd]. specialize (Ha c x). revert Ha. destruct (ca c x) as [d r]. intros Ha.
    destruct Ha as [(-> & c1 & a & -> & K1 & K2)|(outs & after & F & Pm)].
    - specialize (Hb c1 y). revert Hb. destruct (cb c1 y) as [d1 r1]. intros Hb. destruct Hb as [(-> & c2 & b & -> & K3 & K4)|(outs & after & F & Pm)].
      + left. split; auto. exists c2, (a, b). cbn [fst snd]. split; auto. split; auto. eapply called_snoc_app; eauto.
      + destruct F as (before & z & c3 & E1 & E2 & E3 & E4).
        assert (W : forall r' : res (C * (A * B)), fails_like r' (cl c3 z) -> fails_at cl c (la x ++ lb y) r' (la a ++ outs) after).
        { intros r' F. exists (la x ++ before), z, c3. rewrite E1, <- app_assoc. split; auto. split; [eapply called_snoc_app; eauto|]. split; auto. }
        destruct r1 as [q| | |]; [exfalso; destruct (cl c3 z); cbn in E4; auto|..]; right; exists (la a ++ outs), after;
          (split; [apply W; auto|]; cbn [app]; rewrite Permutation_app_comm; apply Permutation_app_head; auto).
    - destruct F as (before & z & c3 & E1 & E2 & E3 & E4).
      assert (W : forall r' : res (C * (A * B)), fails_like r' (cl c3 z) -> fails_at cl c (la x ++ lb y) r' outs (after ++ lb y)).
      { intros r' F. exists before, z, c3. rewrite E1, <- app_assoc. auto. }
      destruct r as [q| | |]; [exfalso; destruct (cl c3 z); cbn in E4; auto|..]; right; exists outs, (after ++ lb y); (split; [apply W; auto|auto]).
  Qed.
End Clone.
(** A scalar whose [clone] returns an equal value: so does the [clone] of everything made of it. *)
Lemma called_same : forall T (l r : list T) u, called (fun (u : unit) x => Ok (u, x)) u l tt r -> r = l.
Proof. intros T l. induction l as [|x l IH]; intros r u H; inversion H; subst; auto. inversion H3; subst. f_equal. eapply IH; eauto. Qed.
Theorem C98_clone_equal : forall T, let id := fun (u : unit) (x : T) => Ok (u, x) in
  (forall v, v_clone id tt v = ([], Ok (tt, v))) /\ (forall M N m, rect M N m -> m_clone id tt m = ([], Ok (tt, m))) /\
  (forall z, c_clone id tt z = ([], Ok (tt, z))) /\ (forall z, q_clone id tt z = ([], Ok (tt, z))) /\
  (forall s m N, rect N N m -> chain_clone (v_clone id) (fun v => v) (m_clone id) tt (s, m) = ([], Ok (tt, (s, m)))).
Proof.
  intros T id.
  assert (G : forall X (leaves : X -> list T) alike one, clones id leaves alike one -> forall x, exists y, one tt x = ([], Ok (tt, y)) /\ leaves y = leaves x /\ alike x y).
  { intros X leaves alike one H x. specialize (H tt x). revert H. destruct (one tt x) as [log r]. intros H. destruct H as [(-> & [] & y & -> & K1 & K2)|(outs & after & (b & z & c1 & E1 & E2 & E3 & E4) & _)].
    - exists y. split; auto. split; auto. exact (called_same K1).
    - exfalso. apply E3. eexists. reflexivity. }
  assert (V : forall v, v_clone id tt v = ([], Ok (tt, v))).
  { intros v. destruct (G _ _ _ _ (C98_clone_vector id) v) as (y & E & -> & _). auto. }
  assert (Mm : forall M N m, rect M N m -> m_clone id tt m = ([], Ok (tt, m))).
  { intros M N m R. destruct (G _ _ _ _ (C98_clone_matrix id) m) as (y & E & L & K). specialize (K M N R). assert (Y : y = m) by (rewrite <- (chunk_concat K), L, (chunk_concat R); auto).
    subst y. auto. }
  split; auto. split; auto. split; [|split].
  - intros [a b]. destruct (G _ _ _ _ (C98_clone_complex id) (Cx a b)) as ([a' b'] & E & L & _). cbn in L. injection L as -> ->. auto.
  - intros [a b c d]. destruct (G _ _ _ _ (C98_clone_quaternion id) (Qt a b c d)) as ([a' b' c' d'] & E & L & _). cbn in L. injection L as -> -> -> ->. auto.
  - intros s m N R. unfold chain_clone. cbn [fst snd]. rewrite V, (Mm N N m R). reflexivity.
Qed.

(* ------------------------------------------------------------------------- *)
(** * Equality                                                                 *)

Lemma compares_cons : forall C X (e : C -> X -> X -> res (C * bool)) c x y c1 l r, e c x y = Ok (c1, true) -> compares e c1 l r -> compares e c ((x, y) :: l) r.
Proof.
  intros C X e c x y c1 l r E [(c' & bs & -> & K & F)|(b & p & a & c2 & bs & -> & K & F & D)].
  - left. exists c', (true :: bs). split; auto. split; [econstructor; eauto|constructor; auto].
  - right. exists ((x, y) :: b), p, a, c2, (true :: bs). split; auto. split; [econstructor; eauto|]. split; [constructor; auto|auto].
Qed.
Theorem C98_eq_vector : forall C X (e : C -> X -> X -> res (C * bool)) u v c, List.length u = List.length v ->
  compares e c (combine u v) (v_eq_st e c u v).
Proof.
  intros C X e. induction u as [|x u IH]; intros [|y v] c L; try discriminate; cbn [v_eq_st combine].
  - left. exists c, []. repeat split; constructor.
  - destruct (e c x y) as [[c1 [|]]| | |] eqn:E; cbn [bind].
    + eapply compares_cons; eauto.
    + right. exists [], (x, y), (combine u v), c, []. split; [reflexivity|]. split; [constructor|]. split; [constructor|]. left. exists c1. auto.
    + right. exists [], (x, y), (combine u v), c, []. split; [reflexivity|]. split; [constructor|]. split; [constructor|]. right. cbn [fst snd]. rewrite E. split; [intros (? & ?); discriminate|exact I].
    + right. exists [], (x, y), (combine u v), c, []. split; [reflexivity|]. split; [constructor|]. split; [constructor|]. right. cbn [fst snd]. rewrite E. split; [intros (? & ?); discriminate|exact I].
    + right. exists [], (x, y), (combine u v), c, []. split; [reflexivity|]. split; [constructor|]. split; [constructor|]. right. cbn [fst snd]. rewrite E. split; [intros (? & ?); discriminate|exact I].
Qed.
Lemma v_eq_st_app : forall C X (e : C -> X -> X -> res (C * bool)) u v u' v' c, List.length u = List.length v ->
  v_eq_st e c (u ++ u') (v ++ v') = (let! (c1, b) := v_eq_st e c u v in if b then v_eq_st e c1 u' v' else Ok (c1, false)).
Proof.
  intros C X e. induction u as [|x u IH]; intros [|y v] u' v' c L; try discriminate; cbn [app v_eq_st bind]; auto.
  destruct (e c x y) as [[c1 [|]]| | |]; cbn [bind]; auto.
Qed.
Lemma m_eq_flat : forall C X (e : C -> X -> X -> res (C * bool)) M N a b c, rect M N a -> rect M N b ->
  m_eq_st e c a b = v_eq_st e c (concat a) (concat b).
Proof.
  intros C X e M N a b c (La & Fa) (Lb & Fb). rewrite <- Lb in La. clear Lb. revert b c La Fb. unfold m_eq_st.
  induction a as [|x a IH]; intros [|y b] c La Fb; try discriminate; auto. inversion Fa; subst. inversion Fb; subst. cbn [v_eq_st concat].
  rewrite v_eq_st_app by congruence. destruct (v_eq_st e c x y) as [[c1 [|]]| | |]; cbn [bind]; auto.
Qed.
(** Matrices: element by element in row-major order, up to the first difference. *)
Theorem C98_eq_matrix : forall C X (e : C -> X -> X -> res (C * bool)) M N a b c, rect M N a -> rect M N b ->
  compares e c (combine (concat a) (concat b)) (m_eq_st e c a b).
Proof.
  intros. rewrite (m_eq_flat e c H H0). apply C98_eq_vector. rewrite !(rect_concat_length H), (rect_concat_length H0). auto.
Qed.
Theorem C98_eq_complex : forall C X (e : C -> X -> X -> res (C * bool)) a b a' b' c,
  compares e c [(a, a'); (b, b')] (c_eq_st e c (Cx a b) (Cx a' b')).
Proof. intros. apply (C98_eq_vector e [a; b] [a'; b'] c). reflexivity. Qed.
Theorem C98_eq_quaternion : forall C X (e : C -> X -> X -> res (C * bool)) w x y z w' x' y' z' c,
  compares e c [(w, w'); (x, x'); (y, y'); (z, z')] (q_eq_st e c (Qt w x y z) (Qt w' x' y' z')).
Proof. intros. apply (C98_eq_vector e [w; x; y; z] [w'; x'; y'; z'] c). reflexivity. Qed.
(** [Chain]: the outer parts; if they are equal, the inner parts. *)
Theorem C98_eq_chain : forall C A B (ea : C -> A -> A -> res (C * bool)) (eb : C -> B -> B -> res (C * bool)) a b a' b' c,
  (forall c', chain_eq_st ea eb c (a, b) (a', b') = Ok (c', true) <-> exists c1, ea c a a' = Ok (c1, true) /\ eb c1 b b' = Ok (c', true)) /\
  (forall c', chain_eq_st ea eb c (a, b) (a', b') = Ok (c', false) <->
     ea c a a' = Ok (c', false) \/ exists c1, ea c a a' = Ok (c1, true) /\ eb c1 b b' = Ok (c', false)) /\
  (~ returns (chain_eq_st ea eb c (a, b) (a', b')) ->
     fails_like (chain_eq_st ea eb c (a, b) (a', b')) (ea c a a') \/
     exists c1, ea c a a' = Ok (c1, true) /\ fails_like (chain_eq_st ea eb c (a, b) (a', b')) (eb c1 b b')).
Proof.
  intros. unfold chain_eq_st. cbn [fst snd]. destruct (ea c a a') as [[c1 [|]]| | |] eqn:E; cbn [bind].
  - split; [|split].
    + intros c'. split; [eauto|]. intros (c2 & Q & K). inversion Q; subst. auto.
    + intros c'. split; [eauto|]. intros [Q|(c2 & Q & K)]; inversion Q; subst. auto.
    + intros R. right. exists c1. split; auto. destruct (eb c1 b b'); cbn; auto. apply R. eexists; reflexivity.
  - split; [|split].
    + intros c'. split; [discriminate|]. intros (c2 & Q & K). discriminate.
    + intros c'. split; [intros Q; inversion Q; subst; auto|]. intros [Q|(c2 & Q & K)]; [inversion Q; subst; auto|discriminate].
    + intros R. exfalso. apply R. eexists; reflexivity.
  - split; [intros; split; [discriminate|intros (? & ? & ?); discriminate]|split; [intros; split; [discriminate|intros [|(? & ? & ?)]; discriminate]|cbn; auto]].
  - split; [intros; split; [discriminate|intros (? & ? & ?); discriminate]|split; [intros; split; [discriminate|intros [|(? & ? & ?)]; discriminate]|cbn; auto]].
  - split; [intros; split; [discriminate|intros (? & ? & ?); discriminate]|split; [intros; split; [discriminate|intros [|(? & ? & ?)]; discriminate]|cbn; auto]].
Qed.
(** With a scalar [eq] without effects this is the equality used in the other properties; it is componentwise. *)
Theorem C98_eq_pure : forall T (o : Ops T), let e := fun (u : unit) x y => Ok (u, o_eq o x y) in
  (forall u v, v_eq_st e tt u v = Ok (tt, v_eq o u v)) /\ (forall a b, m_eq_st e tt a b = Ok (tt, m_eq o a b)) /\
  (forall a b, c_eq_st e tt a b = Ok (tt, c_eq o a b)) /\ (forall a b, q_eq_st e tt a b = Ok (tt, q_eq o a b)) /\
  (forall u v, List.length u = List.length v -> (v_eq o u v = true <-> forall i x y, nth_error u i = Some x -> nth_error v i = Some y -> o_eq o x y = true)).
Proof.
  intros T o e. assert (V : forall u v, v_eq_st e tt u v = Ok (tt, v_eq o u v)).
  { induction u as [|x u IH]; intros [|y v]; auto. cbn [v_eq_st v_eq]. unfold e at 1. cbn [bind]. destruct (o_eq o x y); cbn [andb]; auto. }
  split; auto. split; [|split; [|split]].
  - unfold m_eq_st. induction a as [|x a IH]; intros [|y b]; auto. cbn [v_eq_st m_eq]. rewrite V. cbn [bind]. destruct (v_eq o x y); cbn [andb]; auto.
  - intros. apply V.
  - intros. apply V.
  - induction u as [|x u IH]; intros [|y v] L; try discriminate; cbn [v_eq].
    + split; auto. intros _ [|i]; discriminate.
    + rewrite andb_true_iff, IH by (cbn in L; lia). split.
      * intros (E1 & E2) [|i] a b Ha Hb; cbn in Ha, Hb; [congruence|eauto].
      * intros K. split; [apply (K 0); auto|]. intros i a b Ha Hb. apply (K (S i)); auto.
Qed.

(* ------------------------------------------------------------------------- *)
(** * Default                                                                  *)

Theorem C98_default : forall C T (d : C -> res (C * T)) c,
  (forall c' z, c_default d c = Ok (c', z) <-> drawn d 2 c c' [re z; im z]) /\
  (forall c' z, q_default d c = Ok (c', z) <-> drawn d 4 c c' [qw z; qx z; qy z; qz z]) /\
  (~ returns (c_default d c) -> exists k c1 l, k < 2 /\ drawn d k c c1 l /\ fails_like (c_default d c) (d c1)) /\
  (~ returns (q_default d c) -> exists k c1 l, k < 4 /\ drawn d k c c1 l /\ fails_like (q_default d c) (d c1)).
Proof.
  intros C T d c. unfold c_default, q_default.
  destruct (C01_init_calls 2 d c) as (A1 & A2 & A3). destruct (C01_init_calls 4 d c) as (B1 & B2 & B3).
  split; [|split; [|split]].
  - intros c' z. rewrite <- A1. destruct (v_init 2 d c) as [[c1 v]| | |] eqn:E; cbn [bind]; [|split; discriminate..].
    pose proof (A2 _ _ eq_refl) as L. destruct v as [|a [|b [|? ?]]]; try discriminate. destruct z as [p q]. cbn.
    split; intros X; apply Ok_inj in X; inversion X; subst; reflexivity.
  - intros c' z. rewrite <- B1. destruct (v_init 4 d c) as [[c1 v]| | |] eqn:E; cbn [bind]; [|split; discriminate..].
    pose proof (B2 _ _ eq_refl) as L. destruct v as [|a [|b [|x [|y [|? ?]]]]]; try discriminate. destruct z. cbn.
    split; intros X; apply Ok_inj in X; inversion X; subst; reflexivity.
  - intros R. destruct (v_init 2 d c) as [[c1 v]| | |] eqn:E; cbn [bind] in *; [|apply A3; intros (? & ?); discriminate..].
    exfalso. apply R. pose proof (A2 _ _ eq_refl) as L. destruct v as [|a [|b [|? ?]]]; try discriminate. eexists; reflexivity.
  - intros R. destruct (v_init 4 d c) as [[c1 v]| | |] eqn:E; cbn [bind] in *; [|apply B3; intros (? & ?); discriminate..].
    exfalso. apply R. pose proof (B2 _ _ eq_refl) as L. destruct v as [|a [|b [|x [|y [|? ?]]]]]; try discriminate. eexists; reflexivity.
Qed.
(** If the scalar's default is zero, so is the default of complex numbers and quaternions. *)
Theorem C98_default_zero : forall T (o : Ops T), let d := fun (u : unit) => Ok (u, o_zero o) in
  (let! (_, z) := c_default d tt in Ok z) = c_zero o /\ (let! (_, z) := q_default d tt in Ok z) = q_zero o.
Proof. intros. split; reflexivity. Qed.

(** Non-vacuity: a [clone] that counts and panics on its fourth call; an [eq] that counts. *)
Example C98_ex :
  let cl := fun c (x : nat) => if c <? 3 then Ok (S c, x + 10) else Panic in
  v_clone cl 0 [1; 2; 3] = ([], Ok (3, [11; 12; 13])) /\ m_clone cl 0 [[1; 2]; [3; 4]] = ([13; 11; 12], Panic) /\
  chain_clone (v_clone cl) (fun v => v) (m_clone cl) 0 ([5], [[1; 2]; [3; 4]]) = ([11; 12; 15], Panic) /\
  (let e := fun c (x y : nat) => Ok (S c, x =? y) in
   v_eq_st e 0 [1; 2; 3] [1; 5; 3] = Ok (2, false) /\ m_eq_st e 0 [[1; 2]; [3; 4]] [[1; 2]; [3; 4]] = Ok (4, true)) /\
  c_default (fun c => Ok (S c, c * c)) 2 = Ok (4, Cx 4 9).
Proof. repeat split. Qed.

(* ------------------------------------------------------------------------- *)
(** * C99: Debug of the wrappers                                               *)
Local Open Scope string_scope.

(** [k] prints [s]: it appends a beginning of [s], all of it if it succeeds. *)
Definition prints {W : Type} (text : W -> string) (k : W -> res (W * bool)) (s : string) : Prop := forall w, appended text s w (k w).
(** Every write of a literal does so. *)
Definition plain {W : Type} (text : W -> string) (lit : string -> W -> res (W * bool)) : Prop := forall s, prints text (lit s) s.

Lemma and_then_prints : forall W (text : W -> string) a b s t, prints text a s -> prints text b t -> prints text (and_then a b) (s ++ t).
Proof.
  intros W text a b s t Ha Hb w w' ok E. unfold and_then in E. destruct (a w) as [[w1 [|]]| | |] eqn:Ea; cbn [bind] in E; try discriminate.
  - destruct (Ha w w1 true Ea) as (d1 & r1 & T1 & S1 & Z1). rewrite (Z1 eq_refl), append_nil in S1. subst s.
    destruct (Hb w1 w' ok E) as (d2 & r2 & T2 & S2 & Z2). exists (d1 ++ d2), r2. rewrite T2, T1, S2, !append_assoc. auto.
  - inversion E; subst. destruct (Ha w w' false Ea) as (d1 & r1 & T1 & S1 & Z1). exists d1, (r1 ++ t). rewrite T1, S1, append_assoc. repeat split; auto. discriminate.
Qed.
Lemma prints_eq : forall W (text : W -> string) k s t, s = t -> prints text k s -> prints text k t.
Proof. intros; subst; auto. Qed.
(** What each of them prints, given what its parts print. *)
Theorem C99_text : forall W (text : W -> string) lit, plain text lit ->
  (forall k s, prints text k s ->
     prints text (shift_debug lit k) ("Shift { pos: " ++ s ++ " }") /\ prints text (linear_debug lit k) ("Linear { lin: " ++ s ++ " }") /\
     prints text (scale_debug lit k) ("Scale { mag: " ++ s ++ " }") /\ prints text (rotation2_debug lit k) ("Rotation2 { comp: " ++ s ++ " }") /\
     prints text (rotation3_debug lit k) ("Rotation3 { quat: " ++ s ++ " }") /\ prints text (moebius_debug lit k) ("Moebius { mat: " ++ s ++ " }")) /\
  (forall a b p sa sb sp, prints text a sa -> prints text b sb -> prints text p sp ->
     prints text (chain_debug lit a b p) ("Chain { outer: " ++ sa ++ ", inner: " ++ sb ++ ", phantom: " ++ sp ++ " }")).
Proof.
  intros W text lit P.
  assert (D : forall n f k s, prints text k s -> prints text (debug1 lit n f k) (n ++ " { " ++ f ++ ": " ++ s ++ " }")).
  { intros n f k s K. unfold debug1. repeat (apply and_then_prints; auto). }
  split.
  - intros k s K. repeat split; eapply prints_eq; try (apply D; exact K); reflexivity.
  - intros a b p sa sb sp A B C. unfold chain_debug.
    assert (Q : prints text (and_then (lit "Chain")
      (and_then (and_then (lit " { ") (and_then (lit "outer") (and_then (lit ": ") a)))
      (and_then (and_then (lit ", ") (and_then (lit "inner") (and_then (lit ": ") b)))
      (and_then (and_then (lit ", ") (and_then (lit "phantom") (and_then (lit ": ") p))) (lit " }")))))
      ("Chain" ++ (" { " ++ "outer" ++ ": " ++ sa) ++ (", " ++ "inner" ++ ": " ++ sb) ++ (", " ++ "phantom" ++ ": " ++ sp) ++ " }")).
    { repeat (apply and_then_prints; auto). }
    eapply prints_eq; [|exact Q]. rewrite <- !append_assoc. reflexivity.
Qed.
(** If no part fails, none of them does. *)
Theorem C99_no_failure : forall W (lit : string -> W -> res (W * bool)), (forall s w, exists w', lit s w = Ok (w', true)) ->
  (forall n f k, (forall w, exists w', k w = Ok (w', true)) -> forall w, exists w', debug1 lit n f k w = Ok (w', true)) /\
  (forall a b p, (forall w, exists w', a w = Ok (w', true)) -> (forall w, exists w', b w = Ok (w', true)) -> (forall w, exists w', p w = Ok (w', true)) ->
     forall w, exists w', chain_debug lit a b p w = Ok (w', true)).
Proof.
  intros W lit P.
  assert (A : forall a b, (forall w, exists w', a w = Ok (w', true)) -> (forall w, exists w', b w = Ok (w', true)) -> forall w : W, exists w', and_then a b w = Ok (w', true)).
  { intros a b Ha Hb w. unfold and_then. destruct (Ha w) as (w1 & ->). cbn [bind]. apply Hb. }
  split; intros; unfold debug1, chain_debug; repeat (apply A; auto; intros).
Qed.
Example C99_ex :
  let lit := fun (s : string) (w : string) => Ok (w ++ s, true) in let elem := fun (n : nat) (w : string) => Ok (w ++ nat_str n, true) in
  shift_debug lit (v_write lit elem 3 [1; 2; 3]%nat) "" = Ok ("Shift { pos: Vector3(1, 2, 3) }", true) /\
  rotation2_debug lit (c_write lit elem (Cx 1 2)%nat) "" = Ok ("Rotation2 { comp: Complex(1, 2) }", true) /\
  chain_debug lit (scale_debug lit (elem 7%nat)) (shift_debug lit (v_write lit elem 1 [4]%nat)) (lit "PhantomData") "" =
    Ok ("Chain { outer: Scale { mag: 7 }, inner: Shift { pos: Vector1(4) }, phantom: PhantomData }", true).
Proof. repeat split. Qed.

Print Assumptions C98_clone_vector.
Print Assumptions C98_clone_matrix.
Print Assumptions C98_clone_complex.
Print Assumptions C98_clone_quaternion.
Print Assumptions C98_clone_chain.
Print Assumptions C98_clone_equal.
Print Assumptions C98_eq_vector.
Print Assumptions C98_eq_matrix.
Print Assumptions C98_eq_complex.
Print Assumptions C98_eq_quaternion.
Print Assumptions C98_eq_chain.
Print Assumptions C98_eq_pure.
Print Assumptions C98_default.
Print Assumptions C98_default_zero.
Print Assumptions C99_text.
Print Assumptions C99_no_failure.
