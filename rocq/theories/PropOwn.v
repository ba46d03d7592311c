(** C88: what becomes of every element when a closure or scalar operation panics half-way. *)
From Coq Require Import List Arith Lia Bool Permutation.
From Verif Require Import Spec VFacts SpecFacts VecProofs MFacts MatProofs OwnModel.
Import ListNotations.
Set Implicit Arguments.

(** * Specification *)
(** The operand elements and the results among the values dropped. *)
Definition operands {A B : Type} (log : list (A + B)) : list A := flat_map (fun e => match e with inl x => [x] | inr _ => [] end) log.
Definition results {A B : Type} (log : list (A + B)) : list B := flat_map (fun e => match e with inl _ => [] | inr y => [y] end) log.
(** Calls of [f] on the elements [v] in order, the first to fail being the one on [x], with result [r]: [before] were passed
    before it with results [outs], and [after] have not been passed. *)
Definition fails_at {C A B R : Type} (f : C -> A -> res (C * B)) (c : C) (v : list A) (r : res R) (outs : list B) (after : list A) : Prop :=
  exists before x c1, v = before ++ x :: after /\ called f c before c1 outs /\ ~ returns (f c1 x) /\ fails_like r (f c1 x).
(** The same for a closure that only updates a state. *)
Definition fold_fails_at {S A R : Type} (f : S -> A -> res S) (s : S) (v : list A) (r : res R) (after : list A) : Prop :=
  exists before x s1, v = before ++ x :: after /\ fold_res f s before = Ok s1 /\ ~ returns (f s1 x) /\ fails_like r (f s1 x).

(** * Facts *)
Lemma fails_like_refail' : forall A B (r : res A), ~ returns r -> fails_like (@refail A B r) r.
Proof. intros A B [a| | |] H; cbn; auto. apply H. now exists a. Qed.
Lemma not_returns : forall A (r : res A), ~ returns r -> forall B (k : A -> res B), bind r k = refail r.
Proof. intros A [a| | |] H B k; cbn; auto. exfalso. apply H. now exists a. Qed.
Lemma refail_bind : forall A B C (r : res A) (k : B -> res C), ~ returns r -> bind (refail r) k = refail r.
Proof. intros A B C [a| | |] k H; reflexivity. Qed.
Lemma operands_app : forall A B (a b : list (A + B)), operands (a ++ b) = operands a ++ operands b.
Proof. intros. apply flat_map_app. Qed.
Lemma results_app : forall A B (a b : list (A + B)), results (a ++ b) = results a ++ results b.
Proof. intros. apply flat_map_app. Qed.
Lemma operands_inl : forall A B (l : list A), @operands A B (map inl l) = l.
Proof. induction l as [|? ? IH]; cbn; [reflexivity|]. f_equal; exact IH. Qed.
Lemma operands_inr : forall A B (l : list B), @operands A B (map inr l) = [].
Proof. induction l; cbn; auto. Qed.
Lemma results_inl : forall A B (l : list A), @results A B (map inl l) = [].
Proof. induction l; cbn; auto. Qed.
Lemma results_inr : forall A B (l : list B), @results A B (map inr l) = l.
Proof. induction l as [|? ? IH]; cbn; [reflexivity|]. f_equal; exact IH. Qed.
Lemma flat_map_single : forall A B (g : A -> B) l, flat_map (fun x => [g x]) l = map g l.
Proof. induction l as [|? ? IH]; cbn; [reflexivity|]. f_equal; exact IH. Qed.
Lemma flat_map_map_concat : forall A B (g : A -> B) l, flat_map (map g) l = map g (concat l).
Proof. induction l; cbn; auto. now rewrite map_app, IHl. Qed.
Lemma flat_map_id_concat : forall A (l : list (list A)), flat_map (fun r => r) l = concat l.
Proof. intros. rewrite flat_map_concat_map, map_id. reflexivity. Qed.

(** The outcomes are those of the functional model. *)
Section Outcome.
  Context {D : Type}.
  Lemma own_fold_outcome : forall S X (glue : X -> list D) f (g : S -> X -> res S), (forall s x, snd (f s x) = g s x) ->
    forall v s, snd (own_fold glue f s v) = fold_res g s v.
  Proof.
    intros S X glue f g E. induction v as [|x t IH]; intros s; cbn [own_fold fold_res]; [reflexivity|].
    rewrite <- E. destruct (f s x) as (d, [s1| | |]); cbn [snd bind refail]; auto. rewrite <- IH. destruct (own_fold glue f s1 t). reflexivity.
  Qed.
  Lemma own_map_outcome : forall C X Y (glue : X -> list D) (glueY : Y -> list D) f (g : C -> X -> res (C * Y)), (forall c x, snd (f c x) = g c x) ->
    forall v c acc, snd (own_map glue glueY f c v acc) = let! (c1, w) := map_st g c v in Ok (c1, acc ++ w).
  Proof.
    intros C X Y glue glueY f g E. induction v as [|x t IH]; intros c acc; cbn [own_map map_st bind]. { now rewrite app_nil_r. }
    rewrite <- E. destruct (f c x) as (d, [(c1, y)| | |]); cbn [snd bind refail]; auto.
    specialize (IH c1 (acc ++ [y])). destruct (own_map glue glueY f c1 t (acc ++ [y])) as (d1, r1). cbn [snd] in *. subst r1.
    destruct (map_st g c1 t) as [(c2, w)| | |]; cbn [bind]; auto. now rewrite <- app_assoc.
  Qed.
  Lemma own_init_outcome : forall C Y f (g : C -> res (C * Y)), (forall c, snd (f c) = g c) ->
    forall N c, snd (@own_init D C Y N f c) = v_init N g c.
  Proof.
    intros C Y f g E N c. unfold own_init, v_init.
    assert (H : forall n pos c a, snd (@own_init_loop D C Y f n pos c a) = v_init_loop g n pos c a).
    { induction n; intros pos c0 a; cbn [own_init_loop v_init_loop]; [reflexivity|]. rewrite <- E.
      destruct (f c0) as (d, [(c1, y)| | |]); cbn [snd bind refail]; auto. rewrite <- IHn.
      destruct (own_init_loop f n (S pos) c1 (list_set a pos (Some y))). reflexivity. }
    rewrite <- H. destruct (own_init_loop f N 0 c (v_uninit N)). reflexivity.
  Qed.
  Lemma own_scan_outcome : forall S X Y (glue : X -> list D) (glueY : Y -> list D) N f (g : S -> X -> res (S * Y)), (forall s x, snd (f s x) = g s x) ->
    forall v s, snd (own_scan glue glueY N f s v) = v_scan_st N g s v.
  Proof.
    intros S X Y glue glueY N f g E v s. unfold own_scan, v_scan_st, v_try_from_iter, tfi.
    assert (H : forall n pos a s v, snd (own_scan_loop glue f n pos a s v) =
      let! (st, a1, p) := tfi_loop (scan_next g list_next) n pos a (v, s) in Ok (snd st, fst st, a1, p)).
    { induction n; intros pos a s0 v0; cbn [own_scan_loop tfi_loop]; [reflexivity|].
      destruct v0 as [|x t]; cbn [scan_next list_next bind]; [reflexivity|]. rewrite <- E.
      destruct (f s0 x) as (d, [(s1, y)| | |]); cbn [snd bind refail]; auto. rewrite <- IHn.
      destruct (own_scan_loop glue f n (Datatypes.S pos) (list_set a pos (Some y)) s1 t). reflexivity. }
    specialize (H N 0 (v_uninit N) s v). destruct (own_scan_loop glue f N 0 (v_uninit N) s v) as (d, r). cbn [snd] in H. subst r.
    destruct (tfi_loop (scan_next g list_next) N 0 (v_uninit N) (v, s)) as [(((v1, s1), a), pos)| | |]; cbn [bind fst snd refail]; auto.
    destruct (N <? pos); cbn [snd bind]; auto. destruct (pos =? N); cbn [snd bind].
    - destruct (v_assume_init a); reflexivity.
    - destruct (tfi_drop a pos); reflexivity.
  Qed.
End Outcome.

(** The logs, for a user closure. *)
Lemma v_fold_log : forall S T (f : S -> T -> res S) v s,
  (exists s', fold_res f s v = Ok s' /\ v_fold_own f s v = ([], Ok s')) \/
  (exists before x s1 after, v = before ++ x :: after /\ fold_res f s before = Ok s1 /\ ~ returns (f s1 x) /\ v_fold_own f s v = (after, refail (f s1 x))).
Proof.
  intros S T f. induction v as [|x t IH]; intros s.
  - left. exists s. split; reflexivity.
  - unfold v_fold_own. cbn [own_fold fold_res]. change (@user T S (f s x)) with (@nil T, f s x). cbv iota beta. destruct (f s x) as [s1| | |] eqn:E.
    + cbn [bind]. destruct (IH s1) as [(s' & H1 & H2)|(b & y & s2 & a & H1 & H2 & H3 & H4)].
      * left. exists s'. split; auto. unfold v_fold_own in H2. rewrite H2. reflexivity.
      * right. exists (x :: b), y, s2, a. cbn [fold_res]. rewrite E. cbn [bind]. subst t. repeat split; auto.
        unfold v_fold_own in H4. rewrite H4. reflexivity.
    + right. exists [], x, s, t. cbn [fold_res]. rewrite E. rewrite flat_map_single, map_id. repeat split; auto. intros (? & ?); discriminate.
    + right. exists [], x, s, t. cbn [fold_res]. rewrite E. rewrite flat_map_single, map_id. repeat split; auto. intros (? & ?); discriminate.
    + right. exists [], x, s, t. cbn [fold_res]. rewrite E. rewrite flat_map_single, map_id. repeat split; auto. intros (? & ?); discriminate.
Qed.
Lemma v_map_log : forall C A B (f : C -> A -> res (C * B)) v c acc,
  let run := own_map (fun x => [inl x]) (fun y => [inr y]) (fun c x => user (f c x)) c v acc in
  (exists c' w, called f c v c' w /\ run = ([], Ok (c', acc ++ w))) \/
  (exists before x c1 outs after, v = before ++ x :: after /\ called f c before c1 outs /\ ~ returns (f c1 x) /\
     run = (map inr (acc ++ outs) ++ map inl after, refail (f c1 x))).
Proof.
  intros C A B f. induction v as [|x t IH]; intros c acc; cbn [own_map].
  - left. exists c, []. rewrite app_nil_r. split; [constructor|reflexivity].
  - change (@user (A + B) (C * B) (f c x)) with (@nil (A + B), f c x). cbv iota beta. destruct (f c x) as [(c1, y)| | |] eqn:E.
    + destruct (IH c1 (acc ++ [y])) as [(c' & w & H1 & H2)|(b & z & c2 & outs & a & H1 & H2 & H3 & H4)].
      * left. exists c', (y :: w). split; [econstructor; eauto|]. rewrite H2, <- app_assoc. reflexivity.
      * right. exists (x :: b), z, c2, (y :: outs), a. subst t. split; [reflexivity|]. split; [econstructor; eauto|]. split; auto.
        rewrite H4, <- app_assoc. reflexivity.
    + right. exists [], x, c, [], t. rewrite E, !flat_map_single, app_nil_r. repeat split; auto; [constructor|intros (? & ?); discriminate].
    + right. exists [], x, c, [], t. rewrite E, !flat_map_single, app_nil_r. repeat split; auto; [constructor|intros (? & ?); discriminate].
    + right. exists [], x, c, [], t. rewrite E, !flat_map_single, app_nil_r. repeat split; auto; [constructor|intros (? & ?); discriminate].
Qed.

Lemma called_app : forall C A B (f : C -> A -> res (C * B)) c l1 c1 r1 l2 c2 r2,
  called f c l1 c1 r1 -> called f c1 l2 c2 r2 -> called f c (l1 ++ l2) c2 (r1 ++ r2).
Proof. intros C A B f c l1 c1 r1 l2 c2 r2 H. induction H; intros; cbn; auto. econstructor; eauto. Qed.
Lemma fold_res_app' : forall S A (f : S -> A -> res S) l1 l2 s, fold_res f s (l1 ++ l2) = let! s1 := fold_res f s l1 in fold_res f s1 l2.
Proof. induction l1; intros; cbn [fold_res List.app bind]; auto. destruct (f s a); cbn [bind]; auto. Qed.

Lemma map_st_ext : forall C A B (f g : C -> A -> res (C * B)), (forall c x, f c x = g c x) -> forall v c, map_st f c v = map_st g c v.
Proof. intros C A B f g E. induction v; intros c; cbn [map_st]; auto. rewrite E. destruct (g c a) as [(c1 & b)| | |]; cbn [bind]; auto. now rewrite IHv. Qed.
Lemma skipn_combine : forall A B n (u : list A) (v : list B), length u = length v -> skipn n (combine u v) = combine (skipn n u) (skipn n v).
Proof. induction n; intros [|x u] [|y v] L; cbn in *; try discriminate; auto. Qed.
Lemma m_fold_log : forall S T (f : S -> T -> res S) m s,
  (exists s', fold_res f s (concat m) = Ok s' /\ m_fold_own f s m = ([], Ok s')) \/
  (exists before x s1 after, concat m = before ++ x :: after /\ fold_res f s before = Ok s1 /\ ~ returns (f s1 x) /\ m_fold_own f s m = (after, refail (f s1 x))).
Proof.
  intros S T f. induction m as [|r t IH]; intros s.
  - left. exists s. split; reflexivity.
  - unfold m_fold_own. cbn [own_fold concat]. destruct (v_fold_log f r s) as [(s1 & H1 & H2)|(b & x & s1 & a & H1 & H2 & H3 & H4)].
    + rewrite H2. cbn [List.app]. fold (m_fold_own f s1 t). rewrite fold_res_app', H1. cbn [bind].
      destruct (IH s1) as [(s' & K1 & K2)|(b & y & s2 & a & K1 & K2 & K3 & K4)].
      * left. exists s'. rewrite K2. auto.
      * right. exists (r ++ b), y, s2, a. rewrite K4, K1, app_assoc, fold_res_app', H1. auto.
    + right. rewrite H4. rewrite flat_map_id_concat. exists b, x, s1, (a ++ concat t). subst r. rewrite <- app_assoc. repeat split; auto.
      destruct (f s1 x); reflexivity.
Qed.

Lemma m_map_log : forall C A B (f : C -> A -> res (C * B)) m c acc,
  let run := own_map (map inl) (map inr) (fun c r => v_map_own f c r) c m acc in
  (exists c' w, called f c (concat m) c' (concat w) /\ run = ([], Ok (c', acc ++ w))) \/
  (exists before x c1 outs after, concat m = before ++ x :: after /\ called f c before c1 outs /\ ~ returns (f c1 x) /\
     operands (fst run) = after /\ Permutation (results (fst run)) (concat acc ++ outs) /\ snd run = refail (f c1 x)).
Proof.
  intros C A B f. induction m as [|r t IH]; intros c acc; cbn [own_map].
  - left. exists c, []. rewrite app_nil_r. split; [constructor|reflexivity].
  - cbn [concat]. pose proof (v_map_log f r c []) as V. cbv zeta in V. fold (v_map_own f c r) in V.
    destruct V as [(c1 & w & H1 & H2)|(b & x & c1 & outs & a & H1 & H2 & H3 & H4)].
    + rewrite H2. cbn [List.app].
      destruct (IH c1 (acc ++ [w])) as [(c' & w' & K1 & K2)|(b & z & c2 & outs & a & K1 & K2 & K3 & K4 & K5 & K6)].
      * left. exists c', (w :: w'). cbn [concat]. split; [eapply called_app; eauto|]. rewrite K2, <- app_assoc. reflexivity.
      * right. exists (r ++ b), z, c2, (w ++ outs), a. rewrite K1, app_assoc. split; [reflexivity|]. split; [eapply called_app; eauto|]. split; auto.
        destruct (own_map (map inl) (map inr) (fun c r => v_map_own f c r) c1 t (acc ++ [w])) as (d1, r1). cbn [fst snd] in *. split; [auto|split; auto].
        rewrite K5, concat_app. cbn [concat]. rewrite app_nil_r, <- app_assoc. reflexivity.
    + right. rewrite H4. cbn [List.app]. subst r. rewrite <- app_assoc. cbn [List.app]. exists b, x, c1, outs, (a ++ concat t).
      assert (R : forall X (e : X), (match @refail (C * B) (C * list B) (f c1 x) with Ok _ => e | _ => e end) = e) by (intros; destruct (f c1 x); reflexivity).
      split; [reflexivity|]. split; [assumption|]. split; [assumption|].
      assert (Z : exists e, @refail (C * B) (C * list B) (f c1 x) = e /\ (e = Panic \/ e = UB \/ e = Fuel) /\ @refail _ (C * list (list B)) e = refail (f c1 x)).
      { destruct (f c1 x) as [z| | |]; [exfalso; apply H3; now exists z|..]; eexists; (split; [reflexivity|split; [auto|reflexivity]]). }
      destruct Z as (e & Ze & Z1 & Z2). rewrite Ze. clear R.
      assert (G : forall (log : list (A + B)), log = (map inr outs ++ map inl a) ++ map inr (concat acc) ++ map inl (concat t) ->
        operands log = a ++ concat t /\ Permutation (results log) (concat acc ++ outs)).
      { intros log ->. rewrite !operands_app, !results_app, !operands_inl, !operands_inr, !results_inl, !results_inr.
        cbn [List.app]. rewrite !app_nil_r. split; [reflexivity|]. apply Permutation_app_comm. }
      rewrite !flat_map_map_concat.
      destruct Z1 as [-> | [-> | ->]]; cbn [fst snd]; (edestruct G as (G1 & G2); [reflexivity|split; [exact G1|split; [exact G2|exact Z2]]]).
Qed.

(** A scan over closures that drop nothing when they return. *)
Lemma scan_loop_log : forall D S X Y (glue : X -> list D) (f : S -> X -> ow D (S * Y)),
  forall v, (forall s x d s1 y, In x v -> f s x = (d, Ok (s1, y)) -> d = []) -> forall pos a s,
  (exists s' w a', called (fun s x => snd (f s x)) s v s' w /\ own_scan_loop glue f (length v) pos a s v = ([], Ok (s', [], a', pos + length v))) \/
  (exists before x s1 w after, v = before ++ x :: after /\ called (fun s x => snd (f s x)) s before s1 w /\ ~ returns (snd (f s1 x)) /\
     own_scan_loop glue f (length v) pos a s v = (fst (f s1 x) ++ flat_map glue after, refail (snd (f s1 x)))).
Proof.
  intros D S X Y glue f. induction v as [|x t IH]; intros Hf pos a s; cbn [length own_scan_loop].
  - left. exists s, [], a. rewrite Nat.add_0_r. split; [constructor|reflexivity].
  - destruct (f s x) as (d, [(s1, y)| | |]) eqn:E.
    + apply Hf in E as Hd; [|now left]. subst d. destruct (IH (fun s x d s1 y H => Hf s x d s1 y (or_intror H)) (Datatypes.S pos) (list_set a pos (Some y)) s1) as [(s' & w & a' & H1 & H2)|(b & z & s2 & w & af & H1 & H2 & H3 & H4)].
      * left. exists s', (y :: w), a'. split; [econstructor; [rewrite E; reflexivity|auto]|]. rewrite H2. cbn [List.app]. do 3 f_equal. lia.
      * right. exists (x :: b), z, s2, (y :: w), af. split; [now rewrite H1|]. split; [econstructor; [rewrite E; reflexivity|auto]|]. split; auto. rewrite H4. reflexivity.
    + right. exists [], x, s, [], t. rewrite E. split; [reflexivity|]. split; [constructor|]. split; [intros (? & ?); discriminate|reflexivity].
    + right. exists [], x, s, [], t. rewrite E. split; [reflexivity|]. split; [constructor|]. split; [intros (? & ?); discriminate|reflexivity].
    + right. exists [], x, s, [], t. rewrite E. split; [reflexivity|]. split; [constructor|]. split; [intros (? & ?); discriminate|reflexivity].
Qed.
Lemma scan_log : forall D S X Y (glue : X -> list D) (glueY : Y -> list D) (f : S -> X -> ow D (S * Y)),
  forall N v s, (forall s x d s1 y, In x v -> f s x = (d, Ok (s1, y)) -> d = []) -> length v = N ->
  (exists s' w, called (fun s x => snd (f s x)) s v s' w /\ own_scan glue glueY N f s v = ([], Ok (s', w))) \/
  (exists before x s1 w after, v = before ++ x :: after /\ called (fun s x => snd (f s x)) s before s1 w /\ ~ returns (snd (f s1 x)) /\
     own_scan glue glueY N f s v = (fst (f s1 x) ++ flat_map glue after, refail (snd (f s1 x)))).
Proof.
  intros D S X Y glue glueY f N v s Hf L. pose proof (own_scan_outcome glue glueY N f (fun s x => snd (f s x)) (fun _ _ => eq_refl) v s) as O.
  destruct (v_scan_spec (N := N) (fun s x => snd (f s x)) s v L) as (O1 & _).
  unfold own_scan in *. subst N. destruct (scan_loop_log glue f v Hf 0 (v_uninit (length v)) s) as [(s' & w & a' & H1 & H2)|(b & x & s1 & w & a & H1 & H2 & H3 & H4)].
  - left. exists s', w. split; auto. apply O1 in H1. rewrite H2 in O |- *. cbn [Nat.add flat_map] in *.
    rewrite Nat.ltb_irrefl, Nat.eqb_refl in O |- *. cbn [snd List.app] in *. rewrite O, H1. reflexivity.
  - right. exists b, x, s1, w, a. repeat split; auto. rewrite H4. destruct (snd (f s1 x)); reflexivity.
Qed.
Lemma v_scan_log : forall S A B (f : S -> A -> res (S * B)) N v s, length v = N ->
  (exists s' w, called f s v s' w /\ v_scan_own N f s v = ([], Ok (s', w))) \/
  (exists before x s1 w after, v = before ++ x :: after /\ called f s before s1 w /\ ~ returns (f s1 x) /\ v_scan_own N f s v = (map inl after, refail (f s1 x))).
Proof.
  intros S A B f N v s L. unfold v_scan_own.
  destruct (@scan_log (A + B) S A B (fun x => [inl x]) (fun y => [inr y]) (fun s x => user (f s x))) with (N := N) (v := v) (s := s)
    as [(s' & w & H1 & H2)|(b & x & s1 & w & a & H1 & H2 & H3 & H4)]; auto.
  - intros s0 x d s1 y _ E. unfold user in E. injection E as E _. exact (eq_sym E).
  - left. exists s', w. auto.
  - right. exists b, x, s1, w, a. cbn [user snd] in *. repeat split; auto.
Qed.

Lemma m_scan_called : forall S A B (f : S -> A -> res (S * B)) N rows s s' w, Forall (fun r => length r = N) rows ->
  called (fun s r => snd (v_scan_own N f s r)) s rows s' w -> called f s (concat rows) s' (concat w).
Proof.
  intros S A B f N rows s s' w F H. induction H as [|s r l s1 w1 s2 ws E _ IH]; cbn [concat]; [constructor|]. inversion F as [|? ? F1 F2]; subst.
  eapply called_app; [|apply IH; auto]. destruct (v_scan_log f r s eq_refl) as [(s' & w & H1 & H2)|(b & x & s3 & w & a & H1 & H2 & H3 & H4)].
  - rewrite H2 in E. cbn in E. apply Ok_inj in E. now inversion E; subst.
  - rewrite H4 in E. cbn in E. exfalso. destruct (f s3 x); discriminate E.
Qed.
Lemma m_scan_log : forall S A B (f : S -> A -> res (S * B)) M N m s, rect M N m ->
  (exists s' w, called f s (concat m) s' (concat w) /\ m_scan_own M N f s m = ([], Ok (s', w))) \/
  (exists before x s1 w after, concat m = before ++ x :: after /\ called f s before s1 w /\ ~ returns (f s1 x) /\ m_scan_own M N f s m = (map inl after, refail (f s1 x))).
Proof.
  intros S A B f M N m s (L & F). unfold m_scan_own.
  destruct (@scan_log (A + B) S (list A) (list B) (map inl) (map inr) (fun s r => v_scan_own N f s r)) with (N := M) (v := m) (s := s)
    as [(s' & w & H1 & H2)|(b & r & s1 & w & a & H1 & H2 & H3 & H4)]; auto.
  - intros s0 r d s1 y Hr E. rewrite Forall_forall in F. destruct (v_scan_log f r s0 (F r Hr)) as [(s' & w & K1 & K2)|(b & x & s3 & w & a & K1 & K2 & K3 & K4)].
    + rewrite K2 in E. now inversion E.
    + rewrite K4 in E. exfalso. destruct (f s3 x); discriminate E.
  - left. exists s', w. split; auto. eapply m_scan_called; eauto.
  - right. subst m. apply Forall_app in F as (F1 & F2). inversion F2 as [|? ? F3 F4]; subst.
    apply m_scan_called in H2; auto. rewrite H4.
    destruct (v_scan_log f r s1 eq_refl) as [(s' & w' & K1 & K2)|(b' & x & s3 & w' & a' & K1 & K2 & K3 & K4)].
    + exfalso. apply H3. rewrite K2. now exists (s', w').
    + exists (concat b ++ b'), x, s3, (concat w ++ w'), (a' ++ concat a). rewrite K4. rewrite concat_app. cbn [concat fst snd].
      split; [rewrite K1 at 1; now rewrite <- !app_assoc|]. split; [eapply called_app; eauto|]. split; auto.
      rewrite flat_map_map_concat, map_app. f_equal. destruct (f s3 x) as [z| | |]; try reflexivity.
Qed.

(** * C88 *)
(** The run of a consuming method over the elements [l], with drop log [log] and outcome [r]: either every call returned
    and nothing was dropped, or some call failed, and then of the operand exactly the elements not yet passed were dropped,
    each once and in order, and of the results so far exactly [kept outs]. *)
Definition accounted {C A B R : Type} (kept : list B -> list B -> Prop) (f : C -> A -> res (C * B)) (c : C) (l : list A) (log : list (A + B)) (r : res R) : Prop :=
  (log = [] /\ returns r /\ exists c' w, called f c l c' w) \/
  (exists outs after, fails_at f c l r outs after /\ operands log = after /\ kept (results log) outs).
(** The results so far are all dropped (in some order), or all leaked. *)
Definition all_dropped {B : Type} (dropped outs : list B) : Prop := Permutation dropped outs.
Definition all_leaked {B : Type} (dropped outs : list B) : Prop := dropped = [].

Theorem C88_fold : forall S T (f : S -> T -> res S) s v, let (log, r) := v_fold_own f s v in
  r = v_fold f s v /\ ((log = [] /\ returns r) \/ (exists after, fold_fails_at f s v r after /\ log = after)).
Proof.
  intros S T f s v. destruct (v_fold_log f v s) as [(s' & H1 & ->)|(b & x & s1 & a & H1 & H2 & H3 & H4)].
  - split; [symmetry; exact H1|]. left. split; auto. now exists s'.
  - rewrite H4. split.
    + subst v. unfold v_fold. rewrite fold_res_app', H2. cbn [bind fold_res]. now rewrite not_returns.
    + right. exists a. split; auto. exists b, x, s1. repeat split; auto. now apply fails_like_refail'.
Qed.
Theorem C88_for_each : forall C T (f : C -> T -> res C) c v, let (log, r) := v_for_each_own f c v in
  r = v_for_each_st f c v /\ ((log = [] /\ returns r) \/ (exists after, fold_fails_at f c v r after /\ log = after)).
Proof. intros. exact (C88_fold f c v). Qed.
(** [fold_first] of a vector of one element or more: the first element is the initial state. *)
Theorem C88_fold_first : forall T (f : T -> T -> res T) x t, let (log, r) := v_fold_first_own f (x :: t) in
  r = v_fold_first f (x :: t) /\ ((log = [] /\ returns r) \/ (exists after, fold_fails_at f x t r after /\ log = after)).
Proof. intros. exact (C88_fold f x t). Qed.
Theorem C88_matrix_fold : forall S T (f : S -> T -> res S) s m, let (log, r) := m_fold_own f s m in
  r = m_fold f s m /\ ((log = [] /\ returns r) \/ (exists after, fold_fails_at f s (concat m) r after /\ log = after)).
Proof.
  intros S T f s m. assert (O : snd (m_fold_own f s m) = m_fold f s m).
  { unfold m_fold_own, m_fold, v_fold at 1. apply own_fold_outcome. intros s0 x. unfold v_fold_own, v_fold. now apply own_fold_outcome. }
  destruct (m_fold_log f m s) as [(s' & H1 & H2)|(b & x & s1 & a & H1 & H2 & H3 & H4)].
  - rewrite H2 in O |- *. split; [exact O|]. left. split; auto. now exists s'.
  - rewrite H4 in O |- *. split; [exact O|]. right. exists a. split; auto. exists b, x, s1. repeat split; auto. now apply fails_like_refail'.
Qed.
Theorem C88_matrix_for_each : forall C T (f : C -> T -> res C) c m, let (log, r) := m_for_each_own f c m in
  r = m_for_each_st f c m /\ ((log = [] /\ returns r) \/ (exists after, fold_fails_at f c (concat m) r after /\ log = after)).
Proof. intros. exact (C88_matrix_fold f c m). Qed.
(** The first element of the first row is the initial state (for a matrix whose first row has an element). *)
Theorem C88_matrix_fold_first : forall T (f : T -> T -> res T) x r0 t, let (log, r) := m_fold_first_own f ((x :: r0) :: t) in
  r = m_fold_first f ((x :: r0) :: t) /\ ((log = [] /\ returns r) \/ (exists after, fold_fails_at f x (r0 ++ concat t) r after /\ log = after)).
Proof.
  intros T f x r0 t. pose proof (C88_matrix_fold f x (r0 :: t)) as H. unfold m_fold_own in H. cbn [own_fold concat] in H.
  unfold m_fold_first_own. change (v_fold_first_own f (x :: r0)) with (v_fold_own f x r0).
  change (m_fold_first f ((x :: r0) :: t)) with (m_fold f x (r0 :: t)).
  destruct (v_fold_own f x r0) as (d, [s0| | |]); [exact H|..]; rewrite flat_map_id_concat in H; exact H.
Qed.

Theorem C88_map : forall C A B (f : C -> A -> res (C * B)) c v, let (log, r) := v_map_own f c v in
  r = v_map_st f c v /\ accounted all_dropped f c v log r.
Proof.
  intros C A B f c v. assert (O : snd (v_map_own f c v) = v_map_st f c v).
  { unfold v_map_own, v_map_st. rewrite own_map_outcome with (g := f) by reflexivity. destruct (map_st f c v) as [(? & ?)| | |]; reflexivity. }
  pose proof (v_map_log f v c []) as V. cbv zeta in V. fold (v_map_own f c v) in V.
  destruct V as [(c' & w & H1 & H2)|(b & x & c1 & outs & a & H1 & H2 & H3 & H4)].
  - rewrite H2 in O |- *. split; [exact O|]. left. split; auto. split; [eexists; reflexivity|]. now exists c', w.
  - rewrite H4 in O |- *. split; [exact O|]. right. exists outs, a. split; [exists b, x, c1; repeat split; auto; now apply fails_like_refail'|].
    cbn [List.app]. rewrite operands_app, results_app, operands_inl, operands_inr, results_inl, results_inr, app_nil_r. split; [reflexivity|]. unfold all_dropped. reflexivity.
Qed.
Theorem C88_matrix_map : forall C A B (f : C -> A -> res (C * B)) c m, let (log, r) := m_map_own f c m in
  r = m_map_st f c m /\ accounted all_dropped f c (concat m) log r.
Proof.
  intros C A B f c m. assert (O : snd (m_map_own f c m) = m_map_st f c m).
  { unfold m_map_own, m_map_st, v_map_st at 1. erewrite own_map_outcome.
    2: { intros c0 x. pose proof (C88_map f c0 x) as H. destruct (v_map_own f c0 x). exact (proj1 H). }
    destruct (map_st (fun c r => v_map_st f c r) c m) as [(? & ?)| | |]; reflexivity. }
  pose proof (m_map_log f m c []) as V. cbv zeta in V. fold (m_map_own f c m) in V. destruct (m_map_own f c m) as (log, r). cbn [fst snd] in *.
  split; [exact O|]. destruct V as [(c' & w & H1 & H2)|(b & x & c1 & outs & a & H1 & H2 & H3 & H4 & H5 & H6)].
  - inversion H2; subst. left. split; auto. split; [eexists; reflexivity|]. now exists c', (concat w).
  - right. exists outs, a. split; [exists b, x, c1; rewrite H6; repeat split; auto; now apply fails_like_refail'|]. split; [assumption|]. exact H5.
Qed.

(** [scan] leaks the results so far: they sit in [MaybeUninit] cells. *)
Theorem C88_scan : forall S A B (f : S -> A -> res (S * B)) N s v, length v = N -> let (log, r) := v_scan_own N f s v in
  r = v_scan_st N f s v /\ accounted all_leaked f s v log r.
Proof.
  intros S A B f N s v L. assert (O : snd (v_scan_own N f s v) = v_scan_st N f s v) by now apply own_scan_outcome.
  destruct (v_scan_log f v s L) as [(s' & w & H1 & H2)|(b & x & s1 & w & a & H1 & H2 & H3 & H4)].
  - rewrite H2 in O |- *. split; [exact O|]. left. split; auto. split; [eexists; reflexivity|]. now exists s', w.
  - rewrite H4 in O |- *. split; [exact O|]. right. exists w, a. split; [exists b, x, s1; repeat split; auto; now apply fails_like_refail'|].
    rewrite operands_inl. split; [reflexivity|]. apply results_inl.
Qed.
Theorem C88_matrix_scan : forall S A B (f : S -> A -> res (S * B)) M N s m, rect M N m -> let (log, r) := m_scan_own M N f s m in
  r = m_scan_st M N f s m /\ accounted all_leaked f s (concat m) log r.
Proof.
  intros S A B f M N s m L. assert (O : snd (m_scan_own M N f s m) = m_scan_st M N f s m).
  { unfold m_scan_own, m_scan_st. apply own_scan_outcome. intros. now apply own_scan_outcome. }
  destruct (m_scan_log f s L) as [(s' & w & H1 & H2)|(b & x & s1 & w & a & H1 & H2 & H3 & H4)].
  - rewrite H2 in O |- *. split; [exact O|]. left. split; auto. split; [eexists; reflexivity|]. now exists s', (concat w).
  - rewrite H4 in O |- *. split; [exact O|]. right. exists w, a. split; [exists b, x, s1; repeat split; auto; now apply fails_like_refail'|].
    rewrite operands_inl. split; [reflexivity|]. apply results_inl.
Qed.

(** [init] never drops an element it was given: when the closure fails, the elements so far are leaked. *)
Lemma own_init_silent : forall D C Y N (f : C -> ow D (C * Y)), (forall c, fst (f c) = []) -> forall c, fst (own_init N f c) = [].
Proof.
  intros D C Y N f H c. unfold own_init.
  assert (G : forall n pos c a, fst (own_init_loop f n pos c a) = []).
  { induction n; intros pos c0 a; cbn [own_init_loop]; [reflexivity|]. specialize (H c0). destruct (f c0) as (d, [(c1, y)| | |]); cbn [fst] in *; auto.
    specialize (IHn (S pos) c1 (list_set a pos (Some y))). destruct (own_init_loop f n (S pos) c1 (list_set a pos (Some y))). cbn [fst] in *. now subst. }
  specialize (G N 0 c (v_uninit N)). destruct (own_init_loop f N 0 c (v_uninit N)). exact G.
Qed.
Theorem C88_init : forall C T (f : C -> res (C * T)) N c, v_init_own N f c = ([], v_init N f c).
Proof.
  intros. rewrite (surjective_pairing (v_init_own N f c)). f_equal; [now apply own_init_silent|]. now apply own_init_outcome.
Qed.
Theorem C88_matrix_init : forall C T (f : C -> res (C * T)) M N c, m_init_own M N f c = ([], m_init M N f c).
Proof.
  intros. rewrite (surjective_pairing (m_init_own M N f c)). f_equal.
  - apply own_init_silent. intros. now rewrite C88_init.
  - unfold m_init_own, m_init. apply own_init_outcome. intros. now rewrite C88_init.
Qed.

(** [zip] moves every element into the result and drops none. *)
Theorem C88_zip : forall A B N (v : list A) (w : list B), length v = N -> length w = N -> v_zip_own N v w = ([], Ok (combine v w)).
Proof.
  intros A B N v w Hv Hw. unfold v_zip_own. rewrite tfi_pull.
  assert (P : forall n (v : list A) (w : list B), length v = n -> length w = n -> pull n (zip_next list_next list_next) (v, w) = Ok (([], []), combine v w)).
  { clear. induction n; intros v w Hv Hw; destruct v as [|x v], w as [|y w]; try discriminate; cbn [pull]; [reflexivity|].
    cbn [zip_next list_next bind combine]. rewrite IHn by (cbn in *; lia). reflexivity. }
  rewrite P by auto. rewrite combine_length, Hv, Hw, Nat.min_id, Nat.eqb_refl. reflexivity.
Qed.

(** The values dropped by [u op v] whose call number [i] fails: the rest of both operands and the results so far. *)
Definition rest_dropped {T R : Type} (op : T -> T -> res T) (u v : list T) (log : list (T + T)) (r : res R) : Prop :=
  exists i outs, i < length u /\ length outs = i /\ (forall j, j < i -> exists z, nth_error outs j = Some z /\ at2 op u v j = Ok z) /\
    ~ returns (at2 op u v i) /\ fails_like r (at2 op u v i) /\
    Permutation (operands log) (skipn (S i) u ++ skipn (S i) v) /\ Permutation (results log) outs.
Lemma drop_pairs_operands : forall T (log : list (T * T + T)), Permutation (operands (drop_pairs log)) (map fst (operands log) ++ map snd (operands log)).
Proof.
  induction log as [|[(x, y)|z] l IH]; cbn; auto. constructor. etransitivity; [constructor; exact IH|]. apply Permutation_middle.
Qed.
Lemma drop_pairs_results : forall T (log : list (T * T + T)), results (drop_pairs log) = results log.
Proof. induction log as [|[(x, y)|z] l IH]; cbn; auto. f_equal. exact IH. Qed.
Lemma called_pairs : forall T (op : T -> T -> res T) b c c' outs, called (op_pair op) c b c' outs ->
  forall g : nat -> res T, (forall j p, nth_error b j = Some p -> g j = op (fst p) (snd p)) ->
  length outs = length b /\ forall j, j < length b -> exists z, nth_error outs j = Some z /\ g j = Ok z.
Proof.
  intros T op b c c' outs H1. induction H1 as [|c a l c1 z c2 zs Ez _ IH]; intros g G.
  - split; [reflexivity|]. cbn. intros; lia.
  - destruct (IH (fun j => g (S j)) (fun j p K => G (S j) p K)) as (I1 & I2). split; [cbn; now rewrite I1|]. intros [|j] Hj; [|apply (I2 j); cbn in Hj; lia].
    exists z. split; [reflexivity|]. rewrite (G 0 a eq_refl). destruct a as (p, q). cbn in Ez |- *. destruct (op p q); cbn in Ez; try discriminate. now inversion Ez.
Qed.
Lemma rest_dropped_pairs : forall T R (op : T -> T -> res T) (u v : list T) log (r : res R) outs after, length u = length v ->
  fails_at (op_pair op) tt (combine u v) r outs after -> operands log = after -> Permutation (results log) outs -> rest_dropped op u v (drop_pairs log) r.
Proof.
  intros T R op u v log r outs after L (b & (x, y) & [] & E & H1 & H2 & H3) Ho Hr.
  assert (Hi : length b < length u).
  { assert (K : length (combine u v) = length (b ++ (x, y) :: after)) by now rewrite E. rewrite combine_length, app_length in K. cbn in K. lia. }
  assert (At : forall j p, nth_error (combine u v) j = Some p -> at2 op u v j = op (fst p) (snd p)).
  { intros j (p, q) K. apply nth_error_combine in K as (K1 & K2). unfold at2. now rewrite K1, K2. }
  assert (A0 : at2 op u v (length b) = op x y).
  { rewrite (At (length b) (x, y)); auto. rewrite E, nth_error_app2, Nat.sub_diag by lia. reflexivity. }
  assert (Nr : forall e : res T, op x y = e -> ~ returns e).
  { intros e Ee (z & Z). apply H2. cbn [op_pair]. rewrite Ee, Z. cbn [bind]. eexists; reflexivity. }
  assert (Lo : length outs = length b /\ forall j, j < length b -> exists z, nth_error outs j = Some z /\ at2 op u v j = Ok z).
  { assert (G : forall j p, nth_error b j = Some p -> at2 op u v j = op (fst p) (snd p)).
    { intros j p K. apply At. rewrite E, nth_error_app1; auto. apply nth_error_Some. congruence. }
    exact (called_pairs H1 _ G). }
  destruct Lo as (Lo & Hz). exists (length b), outs. rewrite A0. split; [assumption|]. split; [assumption|]. split; [assumption|]. split; [exact (Nr _ eq_refl)|]. split.
  - cbn [op_pair] in H3. destruct (op x y); cbn [bind] in H3; auto.
  - split; [|rewrite drop_pairs_results; exact Hr]. rewrite drop_pairs_operands, Ho.
    assert (Sk : after = combine (skipn (S (length b)) u) (skipn (S (length b)) v)).
    { rewrite <- skipn_combine, E by auto. rewrite skipn_app, skipn_all2 by lia. replace (S (length b) - length b) with 1 by lia. reflexivity. }
    rewrite Sk. rewrite !map_fst_combine, !map_snd_combine by (rewrite !skipn_length; lia). reflexivity.
Qed.
Theorem C88_op : forall T (op : T -> T -> res T) N u v, length u = N -> length v = N -> let (log, r) := v_op_own N op u v in
  r = v_zip_map N op u v /\ ((log = [] /\ returns r) \/ rest_dropped op u v log r).
Proof.
  intros T op N u v Hu Hv. unfold v_op_own. rewrite C88_zip by auto. cbn [map List.app].
  pose proof (C88_map (op_pair op) tt (combine u v)) as H. destruct (v_map_own (op_pair op) tt (combine u v)) as (log, r). destruct H as (H1 & H2). split.
  - unfold v_zip_map. rewrite v_zip_combine by auto. cbn [bind]. unfold v_map. subst r. f_equal. unfold v_map_st. apply map_st_ext. intros [] (x, y). reflexivity.
  - destruct H2 as [(-> & ((c', w) & Hr) & _)|(outs & after & F & Ho & Hr)].
    + left. split; auto. rewrite Hr. eexists; reflexivity.
    + right. assert (F' : fails_at (op_pair op) tt (combine u v) (let! (_, l) := r in Ok l) outs after).
      { destruct F as (b & x & c1 & F1 & F2 & F3 & F4). exists b, x, c1. repeat split; auto. destruct r as [(? & ?)| | |]; destruct (op_pair op c1 x); cbn in *; auto. }
      eapply rest_dropped_pairs; eauto. congruence.
Qed.

Lemma concat_map_combine : forall A B M N (a : list (list A)) (b : list (list B)), rect M N a -> rect M N b ->
  concat (map2 (@combine A B) a b) = combine (concat a) (concat b).
Proof.
  intros A B M N a b (La & Fa) (Lb & Fb). subst M. revert b Lb Fb. induction a as [|x a IH]; intros [|y b] Lb Fb; cbn in *; try discriminate; auto.
  inversion Fa as [|? ? F1 F2]; inversion Fb as [|? ? F3 F4]; subst. rewrite IH; auto. clear IH F2 F4 Fa Fb.
  revert y F3. induction x as [|p x IHx]; intros [|q y] F3; cbn in *; try discriminate; auto. f_equal. apply IHx. lia.
Qed.
(** The same for matrices, element by element in row-major order. *)
Theorem C88_matrix_op : forall T (op : T -> T -> res T) M N a b, rect M N a -> rect M N b -> let (log, r) := m_op_own M N op a b in
  r = m_zip_map M N op a b /\ ((log = [] /\ returns r) \/ rest_dropped op (concat a) (concat b) log r).
Proof.
  intros T op M N a b Ra Rb. unfold m_op_own, m_zip_map. rewrite m_zip_res by auto. cbn [bind].
  set (z := map2 (@combine T T) a b). pose proof (C88_matrix_map (op_pair op) tt z) as H.
  destruct (m_map_own (op_pair op) tt z) as (log, r). destruct H as (H1 & H2). split.
  - unfold m_map. subst r. f_equal. unfold m_map_st, v_map_st. apply map_st_ext. intros c x. apply map_st_ext. intros [] (p, q). reflexivity.
  - destruct H2 as [(-> & ((c', w) & Hr) & _)|(outs & after & F & Ho & Hr)].
    + left. split; auto. rewrite Hr. eexists; reflexivity.
    + right. unfold z in F. rewrite (concat_map_combine Ra Rb) in F.
      assert (F' : fails_at (op_pair op) tt (combine (concat a) (concat b)) (let! (_, l) := r in Ok l) outs after).
      { destruct F as (b0 & x & c1 & F1 & F2 & F3 & F4). exists b0, x, c1. repeat split; auto. destruct r as [(? & ?)| | |]; destruct (op_pair op c1 x); cbn in *; auto. }
      eapply rest_dropped_pairs; eauto. rewrite (rect_concat_length Ra), (rect_concat_length Rb). reflexivity.
Qed.

(** [u op= v]: the elements of [v] not yet used are dropped when an element operation fails, none otherwise. *)
Theorem C88_assign : forall T U (opa : T -> U -> res T) u v, length u = length v ->
  let '(contents, (log, r)) := v_assign_own opa u v in
  (contents, r) = v_assign opa u v /\
  ((log = [] /\ returns r) \/
   (exists i, i < length v /\ (forall j, j < i -> returns (at2 opa u v j)) /\ ~ returns (at2 opa u v i) /\ fails_like r (at2 opa u v i) /\ log = skipn (S i) v)).
Proof.
  intros T U opa. induction u as [|s u IH]; intros [|x v] L; cbn in L; try discriminate.
  - cbn. split; auto. left. split; auto. now exists tt.
  - cbn [v_assign_own v_assign]. destruct (opa s x) as [s1| | |] eqn:E.
    2-4: (split; [reflexivity|]; right; exists 0; cbn; rewrite E; (split; [lia|]); (split; [intros; lia|]); (split; [intros (? & ?); discriminate|auto])).
    specialize (IH v ltac:(lia)). destruct (v_assign_own opa u v) as (l, (log, r)). destruct IH as (I1 & I2). rewrite <- I1. split; [reflexivity|].
    destruct I2 as [I2|(i & J1 & J2 & J3 & J4 & J5)]; [left; exact I2|]. right. exists (S i). cbn [length]. split; [lia|]. split; [|auto].
    intros [|j] Hj; [|apply J2; lia]. cbn. rewrite E. now exists s1.
Qed.

(** The owning iterator of a matrix: wherever iteration stops, what it has yielded and what dropping it drops are together
    the elements of the matrix, each exactly once. *)
Theorem C88_into_iter : forall T (m : list (list T)) s0 s l, m_iter m = Ok s0 -> yields m_iter_next s0 s l ->
  Permutation (l ++ m_iter_drop s) (concat m).
Proof.
  intros T m s0 s l H0 H.
  assert (G : Permutation (l ++ m_iter_drop s) (m_iter_drop s0)).
  { clear H0. induction H as [|s0 s1 a s2 l E _ IH]; [reflexivity|]. cbn [List.app]. etransitivity; [constructor; exact IH|].
    destruct s0 as (rows, [|x sub]); unfold m_iter_next, flat_next, list_next in E; cbn [bind] in E.
    - destruct rows as [|[|y r] rows]; cbn [bind] in E; try discriminate. apply Ok_inj in E. inversion E; subst. unfold m_iter_drop. cbn [fst snd concat].
      rewrite app_nil_r. cbn [List.app]. constructor. apply Permutation_app_comm.
    - apply Ok_inj in E. inversion E; subst. unfold m_iter_drop. cbn [fst snd]. apply Permutation_middle. }
  rewrite G. destruct m as [|r t]; cbn in H0; [discriminate|]. apply Ok_inj in H0. subst s0. unfold m_iter_drop. cbn [fst snd concat]. apply Permutation_app_comm.
Qed.

(** [try_from_iter] with elements whose destructor may panic: when the iterator runs out the elements taken are dropped in
    order up to and including the first whose destructor panics; none is dropped twice, the later ones are leaked. *)
Theorem C88_panicking_destructor : forall S A (bad : A -> bool) N (next : next_fn S A) s,
  (forall l s', length l = N -> yields next s s' l -> tfi_p bad N next s = ([], Ok (Some l))) /\
  (forall l s1 s', length l < N -> yields next s s1 l -> next s1 = Ok (s', None) ->
     (forallb (fun x => negb (bad x)) l = true -> tfi_p bad N next s = (l, Ok None)) /\
     (forall before x after, l = before ++ x :: after -> forallb (fun x => negb (bad x)) before = true -> bad x = true ->
        tfi_p bad N next s = (before ++ [x], Panic))).
Proof.
  intros S A bad N next s.
  assert (P : forall n s l s1, yields next s s1 l -> length l <= n -> (length l = n \/ exists s', next s1 = Ok (s', None)) -> exists s2, pull n next s = Ok (s2, l)).
  { clear. induction n; intros s l s1 Y Hl Hd.
    - destruct l; [|cbn in Hl; lia]. eexists; reflexivity.
    - cbn [pull]. inversion Y as [|? s2 a ? t E Y']; subst.
      + destruct Hd as [Hd|(s' & Hd)]; [discriminate|]. rewrite Hd. eexists; reflexivity.
      + rewrite E. cbn [bind]. destruct (IHn s2 t s1 Y') as (s3 & ->); [cbn in Hl; lia| |eexists; reflexivity]. destruct Hd as [Hd|Hd]; [left; cbn in Hd; lia|auto]. }
  assert (R : forall s2 l, length l <= N -> pull N next s = Ok (s2, l) ->
    tfi_p bad N next s = if length l =? N then ([], Ok (Some l)) else let (d, r) := tfi_drop_p bad (map Some l ++ repeat None (N - length l)) (length l) in (d, let! _ := r in Ok None)).
  { intros s2 l Hl E. unfold tfi_p, v_uninit. pose proof (tfi_loop_pull N next s []) as H. cbn [length map List.app] in H. rewrite H, E. cbn [bind Nat.add].
    replace (N <? length l) with false by (symmetry; apply Nat.ltb_ge; lia). destruct (length l =? N) eqn:EN; auto. apply Nat.eqb_eq in EN.
    rewrite <- EN, Nat.sub_diag. cbn [repeat]. rewrite app_nil_r, assume_init_some. reflexivity. }
  assert (G1 : forall l rest, forallb (fun x => negb (bad x)) l = true -> tfi_drop_p bad (map Some l ++ rest) (length l) = (l, Ok tt)).
  { clear. induction l as [|x l IH]; intros rest H; cbn [map List.app length tfi_drop_p]; [destruct rest; reflexivity|]. cbn in H. apply andb_true_iff in H as (H1 & H2).
    destruct (bad x); [discriminate|]. rewrite IH by auto. reflexivity. }
  assert (G2 : forall before x after rest, forallb (fun x => negb (bad x)) before = true -> bad x = true ->
    tfi_drop_p bad (map Some (before ++ x :: after) ++ rest) (length (before ++ x :: after)) = (before ++ [x], Panic)).
  { clear. induction before as [|y l IH]; intros x after rest H Hx; cbn [map List.app length tfi_drop_p].
    - now rewrite Hx.
    - cbn in H. apply andb_true_iff in H as (H1 & H2). destruct (bad y); [discriminate|]. rewrite IH by auto. reflexivity. }
  split.
  - intros l s' L Y. destruct (P N s l s' Y) as (s2 & E); [lia|auto|]. rewrite (R s2 l) by (auto; lia). rewrite L, Nat.eqb_refl. reflexivity.
  - intros l s1 s' L Y E1. destruct (P N s l s1 Y) as (s2 & E); [lia|eauto|]. rewrite (R s2 l) by (auto; lia). replace (length l =? N) with false by (symmetry; apply Nat.eqb_neq; lia).
    split.
    + intros H. rewrite G1 by auto. reflexivity.
    + intros before x after -> H Hx. rewrite G2 by auto. reflexivity.
Qed.

(** * Instances *)
Definition no_three (c : nat) (x : nat) : res (nat * nat) := if x =? 3 then Panic else Ok (c + x, x * 10).
Example C88_map_instance : v_map_own no_three 0 [1; 2; 3; 4; 5] = ([inr 10; inr 20; inl 4; inl 5], Panic).
Proof. reflexivity. Qed.
Example C88_matrix_map_instance : m_map_own no_three 0 [[1; 2]; [4; 3]; [6; 7]] = ([inr 40; inr 10; inr 20; inl 6; inl 7], Panic).
Proof. reflexivity. Qed.
Example C88_scan_instance : m_scan_own 3 2 no_three 0 [[1; 2]; [3; 4]; [5; 6]] = ([inl 4; inl 5; inl 6], Panic) /\
  rect 3 2 [[1; 2]; [3; 4]; [5; 6]].
Proof. split; [reflexivity|]. split; [reflexivity|]. repeat constructor. Qed.
Example C88_fold_instance : m_fold_own (fun s x => if x =? 3 then Panic else Ok (s + x)) 0 [[1; 2]; [3; 4]; [5; 6]] = ([4; 5; 6], Panic).
Proof. reflexivity. Qed.
Definition small_add (x y : nat) : res nat := if x + y <? 50 then Ok (x + y) else Panic.
Example C88_op_instance : v_op_own 4 small_add [1; 2; 40; 4] [10; 20; 30; 44] = ([inr 11; inr 22; inl 4; inl 44], Panic).
Proof. reflexivity. Qed.
Example C88_assign_instance : v_assign_own small_add [1; 2; 40; 4] [10; 20; 30; 44] = ([11; 22; 40; 4], ([44], Panic)).
Proof. reflexivity. Qed.
Example C88_into_iter_instance : exists s0 s, m_iter [[1; 2]; [3; 4]; [5; 6]] = Ok s0 /\ yields m_iter_next s0 s [1; 2; 3] /\ m_iter_drop s = [5; 6; 4].
Proof. exists ([[3; 4]; [5; 6]], [1; 2]), ([[5; 6]], [4]). split; [reflexivity|]. split; [|reflexivity]. repeat (econstructor; [reflexivity|]). constructor. Qed.
Example C88_panicking_destructor_instance : tfi_p (fun x => x =? 2) 4 list_next [1; 2; 3] = ([1; 2], Panic).
Proof. reflexivity. Qed.

Print Assumptions C88_fold.
Print Assumptions C88_for_each.
Print Assumptions C88_fold_first.
Print Assumptions C88_matrix_fold.
Print Assumptions C88_matrix_for_each.
Print Assumptions C88_matrix_fold_first.
Print Assumptions C88_map.
Print Assumptions C88_matrix_map.
Print Assumptions C88_scan.
Print Assumptions C88_matrix_scan.
Print Assumptions C88_init.
Print Assumptions C88_matrix_init.
Print Assumptions C88_zip.
Print Assumptions C88_op.
Print Assumptions C88_matrix_op.
Print Assumptions C88_assign.
Print Assumptions C88_into_iter.
Print Assumptions C88_panicking_destructor.
