(** C106: the law of the rejection samplers.  The generator is a tape of words of a finite alphabet. *)
From Coq Require Import Reals Lra Lia Psatz List.
From Coquelicot Require Import Coquelicot.
From Verif Require Import SpecFacts VFacts VecProofs PropVector MFacts MatProofs PropMatrix AlgFacts CxFacts RealInst RealFacts PropReal
  PropSquare SpecDet SpecTransform PropTransform PropRot SpecDistr PropAlgebra DetFacts PropDistr PropEval SpecCount.
Import ListNotations.
Set Implicit Arguments.
Local Open Scope nat_scope.
Local Open Scope list_scope.

(* ------------------------------------------------------------------------- *)
(** * Counting tapes                                                           *)
Section Tapes.
  Context {W : Type} (words : list W).
  Lemma filter_map' : forall A B (f : A -> B) (E : B -> bool) l, filter E (map f l) = map f (filter (fun x => E (f x)) l).
  Proof. induction l as [|x l IH]; cbn; auto. destruct (E (f x)); cbn; rewrite IH; auto. Qed.
  Lemma filter_flat : forall A B (f : A -> list B) (E : B -> bool) l, length (filter E (flat_map f l)) = list_sum (map (fun x => length (filter E (f x))) l).
  Proof. induction l as [|x l IH]; auto. cbn [flat_map map list_sum fold_right]. rewrite filter_app, app_length, IH. reflexivity. Qed.
  Lemma tapes_len : forall n b, In b (tapes words n) -> length b = n.
  Proof.
    induction n as [|n IH]; intros b; cbn.
    - intros [<-|[]]. auto.
    - rewrite in_flat_map. intros (w & _ & I). apply in_map_iff in I as (c & <- & I). cbn. f_equal. auto.
  Qed.
  Lemma sum_const : forall A (f : A -> nat) c l, (forall x, In x l -> f x = c) -> list_sum (map f l) = length l * c.
  Proof. induction l as [|x l IH]; intros H; auto. cbn [map list_sum fold_right]. change (fold_right Nat.add 0 (map f l)) with (list_sum (map f l)).
    rewrite IH by (intros; apply H; right; auto). rewrite H by (left; auto). cbn. lia. Qed.
  Lemma sum_ext : forall A (f g : A -> nat) l, (forall x, In x l -> f x = g x) -> list_sum (map f l) = list_sum (map g l).
  Proof. intros. f_equal. apply map_ext_in. auto. Qed.
  Lemma tapes_count_app : forall a b E,
    length (filter E (tapes words (a + b))) = list_sum (map (fun x => length (filter (fun y => E (x ++ y)) (tapes words b))) (tapes words a)).
  Proof.
    induction a as [|a IH]; intros b E.
    - cbn [Nat.add tapes map list_sum fold_right app]. rewrite Nat.add_0_r. reflexivity.
    - cbn [Nat.add tapes]. rewrite filter_flat.
      assert (forall l, list_sum (map (fun x => length (filter (fun y => E (x ++ y)) (tapes words b))) (flat_map (fun w => map (cons w) (tapes words a)) l)) =
        list_sum (map (fun w => length (filter E (map (cons w) (tapes words (a + b))))) l)) as H; [|rewrite H; auto].
      induction l as [|w l IHl]; auto. cbn [flat_map map]. rewrite map_app, list_sum_app, IHl. cbn [list_sum fold_right]. f_equal.
      rewrite filter_map', map_length, IH, map_map. reflexivity.
  Qed.
  Lemma tapes_size : forall n, length (tapes words n) = length words ^ n.
  Proof.
    induction n as [|n IH]; [reflexivity|]. cbn [tapes Nat.pow]. rewrite <- IH. clear IH. generalize (tapes words n) as t. intros t. generalize words.
    intros m. induction m as [|w l IHl]; [reflexivity|]. cbn [flat_map length]. rewrite app_length, map_length, IHl. lia.
  Qed.
  Lemma filter_true : forall A (l : list A), filter (fun _ => true) l = l.
  Proof. induction l; cbn; congruence. Qed.
  Lemma filter_false : forall A (l : list A), filter (fun _ => false) l = [].
  Proof. induction l; cbn; congruence. Qed.
  Lemma filter_ext_in' : forall A (f g : A -> bool) l, (forall x, In x l -> f x = g x) -> filter f l = filter g l.
  Proof. induction l as [|x l IH]; intros H; cbn; auto. rewrite H by (left; auto). rewrite IH by (intros; apply H; right; auto). auto. Qed.
  Lemma filter_split : forall A (f : A -> bool) l, length (filter f l) + length (filter (fun x => negb (f x)) l) = length l.
  Proof. induction l as [|x l IH]; cbn; auto. destruct (f x); cbn; lia. Qed.
  Lemma sum_if : forall A (f : A -> bool) (g : A -> nat) l, list_sum (map (fun x => if f x then g x else 0) l) = list_sum (map g (filter f l)).
  Proof. induction l as [|x l IH]; auto. cbn. destruct (f x); cbn; fold (list_sum (map (fun x => if f x then g x else 0) l)); rewrite IH; auto. Qed.
  Lemma sum_add : forall A (f g : A -> nat) l, list_sum (map (fun x => f x + g x) l) = list_sum (map f l) + list_sum (map g l).
  Proof. induction l as [|x l IH]; auto. cbn. fold (list_sum (map (fun x => f x + g x) l)). rewrite IH. fold (list_sum (map f l)). fold (list_sum (map g l)). lia. Qed.
  Lemma sum_mul : forall A (f : A -> nat) c l, list_sum (map (fun x => f x * c) l) = list_sum (map f l) * c.
  Proof. induction l as [|x l IH]; auto. cbn. fold (list_sum (map (fun x => f x * c) l)). rewrite IH. fold (list_sum (map f l)). lia. Qed.
  (** An event that looks at the first [a] words only. *)
  Lemma tapes_front : forall a b E, length (filter (fun t => E (firstn a t)) (tapes words (a + b))) = length (filter E (tapes words a)) * length words ^ b.
  Proof.
    intros a b E. rewrite tapes_count_app, <- tapes_size.
    rewrite (@sum_ext _ _ (fun x => if E x then length (tapes words b) else 0)).
    - rewrite sum_if, (@sum_const _ _ (length (tapes words b))); auto.
    - intros x I. apply tapes_len in I. assert (F : forall y, firstn a (x ++ y) = x). { intros y. rewrite firstn_app, I, Nat.sub_diag, firstn_O, app_nil_r. apply firstn_all2. lia. }
      destruct (E x) eqn:Ex.
      + rewrite (@filter_ext_in' _ _ (fun _ => true)), filter_true; auto. intros y _. rewrite F. auto.
      + rewrite (@filter_ext_in' _ _ (fun _ => false)), filter_false; auto. intros y _. rewrite F. auto.
  Qed.
End Tapes.

(* ------------------------------------------------------------------------- *)
(** * The rejection loop                                                       *)
Section Loop.
  Context {W A C : Type} (words : list W) (draw : distr (list W) A) (k : nat) (h : list W -> A) (Hd : reads k draw h)
    (acc : A -> res bool) (test : list W -> bool) (Ha : forall b, length b = k -> acc (h b) = Ok (test b))
    (rest : A -> distr (list W) C) (k2 : nat) (out : list W -> list W -> C)
    (Hr : forall b, length b = k -> test b = true -> reads k2 (rest (h b)) (out b)).
  Definition sampler (n : nat) : distr (list W) C := fun g => let! (g1, x) := reject_loop n draw acc g in rest x g1.
  Local Notation L := (length words).
  Definition ok_out (P : C -> bool) (t : list W) : bool := test (firstn k t) && P (out (firstn k t) (skipn k t)).

  Lemma step : forall n b r, length b = k -> reject_loop (S n) draw acc (b ++ r) = if test b then Ok (r, h b) else reject_loop n draw acc r.
  Proof.
    intros n b r Lb. cbn [reject_loop]. rewrite Hd by (rewrite app_length; lia). cbn [bind].
    rewrite firstn_app, skipn_app, Lb, Nat.sub_diag, firstn_O, app_nil_r, firstn_all2, skipn_all2 by lia. cbn [skipn app].
    rewrite Ha by auto. reflexivity.
  Qed.
  Lemma app_front : forall (b r : list W), length b = k -> firstn k (b ++ r) = b /\ skipn k (b ++ r) = r.
  Proof. intros b r Lb. rewrite firstn_app, skipn_app, Lb, Nat.sub_diag, firstn_O, app_nil_r, firstn_all2, skipn_all2 by lia. auto. Qed.

  Lemma count_work : forall n x, length (filter (at_work (reject_loop n draw acc)) (tapes words (n * k + x))) =
    length (filter (fun b => negb (test b)) (tapes words k)) ^ n * L ^ x.
  Proof.
    induction n as [|n IH]; intros x.
    - cbn [Nat.mul Nat.add Nat.pow]. rewrite (@filter_ext_in' _ _ (fun _ => true)) by reflexivity. rewrite filter_true, tapes_size. lia.
    - replace (S n * k + x) with (k + (n * k + x)) by lia. rewrite tapes_count_app.
      rewrite (@sum_ext _ _ (fun b => if negb (test b) then length (filter (at_work (reject_loop n draw acc)) (tapes words (n * k + x))) else 0)).
      + rewrite sum_if, (@sum_const _ _ (length (filter (at_work (reject_loop n draw acc)) (tapes words (n * k + x))))) by auto. rewrite IH. cbn. lia.
      + intros b I. apply tapes_len in I. destruct (test b) eqn:Et; cbn [negb].
        * rewrite (@filter_ext_in' _ _ (fun _ => false)), filter_false; auto. intros y _. unfold at_work. rewrite step, Et by auto. auto.
        * f_equal. apply filter_ext_in'. intros y _. unfold at_work. rewrite step, Et by auto. auto.
  Qed.
  Lemma count_out : forall P n, length (filter (gives P (sampler (S n))) (tapes words (S n * k + k2))) =
    length (filter (ok_out P) (tapes words (k + k2))) * L ^ (n * k) +
    length (filter (fun b => negb (test b)) (tapes words k)) * length (filter (gives P (sampler n)) (tapes words (n * k + k2))).
  Proof.
    intros P n. replace (S n * k + k2) with (k + (n * k + k2)) by lia.
    set (q := length (filter (gives P (sampler n)) (tapes words (n * k + k2)))). rewrite !tapes_count_app.
    rewrite (@sum_ext _ _ (fun b => (if test b then length (filter (fun y => ok_out P (b ++ y)) (tapes words k2)) * L ^ (n * k) else 0) + (if negb (test b) then q else 0))).
    - rewrite sum_add. f_equal.
      + rewrite (@sum_if _ test (fun b => length (filter (fun y => ok_out P (b ++ y)) (tapes words k2)) * L ^ (n * k))). rewrite sum_mul. f_equal. rewrite <- (@sum_if _ test (fun x => length (filter (fun y => ok_out P (x ++ y)) (tapes words k2)))).
        apply sum_ext. intros b I. apply tapes_len in I. destruct (test b) eqn:Et; auto. symmetry.
        rewrite (@filter_ext_in' _ _ (fun _ => false)), filter_false; auto. intros y _. unfold ok_out. destruct (app_front b y I) as (-> & _). rewrite Et. auto.
      + rewrite sum_if, (@sum_const _ _ q); auto.
    - intros b I. apply tapes_len in I. destruct (test b) eqn:Et; cbn [negb].
      + rewrite Nat.add_0_r. rewrite <- tapes_front. replace (n * k + k2) with (k2 + n * k) by lia. f_equal. apply filter_ext_in'. intros y Iy. apply tapes_len in Iy.
        unfold gives, sampler. rewrite step, Et by auto. cbn [bind]. rewrite (Hr I Et) by lia. unfold ok_out. destruct (app_front b (firstn k2 y) I) as (-> & ->). rewrite Et. auto.
      + cbn [Nat.add]. unfold q. f_equal. apply filter_ext_in'. intros y _. unfold gives, sampler. rewrite step, Et by auto. auto.
  Qed.

  Local Open Scope R_scope.
  Lemma law : forall P, 0 < prob words (k + k2) (fun t => test (firstn k t)) ->
    is_lim_seq (fun n => prob words (n * k + k2) (gives P (sampler n)))
      (prob words (k + k2) (ok_out P) / prob words (k + k2) (fun t => test (firstn k t))).
  Proof.
    intros P Hp.
    assert (L0 : (0 < L ^ (k + k2))%nat).
    { apply Nat.neq_0_lt_0. intros E. unfold prob in Hp. rewrite tapes_size, E in Hp.
      assert (length (filter (fun t => test (firstn k t)) (tapes words (k + k2))) = 0)%nat as Z.
      { pose proof (filter_split (fun t => test (firstn k t)) (tapes words (k + k2))). rewrite tapes_size, E in H. lia. }
      rewrite Z in Hp. unfold Rdiv in Hp. cbn in Hp. lra. }
    set (l := INR (L ^ k)) in *. set (l2 := INR (L ^ k2)). rewrite Nat.pow_add_r in L0.
    assert (Hl : 0 < l). { apply lt_0_INR. destruct (L ^ k)%nat; lia. }
    assert (Hl2 : 0 < l2). { apply lt_0_INR. destruct (L ^ k2)%nat; lia. }
    unfold prob in Hp |- *. rewrite !tapes_size in *. rewrite (tapes_front words k k2 test), mult_INR, Nat.pow_add_r, mult_INR in *. fold l l2 in Hp. fold l l2.
    set (good := INR (length (filter test (tapes words k)))) in *.
    set (gp := INR (length (filter (ok_out P) (tapes words (k + k2))))) in *.
    set (bad := INR (length (filter (fun b => negb (test b)) (tapes words k)))).
    assert (Hgb : good + bad = l). { unfold good, bad, l. rewrite <- plus_INR, filter_split, tapes_size. auto. }
    assert (Hb : 0 <= bad). { apply pos_INR. }
    assert (Hg : 0 < good). { destruct (Rle_lt_or_eq_dec 0 good (pos_INR _)); auto. rewrite <- e in Hp. unfold Rdiv in Hp. lra. }
    set (p := fun n => INR (length (filter (gives P (sampler n)) (tapes words (n * k + k2)))) / INR (length (tapes words (n * k + k2)))).
    assert (Ep : forall n, p (S n) = gp / (l * l2) + (bad / l) * p n).
    { intros n. unfold p. rewrite count_out, !tapes_size, plus_INR, !mult_INR, !Nat.pow_add_r, !mult_INR. fold gp bad.
      replace (L ^ (S n * k))%nat with (L ^ k * L ^ (n * k))%nat by (rewrite <- Nat.pow_add_r; f_equal; lia). rewrite mult_INR. fold l l2.
      assert (Hn : (0 < L ^ (n * k))%nat).
      { rewrite Nat.mul_comm, Nat.pow_mul_r. apply Nat.neq_0_lt_0. apply Nat.pow_nonzero. destruct (L ^ k)%nat; lia. }
      apply lt_0_INR in Hn. field. lra. }
    set (lim := gp / (good * l2)).
    assert (Ec : forall n, p n = lim - lim * (bad / l) ^ n).
    { induction n as [|n IH].
      - unfold p. cbn [pow]. replace (length (filter (gives P (sampler 0)) (tapes words (0 * k + k2)))) with 0%nat; [cbn [INR]; unfold Rdiv; ring|].
        symmetry. rewrite (@filter_ext_in' _ _ (fun _ => false)) by reflexivity. rewrite filter_false. auto.
      - rewrite Ep, IH, <- tech_pow_Rmult. generalize ((bad / l) ^ n) as X. intros X. unfold lim. clear - Hl Hl2 Hg Hgb. clearbody l l2 good bad gp. replace bad with (l - good) by lra. field. lra. }
    replace (gp / (l * l2) / (good * l2 / (l * l2))) with lim by (unfold lim; clear - Hl Hl2 Hg; clearbody l l2 good gp; field; lra).
    apply is_lim_seq_ext with (fun n => lim - lim * (bad / l) ^ n).
    - intros n. rewrite <- Ec. unfold p. rewrite tapes_size. reflexivity.
    - replace (Finite lim) with (Finite (lim - lim * 0)) by (f_equal; ring). apply is_lim_seq_minus'; [apply is_lim_seq_const|].
      apply is_lim_seq_mult'; [apply is_lim_seq_const|]. apply is_lim_seq_geom. rewrite Rabs_pos_eq.
      + apply (Rmult_lt_reg_r l); auto. unfold Rdiv. rewrite Rmult_assoc, Rinv_l by lra. lra.
      + apply Rmult_le_pos; auto. left. apply Rinv_0_lt_compat. auto.
  Qed.
  Lemma still : forall n, (0 < L)%nat -> prob words (n * k) (at_work (reject_loop n draw acc)) = (1 - prob words k test) ^ n.
  Proof.
    intros n HL. unfold prob. rewrite !tapes_size. pose proof (count_work n 0) as E. rewrite Nat.add_0_r in E. rewrite E.
    cbn [Nat.pow]. rewrite Nat.mul_1_r, pow_INR. 
    assert (P : 0 < INR (L ^ k)). { apply lt_0_INR. apply Nat.neq_0_lt_0, Nat.pow_nonzero. lia. }
    replace (1 - INR (length (filter test (tapes words k))) / INR (L ^ k)) with (INR (length (filter (fun b => negb (test b)) (tapes words k))) / INR (L ^ k)).
    - rewrite (Nat.mul_comm n k), Nat.pow_mul_r, pow_INR. unfold Rdiv. rewrite Rpow_mult_distr, <- Rinv_pow by lra. auto.
    - pose proof (filter_split test (tapes words k)) as S. rewrite tapes_size in S. apply (f_equal INR) in S. rewrite plus_INR in S. rewrite <- S in *. field. lra.
  Qed.
End Loop.

(* ------------------------------------------------------------------------- *)
(** * C106                                                                     *)

Lemma still' : forall W A (words : list W) (draw : distr (list W) A) k h acc (test : list W -> bool), reads k draw h ->
  (forall b, length b = k -> acc (h b) = Ok (test b)) ->
  words <> [] -> forall n, prob words (n * k) (at_work (reject_loop n draw acc)) = ((1 - prob words k test) ^ n)%R.
Proof. intros W A words draw k h acc test Hd Ha Hw n. apply (@still _ _ words draw k h Hd acc test Ha). destruct words; [congruence|cbn; lia]. Qed.
Lemma law' : forall W A C (words : list W) (draw : distr (list W) A) k h acc (test : list W -> bool) (rest : A -> distr (list W) C) k2 out (d : nat -> distr (list W) C) good val,
  reads k draw h -> (forall b, length b = k -> acc (h b) = Ok (test b)) ->
  (forall b, length b = k -> test b = true -> reads k2 (rest (h b)) (out b)) ->
  (forall n g, d n g = let! (g1, x) := reject_loop n draw acc g in rest x g1) ->
  (forall b c, length b = k -> length c = k2 -> good (b ++ c) = test b) ->
  (forall b c, length b = k -> length c = k2 -> test b = true -> val (b ++ c) = out b c) ->
  law_given words k k2 good val d.
Proof.
  intros W A C words draw k h acc test rest k2 out d good val Hd Ha Hr Ed Eg Ev Hp P.
  assert (S : forall t, In t (tapes words (k + k2)) -> exists b c, t = b ++ c /\ length b = k /\ length c = k2 /\ firstn k t = b /\ skipn k t = c).
  { intros t I. apply tapes_len in I. exists (firstn k t), (skipn k t). rewrite firstn_skipn, firstn_length, skipn_length. repeat split; lia. }
  assert (E : prob words (k + k2) (fun t => test (firstn k t)) = prob words (k + k2) good).
  { unfold prob. rewrite (@filter_ext_in' _ (fun t => test (firstn k t)) good); auto. intros t I. destruct (S t I) as (b & c & Et & Lb & Lc & -> & _). rewrite Et, Eg by auto. reflexivity. }
  pose proof (@law _ _ _ words draw k h Hd acc test Ha rest k2 out Hr P) as H. rewrite E in H. specialize (H Hp).
  assert (E2 : prob words (k + k2) (ok_out k test out P) = prob words (k + k2) (fun t => good t && P (val t))).
  { unfold prob. rewrite (@filter_ext_in' _ (ok_out k test out P) (fun t => good t && P (val t))); auto. intros t I. destruct (S t I) as (b & c & Et & Lb & Lc & F1 & F2). unfold ok_out. rewrite F1, F2, Et, Eg by auto.
    destruct (test b) eqn:Tb; auto. rewrite Ev by auto. reflexivity. }
  rewrite E2 in H. eapply is_lim_seq_ext; [|exact H]. intros n. cbn beta. unfold prob. do 3 f_equal. apply filter_ext_in'. intros g _. unfold gives, sampler.
  rewrite Ed. reflexivity.
Qed.
Lemma law0 : forall W A C (words : list W) (draw : distr (list W) A) k h acc (test : list W -> bool) (f : A -> res C) (val : list W -> C) (d : nat -> distr (list W) C),
  reads k draw h -> (forall b, length b = k -> acc (h b) = Ok (test b)) ->
  (forall b, length b = k -> test b = true -> f (h b) = Ok (val b)) ->
  (forall n g, d n g = let! (g1, x) := reject_loop n draw acc g in let! y := f x in Ok (g1, y)) ->
  law_given words k 0 test val d.
Proof.
  intros W A C words draw k h acc test f val d Hd Ha Hf Ed.
  apply (@law' _ _ _ words draw k h acc test (fun x g => let! y := f x in Ok (g, y)) 0 (fun b _ => val b) d test val); auto.
  - intros b Lb Tb g _. rewrite Hf by auto. reflexivity.
  - intros b [|] Lb Lc; [|discriminate]. rewrite app_nil_r. auto.
  - intros b [|] Lb Lc; [|discriminate]. rewrite app_nil_r. auto.
Qed.

Lemma skipn_twice : forall A (l : list A) a b, skipn a (skipn b l) = skipn (a + b) l.
Proof.
  induction l as [|x l IH]; intros a b; [rewrite !skipn_nil; auto|]. destruct b as [|b]; [rewrite Nat.add_0_r; auto|]. rewrite Nat.add_succ_r. cbn [skipn]. apply IH.
Qed.
(** What a vector, a matrix, a sum of independent draws reads. *)
Lemma reads_drawn : forall W A (inner : distr (list W) A) k h, reads k inner h -> forall n g, n * k <= length g ->
  drawn inner n g (skipn (n * k) g) (pieces k h n g).
Proof.
  intros W A inner k h H. induction n as [|n IH]; intros g L.
  - cbn. constructor.
  - unfold pieces. cbn [seq map]. rewrite <- seq_shift, map_map. change (skipn (0 * k) g) with g. econstructor.
    + apply H. cbn in L. lia.
    + cbn in L. replace (skipn (S n * k) g) with (skipn (n * k) (skipn k g)) by (rewrite skipn_twice; f_equal; cbn; lia).
      replace (map _ _) with (pieces k h n (skipn k g)); [apply IH; rewrite skipn_length; lia|].
      unfold pieces. apply map_ext. intros i. rewrite skipn_twice. do 3 f_equal. cbn. lia.
Qed.
Lemma pieces_front : forall W A k (h : list W -> A) n g r, n * k <= length g -> pieces k h n (g ++ r) = pieces k h n g.
Proof.
  intros W A k h n g r L. unfold pieces. apply map_ext_in. intros i I. apply in_seq in I. f_equal. rewrite skipn_app, firstn_app.
  replace (k - length (skipn (i * k) g)) with 0; [rewrite firstn_O, app_nil_r; auto|]. rewrite skipn_length. nia.
Qed.
Lemma pieces_firstn : forall W A k (h : list W -> A) n g, n * k <= length g -> pieces k h n (firstn (n * k) g) = pieces k h n g.
Proof.
  intros W A k h n g L. rewrite <- (@pieces_front _ _ k h n (firstn (n * k) g) (skipn (n * k) g)) by (rewrite firstn_length; lia). rewrite firstn_skipn. auto.
Qed.
(** The components of a vector are functions of separate words: independent, and each with the law of [inner]. *)
Theorem C106_components : forall W A (inner : distr (list W) A) k h N, reads k inner h -> reads (N * k) (v_distribution N inner) (pieces k h N).
Proof.
  intros W A inner k h N H g L. apply (proj1 (C75_vector inner N g)). rewrite pieces_firstn by auto. apply reads_drawn; auto.
Qed.
Lemma seq_add : forall a N s, map (Nat.add a) (seq s N) = seq (a + s) N.
Proof. intros a. induction N as [|N IH]; intros s; auto. cbn [seq map]. rewrite IH. f_equal. f_equal. lia. Qed.
Lemma grid_concat : forall W A k (h : list W -> A) M N b, concat (grid k h M N b) = pieces k h (M * N) b.
Proof.
  intros W A k h M N b. unfold grid, pieces. induction M as [|M IH]; auto. rewrite seq_S, map_app, concat_app, IH.
  replace (S M * N) with (M * N + N) by lia. rewrite seq_app, map_app. f_equal. cbn [map concat Nat.add]. rewrite app_nil_r.
  pose proof (seq_add (M * N) N 0) as E. rewrite Nat.add_0_r in E. rewrite <- E, map_map. reflexivity.
Qed.
Lemma grid_rect : forall W A k (h : list W -> A) M N b, rect M N (grid k h M N b).
Proof.
  intros. unfold grid. split; [rewrite map_length, seq_length; auto|]. apply Forall_forall. intros r I. apply in_map_iff in I as (i & <- & _).
  rewrite map_length, seq_length. auto.
Qed.
Theorem C106_entries : forall W A (inner : distr (list W) A) k h M N, reads k inner h -> reads (M * N * k) (m_distribution M N inner) (grid k h M N).
Proof.
  intros W A inner k h M N H g L. apply (proj1 (C75_matrix inner M N g)). split; [apply grid_rect|].
  rewrite grid_concat, pieces_firstn by auto. apply reads_drawn; auto.
Qed.

(** Any rejection loop. *)
Theorem C106_rejection : forall W A (words : list W) (draw : distr (list W) A) k h (test : A -> bool), reads k draw h ->
  (words <> [] -> forall n, prob words (n * k) (at_work (reject_loop n draw (ok1 test))) = ((1 - prob words k (fun b => test (h b))) ^ n)%R) /\
  law_given words k 0 (fun b => test (h b)) h (fun n => reject_loop n draw (ok1 test)).
Proof.
  intros W A words draw k h test Hd. split; [apply (@still' _ _ words draw k h (ok1 test) (fun b => test (h b)) Hd); reflexivity|].
  apply (@law0 _ _ _ words draw k h (ok1 test) (fun b => test (h b)) (@Ok A) h); auto.
  intros n g. destruct (reject_loop n draw (ok1 test) g) as [[]| | |]; reflexivity.
Qed.

Section C106.
  Context {W T : Type} (words : list W) (o : Ops T) (F : FloatOps T) (inner : distr (list W) T) (k : nat) (h : list W -> T) (Hi : reads k inner h).
  Local Notation eps := (f_epsilon F).

  (** [NonZero]: for [len] what [length] returns, a vector of independent components conditioned on a length above
      epsilon; the rounds are independent. *)
  Theorem C106_nonzero : forall N (len : list T -> T), (forall x, length x = N -> v_length o (f_sqrt F) x = Ok (len x)) ->
    let good := fun b => o_lt o eps (len (pieces k h N b)) in
    (words <> [] -> forall n, prob words (n * (N * k)) (at_work (nonzero_v o F inner n N)) = ((1 - prob words (N * k) good) ^ n)%R) /\
    law_given words (N * k) 0 good (pieces k h N) (fun n => nonzero_v o F inner n N).
  Proof.
    intros N len Hl good.
    assert (Hp : forall b, length (pieces k h N b) = N) by (intros; unfold pieces; rewrite map_length, seq_length; auto).
    assert (Ha : forall b, length b = N * k -> (let! l := v_length o (f_sqrt F) (pieces k h N b) in Ok (o_lt o eps l)) = Ok (good b)).
    { intros b _. rewrite Hl by auto. reflexivity. }
    pose proof (C106_components N Hi) as Hr. split.
    - apply (@still' _ _ words (v_distribution N inner) _ _ _ good Hr). exact Ha.
    - apply (@law0 _ _ _ words (v_distribution N inner) _ _ (fun x => let! l := v_length o (f_sqrt F) x in Ok (o_lt o eps l)) good (@Ok _) (pieces k h N) _ Hr Ha); auto.
      intros n g. unfold nonzero_v. destruct (reject_loop n _ _ g) as [[]| | |]; reflexivity.
  Qed.
  (** [Unit]: the same, normalized. *)
  Theorem C106_unit : forall N (len : list T -> T) (dir : list T -> list T), (forall x, length x = N -> v_length o (f_sqrt F) x = Ok (len x)) ->
    (forall x, length x = N -> o_lt o eps (len x) = true -> v_normalize o (f_sqrt F) x = Ok (dir x)) ->
    law_given words (N * k) 0 (fun b => o_lt o eps (len (pieces k h N b))) (fun b => dir (pieces k h N b)) (fun n => unit_v o F inner n N).
  Proof.
    intros N len dir Hl Hn.
    assert (Hp : forall b, length (pieces k h N b) = N) by (intros; unfold pieces; rewrite map_length, seq_length; auto).
    apply (@law0 _ _ _ words (v_distribution N inner) _ _ (fun x => let! l := v_length o (f_sqrt F) x in Ok (o_lt o eps l))
      (fun b => o_lt o eps (len (pieces k h N b))) (v_normalize o (f_sqrt F)) (fun b => dir (pieces k h N b)) _ (C106_components N Hi)); auto.
    intros b _. rewrite Hl by auto. reflexivity.
  Qed.
  (** [Invertible]: a matrix of independent entries, conditioned on a determinant more than epsilon away from zero. *)
  Theorem C106_invertible : forall N (det : list (list T) -> T), (forall m, rect N N m -> m_det o N m = Ok (det m)) ->
    let good := fun b => negb (o_le o (f_abs F (f_abs F (det (grid k h N N b)))) eps) in
    (words <> [] -> forall n, prob words (n * (N * N * k)) (at_work (invertible_m o F inner n N)) = ((1 - prob words (N * N * k) good) ^ n)%R) /\
    law_given words (N * N * k) 0 good (grid k h N N) (fun n => invertible_m o F inner n N).
  Proof.
    intros N det Hl good.
    assert (Ha : forall b, length b = N * N * k -> (let! d := m_det o N (grid k h N N b) in Ok (negb (is_epsilon o F (f_abs F d)))) = Ok (good b)).
    { intros b _. rewrite Hl by apply grid_rect. reflexivity. }
    pose proof (C106_entries N N Hi) as Hr. split.
    - apply (@still' _ _ words (m_distribution N N inner) _ _ _ good Hr). exact Ha.
    - apply (@law0 _ _ _ words (m_distribution N N inner) _ _ (fun x => let! d := m_det o N x in Ok (negb (is_epsilon o F (f_abs F d)))) good (@Ok _) (grid k h N N) _ Hr Ha); auto.
      intros n g. unfold invertible_m. destruct (reject_loop n _ _ g) as [[]| | |]; reflexivity.
  Qed.
  (** The uniform rotation in space: axis and angle independent, the axis with the law of [Unit]. *)
  Theorem C106_uniform3 : forall (ranged : distr (list W) T) k2 ang (len : list T -> T) (rot : list T -> T -> quat T), reads k2 ranged ang ->
    (forall x, length x = 3 -> v_length o (f_sqrt F) x = Ok (len x)) ->
    (forall x a, length x = 3 -> o_lt o eps (len x) = true -> (let! u := v_normalize o (f_sqrt F) x in rot3_new o F u a) = Ok (rot x a)) ->
    law_given words (3 * k) k2 (fun t => o_lt o eps (len (pieces k h 3 t))) (fun t => rot (pieces k h 3 t) (ang (skipn (3 * k) t)))
      (fun n => uniform_rot3 o F inner n ranged).
  Proof.
    intros ranged k2 ang len rot Ha Hl Hn.
    assert (Hp : forall b, length (pieces k h 3 b) = 3) by (intros; unfold pieces; rewrite map_length, seq_length; auto).
    apply (@law' _ _ _ words (v_distribution 3 inner) _ _ (fun x => let! l := v_length o (f_sqrt F) x in Ok (o_lt o eps l))
      (fun b => o_lt o eps (len (pieces k h 3 b)))
      (fun x g => let! u := v_normalize o (f_sqrt F) x in let! (g2, a) := ranged g in let! r := rot3_new o F u a in Ok (g2, r))
      k2 (fun b c => rot (pieces k h 3 b) (ang c)) _ _ _ (C106_components 3 Hi)).
    - intros b _. rewrite Hl by auto. reflexivity.
    - intros b Lb Tb g Lg. pose proof (Hn _ (ang (firstn k2 g)) (Hp b) Tb) as E.
      destruct (v_normalize o (f_sqrt F) (pieces k h 3 b)) as [u| | |]; try discriminate. cbn [bind] in *. rewrite Ha by auto. cbn [bind]. rewrite E. reflexivity.
    - intros n g. unfold uniform_rot3, unit_v, nonzero_v. destruct (reject_loop n _ _ g) as [[g1 x]| | |]; cbn [bind]; auto.
      destruct (v_normalize o (f_sqrt F) x); reflexivity.
    - intros b c Lb Lc. rewrite pieces_front by lia. auto.
    - intros b c Lb Lc _. rewrite pieces_front by lia. rewrite skipn_app, Lb, Nat.sub_diag, skipn_all2 by lia. reflexivity.
  Qed.
End C106.

(** The scalar [Normal] of [f32], [f64], and of the reals: two draws. *)
Theorem C106_normal : forall W T (o : Ops T) (F : FloatOps T) (ln : T -> T) (unit half_turn : distr (list W) T) k1 k2 u phi sub mul (n2 : T),
  reads k1 unit u -> reads k2 half_turn phi ->
  (forall x y, o_sub o x y = Ok (sub x y)) -> (forall x y, o_mul o x y = Ok (mul x y)) -> o_neg o (f_two F) = Ok n2 ->
  reads (k1 + k2) (normal_float o F ln unit half_turn)
    (fun b => mul (f_sqrt F (mul (ln (sub (o_one o) (u (firstn k1 b)))) n2)) (f_cos F (phi (skipn k1 b)))).
Proof.
  intros W T o F ln unit half_turn k1 k2 u phi sub mul n2 Hu Hp Es Em En g L. unfold normal_float. rewrite Hu by lia. cbn [bind].
  rewrite Es. cbn [bind]. rewrite En. cbn [bind]. rewrite Em. cbn [bind]. rewrite Hp by (rewrite skipn_length; lia). cbn [bind]. rewrite Em. cbn [bind].
  rewrite skipn_twice, (Nat.add_comm k2 k1). rewrite firstn_firstn, Nat.min_l by lia. rewrite firstn_skipn_comm. reflexivity.
Qed.

(** How long it takes: the expected number of rounds is one over the probability of a good one.  (Its terms: the
    probability that more than [n] rounds are needed.) *)
Section Rounds.
  Context {W T : Type} (words : list W) (o : Ops T) (F : FloatOps T) (inner : distr (list W) T) (k : nat) (h : list W -> T) (Hi : reads k inner h).
  Local Open Scope R_scope.
  Lemma series : forall p (a : nat -> R), 0 < p <= 1 -> (forall n, a n = (1 - p) ^ n) -> is_series a (1 / p).
  Proof.
    intros p a Hp Ha. apply is_series_ext with (fun n => (1 - p) ^ n); [intros; auto|].
    replace (1 / p) with (/ (1 - (1 - p))) by (field; lra). apply is_series_geom. rewrite Rabs_pos_eq; lra.
  Qed.
  Lemma prob_le1 : forall n E, prob words n E <= 1.
  Proof.
    intros n E. unfold prob. pose proof (filter_split E (tapes words n)) as S. pose proof (le_INR (length (filter E (tapes words n))) (length (tapes words n)) ltac:(lia)) as L.
    destruct (Nat.eq_dec (length (tapes words n)) 0) as [Z|Z].
    - rewrite Z in *. replace (length (filter E (tapes words n))) with 0%nat by lia. unfold Rdiv. cbn. lra.
    - assert (0 < INR (length (tapes words n))) by (apply lt_0_INR; lia). apply (Rmult_le_reg_r (INR (length (tapes words n)))); auto.
      unfold Rdiv. rewrite Rmult_assoc, Rinv_l by lra. lra.
  Qed.
  Theorem C106_rounds : forall N (len : list T -> T) (det : list (list T) -> T), words <> [] ->
    (forall x, length x = N -> v_length o (f_sqrt F) x = Ok (len x)) -> (forall m, rect N N m -> m_det o N m = Ok (det m)) ->
    let p := prob words (N * k) (fun b => o_lt o (f_epsilon F) (len (pieces k h N b))) in
    let q := prob words (N * N * k) (fun b => negb (o_le o (f_abs F (f_abs F (det (grid k h N N b)))) (f_epsilon F))) in
    (0 < p -> is_series (fun n => prob words (n * (N * k)) (at_work (nonzero_v o F inner n N))) (1 / p)) /\
    (0 < q -> is_series (fun n => prob words (n * (N * N * k)) (at_work (invertible_m o F inner n N))) (1 / q)).
  Proof.
    intros N len det Hw Hl Hd p q. split; intros Hp; (apply series; [split; [auto|apply prob_le1]|]).
    - apply (proj1 (C106_nonzero words o F Hi len Hl)). auto.
    - apply (proj1 (C106_invertible words o F Hi det Hd)). auto.
  Qed.
End Rounds.

(** Complex numbers, quaternions, transformations. *)
Section Wrap.
  Context {W T : Type} (words : list W) (o : Ops T) (F : FloatOps T) (inner : distr (list W) T) (k : nat) (h : list W -> T) (Hi : reads k inner h).
  Local Notation eps := (f_epsilon F).
  Lemma law_wrap : forall A B k k2 good (val : list W -> A) (d : nat -> distr (list W) A) (d' : nat -> distr (list W) B) (f : A -> B),
    law_given words k k2 good val d -> (forall n g, d' n g = let! (g1, x) := d n g in Ok (g1, f x)) -> law_given words k k2 good (fun t => f (val t)) d'.
  Proof.
    intros A B k0 k2 good val d d' f H E Hp P. specialize (H Hp (fun x => P (f x))). eapply is_lim_seq_ext; [|exact H]. intros n. cbn beta.
    unfold prob. do 3 f_equal. apply filter_ext_in'. intros g _. unfold gives. rewrite E. destruct (d n g) as [[]| | |]; reflexivity.
  Qed.
  Lemma law_ext : forall A k k2 good good' (val : list W -> A) d, (forall t, good t = good' t) -> law_given words k k2 good' val d -> law_given words k k2 good val d.
  Proof.
    intros A k0 k2 good good' val d E H Hp P. assert (E1 : prob words (k0 + k2) good = prob words (k0 + k2) good') by (unfold prob; rewrite (filter_ext _ _ E); auto).
    assert (E2 : prob words (k0 + k2) (fun t => good t && P (val t)) = prob words (k0 + k2) (fun t => good' t && P (val t))).
    { unfold prob. rewrite (@filter_ext _ (fun t => good t && P (val t)) (fun t => good' t && P (val t))); auto. intros t. rewrite E. auto. }
    rewrite E1, E2. rewrite E1 in Hp. apply H. auto.
  Qed.
  Definition cx_of (v : list T) : complex T := match v with [a; b] => Cx a b | _ => Cx (o_zero o) (o_zero o) end.
  Definition qt_of (v : list T) : quat T := match v with [a; b; c; d] => Qt a b c d | _ => Qt (o_zero o) (o_zero o) (o_zero o) (o_zero o) end.
  Lemma nonzero_len : forall n N g g1 x, nonzero_v o F inner n N g = Ok (g1, x) -> length x = N.
  Proof. intros n N g g1 x E. apply C76_nonzero_any in E as (l & g3 & _ & _ & D). clear - D. induction D; cbn; auto. Qed.
  Lemma unit_len : forall n N g g1 x, unit_v o F inner n N g = Ok (g1, x) -> length x = N.
  Proof.
    intros n N g g1 x. unfold unit_v. destruct (nonzero_v o F inner n N g) as [[g2 y]| | |] eqn:E; cbn [bind]; try discriminate.
    apply nonzero_len in E. unfold v_normalize. destruct (v_length o (f_sqrt F) y) as [l'| | |]; cbn [bind]; try discriminate. unfold v_sdiv.
    destruct (v_map _ y) as [u| | |] eqn:Eu; cbn [bind]; try discriminate. intros X. apply Ok_inj in X. injection X as <- <-.
    rewrite v_map_res in Eu. apply map_res_length in Eu. lia.
  Qed.
  Lemma c_wrap : forall (d : distr (list W) (list T)) g, (forall g g1 x, d g = Ok (g1, x) -> length x = 2) -> c_distr d g = let! (g1, x) := d g in Ok (g1, cx_of x).
  Proof.
    intros d g H. unfold c_distr. destruct (d g) as [[g1 x]| | |] eqn:E; cbn [bind]; auto. apply H in E. destruct x as [|a [|b [|? ?]]]; try discriminate. reflexivity.
  Qed.
  Lemma q_wrap : forall (d : distr (list W) (list T)) g, (forall g g1 x, d g = Ok (g1, x) -> length x = 4) -> q_distr d g = let! (g1, x) := d g in Ok (g1, qt_of x).
  Proof.
    intros d g H. unfold q_distr. destruct (d g) as [[g1 x]| | |] eqn:E; cbn [bind]; auto. apply H in E. destruct x as [|a [|b [|c [|e [|? ?]]]]]; try discriminate. reflexivity.
  Qed.
  Theorem C106_complex : forall (len : list T -> T) (dir : list T -> list T), (forall x, length x = 2 -> v_length o (f_sqrt F) x = Ok (len x)) ->
    (forall x, length x = 2 -> o_lt o eps (len x) = true -> v_normalize o (f_sqrt F) x = Ok (dir x)) ->
    let good := fun b => o_lt o eps (len (pieces k h 2 b)) in
    law_given words (2 * k) 0 good (fun b => cx_of (pieces k h 2 b)) (fun n => c_distr (nonzero_v o F inner n 2)) /\
    law_given words (2 * k) 0 good (fun b => cx_of (dir (pieces k h 2 b))) (fun n => c_distr (unit_v o F inner n 2)).
  Proof.
    intros len dir Hl Hn good. split.
    - eapply law_wrap; [apply (proj2 (C106_nonzero words o F Hi len Hl))|]. intros n g. apply c_wrap. intros ? ? ?. apply nonzero_len.
    - apply (@law_wrap _ _ _ _ _ (fun b => dir (pieces k h 2 b)) _ _ cx_of (@C106_unit _ _ words o F inner k h Hi _ len dir Hl Hn)). intros n g. apply c_wrap. intros ? ? ?. apply unit_len.
  Qed.
  Theorem C106_quaternion : forall (len : list T -> T) (dir : list T -> list T), (forall x, length x = 4 -> v_length o (f_sqrt F) x = Ok (len x)) ->
    (forall x, length x = 4 -> o_lt o eps (len x) = true -> v_normalize o (f_sqrt F) x = Ok (dir x)) ->
    let good := fun b => o_lt o eps (len (pieces k h 4 b)) in
    law_given words (4 * k) 0 good (fun b => qt_of (pieces k h 4 b)) (fun n => q_distr (nonzero_v o F inner n 4)) /\
    law_given words (4 * k) 0 good (fun b => qt_of (dir (pieces k h 4 b))) (fun n => q_distr (unit_v o F inner n 4)).
  Proof.
    intros len dir Hl Hn good. split.
    - eapply law_wrap; [apply (proj2 (C106_nonzero words o F Hi len Hl))|]. intros n g. apply q_wrap. intros ? ? ?. apply nonzero_len.
    - apply (@law_wrap _ _ _ _ _ (fun b => dir (pieces k h 4 b)) _ _ qt_of (@C106_unit _ _ words o F inner k h Hi _ len dir Hl Hn)). intros n g. apply q_wrap. intros ? ? ?. apply unit_len.
  Qed.
  (** [Moebius<Complex<T>>]: four independent complex normals, conditioned on the determinant. *)
  Theorem C106_moebius : forall crem N (det : list (list (complex T)) -> complex T) (size : complex T -> T),
    (forall m, rect N N m -> m_det (c_ops o crem) N m = Ok (det m)) -> (forall z, c_norm_l1 o (ok1 (f_abs F)) z = Ok (size z)) ->
    let entries := grid (2 * k) (fun b => cx_of (pieces k h 2 b)) N N in
    law_given words (N * N * (2 * k)) 0 (fun b => negb (o_le o (f_abs F (size (det (entries b)))) eps)) entries
      (fun n => invertible_cm o F crem (c_distr (v_distribution 2 inner)) n N).
  Proof.
    intros crem N det size Hd Hs entries.
    assert (Hc : reads (2 * k) (c_distr (v_distribution 2 inner)) (fun b => cx_of (pieces k h 2 b))).
    { intros g L. rewrite c_wrap. { rewrite (C106_components 2 Hi) by auto. reflexivity. } intros g0 g1 x E. apply (proj1 (proj2 (C75_vector inner 2 g0)) g1 x E). }
    apply (@law0 _ _ _ words (m_distribution N N (c_distr (v_distribution 2 inner))) _ _
      (fun x => let! d := m_det (c_ops o crem) N x in let! n := c_norm_l1 o (ok1 (f_abs F)) d in Ok (negb (is_epsilon o F n)))
      (fun b => negb (o_le o (f_abs F (size (det (entries b)))) eps)) (@Ok _) entries _ (C106_entries N N Hc)); auto.
    - intros b _. rewrite Hd by apply grid_rect. cbn [bind]. rewrite Hs. reflexivity.
    - intros n g. unfold invertible_cm. destruct (reject_loop n _ _ g) as [[]| | |]; reflexivity.
  Qed.
End Wrap.

(** Over the reals, in terms of Euclidean length and determinant. *)
Section Real.
  Context {W : Type} (words : list W) (inner : distr (list W) R) (k : nat) (h : list W -> R) (Hi : reads k inner h) (eps : R).
  Local Notation fl := (r_float eps).
  Local Open Scope R_scope.
  Theorem C106_nonzero_real : forall N, (0 < N)%nat ->
    law_given words (N * k) 0 (fun b => if Rlt_dec eps (len (pieces k h N b)) then true else false) (pieces k h N) (fun n => nonzero_v r_ops fl inner n N).
  Proof. intros N HN. apply (C106_nonzero words r_ops fl Hi len). intros x L. apply (len_v _ L HN). Qed.
  Theorem C106_unit_real : forall N, (0 < N)%nat -> 0 <= eps ->
    law_given words (N * k) 0 (fun b => if Rlt_dec eps (len (pieces k h N b)) then true else false)
      (fun b => map (fun x => x / len (pieces k h N b)) (pieces k h N b)) (fun n => unit_v r_ops fl inner n N).
  Proof.
    intros N HN He. apply (@C106_unit _ _ words r_ops fl inner k h Hi _ len (fun v => map (fun x => x / len v) v)).
    - intros x L. apply (len_v _ L HN).
    - intros x L Hl. cbn [o_lt r_ops f_epsilon r_float] in Hl. apply r_ltb_true in Hl.
      pose proof (@vk_of _ N x 0 L) as Ex. assert (M : forall c, map (fun t => t / c) x = vk N (fun i => nth i x 0 / c)) by (intros c; rewrite Ex at 1; apply map_map).
      cbn [f_sqrt r_float]. rewrite M. rewrite Ex at 1. rewrite rv_normalize; auto.
      + unfold len. rewrite L. reflexivity.
      + unfold len in Hl. rewrite L in Hl. change (sqrt (bigsum r_ring N (fun i => nth i x 0 * nth i x 0)) <> 0). lra.
  Qed.
  Theorem C106_invertible_real : forall N,
    law_given words (N * N * k) 0 (fun b => if Rlt_dec eps (Rabs (leibniz r_ring N (mget r_ops (grid k h N N b)))) then true else false)
      (grid k h N N) (fun n => invertible_m r_ops fl inner n N).
  Proof.
    intros N. pose proof (proj2 (C106_invertible words r_ops fl Hi (fun m => leibniz r_ring N (mget r_ops m)) (fun m Hm => C30_leibniz r_ring Hm))) as H.
    cbn [o_le r_ops f_abs f_epsilon r_float] in H.
    eapply law_ext; [|exact H]. intros b. cbn beta. rewrite Rabs_Rabsolu. unfold r_leb.
    destruct (Rlt_dec eps (Rabs (leibniz r_ring N (mget r_ops (grid k h N N b))))), (Rle_dec (Rabs (leibniz r_ring N (mget r_ops (grid k h N N b)))) eps); auto; lra.
  Qed.
End Real.

(** For scalars whose operations always return (floats: [C105_float_total]) nothing else is needed: the computed length
    and determinant are the expressions of C105. *)
Theorem C106_total : forall W T (words : list W) (o : Ops T) (F : FloatOps T) add sub mul div neg (inner : distr (list W) T) k h N,
  total o add sub mul neg -> total_div o div -> reads k inner h -> 0 < N ->
  let len := fun x : list T => f_sqrt F (fold_left add (map (fun y => mul y y) (tl x)) (mul (hd (o_zero o) x) (hd (o_zero o) x))) in
  let long := fun b => o_lt o (f_epsilon F) (len (pieces k h N b)) in
  let det := fun m => det_expr (o_zero o) (o_one o) add mul neg N (mget o m) in
  law_given words (N * k) 0 long (pieces k h N) (fun n => nonzero_v o F inner n N) /\
  law_given words (N * k) 0 long (fun b => map (fun x => div x (len (pieces k h N b))) (pieces k h N b)) (fun n => unit_v o F inner n N) /\
  law_given words (N * N * k) 0 (fun b => negb (o_le o (f_abs F (f_abs F (det (grid k h N N b)))) (f_epsilon F))) (grid k h N N)
    (fun n => invertible_m o F inner n N).
Proof.
  intros W T words o F add sub mul div neg inner k h N Ht Hd Hi HN len0 long det.
  assert (Hl : forall x, length x = N -> v_length o (f_sqrt F) x = Ok (len0 x)).
  { intros [|y x] L; [cbn in L; lia|]. unfold v_length. rewrite (C105_square_length Ht). reflexivity. }
  split; [apply (proj2 (C106_nonzero words o F Hi len0 Hl))|]. split.
  - apply (@C106_unit _ _ words o F inner k h Hi N len0 (fun x => map (fun y => div y (len0 x)) x) Hl). intros x L _.
    unfold v_normalize. rewrite Hl by auto. cbn [bind]. unfold v_sdiv. apply v_map_total. intros y. apply Hd.
  - apply (proj2 (C106_invertible words o F Hi det (fun m Hm => C105_det Ht Hm))).
Qed.

(** A coin with the faces 0 and 3, two throws per vector: NonZero keeps three of the four vectors, the first component is
    0 for one of them; 4/3 rounds are expected. *)
Section C106_ex.
  Local Open Scope R_scope.
  Definition throw : distr (list R) R := fun g => match g with x :: r => Ok (r, x) | [] => Panic end.
  Definition coin_good (b : list R) : bool := if Rlt_dec 1 (len (pieces 1 (hd 0) 2 b)) then true else false.
  Lemma coin_good_v : coin_good [0; 0] = false /\ coin_good [0; 3] = true /\ coin_good [3; 0] = true /\ coin_good [3; 3] = true.
  Proof.
    assert (L : forall a b, len (pieces 1 (hd 0) 2 [a; b]) = sqrt (a * a + b * b)). { intros a b. cbn. unfold len. cbn. f_equal. ring. }
    assert (S1 : forall y, 1 < y -> 1 < sqrt y). { intros y Hy. rewrite <- sqrt_1. apply sqrt_lt_1; lra. }
    unfold coin_good. rewrite !L. repeat split.
    - destruct (Rlt_dec 1 (sqrt (0 * 0 + 0 * 0))); auto. replace (0 * 0 + 0 * 0) with 0 in r by ring. rewrite sqrt_0 in r. lra.
    - destruct (Rlt_dec 1 (sqrt (0 * 0 + 3 * 3))); auto. destruct n. apply S1. lra.
    - destruct (Rlt_dec 1 (sqrt (3 * 3 + 0 * 0))); auto. destruct n. apply S1. lra.
    - destruct (Rlt_dec 1 (sqrt (3 * 3 + 3 * 3))); auto. destruct n. apply S1. lra.
  Qed.
  Definition is0 (v : list R) : bool := match v with x :: _ => if Req_EM_T x 0 then true else false | [] => false end.
  Lemma coin_throw : reads 1 throw (hd 0).
  Proof. intros [|x g] L; [cbn in L; lia|reflexivity]. Qed.
  Lemma coin_prob : prob [0; 3] 2 coin_good = 3 / 4.
  Proof. destruct coin_good_v as (A & B & C & D). unfold prob. cbn [tapes flat_map map app filter]. rewrite A, B, C, D. cbn. lra. Qed.
  Example C106_coin :
    is_lim_seq (fun n => prob [0; 3] (n * 2) (gives is0 (nonzero_v r_ops (r_float 1) throw n 2))) (1 / 3) /\
    is_series (fun n => prob [0; 3] (n * 2) (at_work (nonzero_v r_ops (r_float 1) throw n 2))) (4 / 3).
  Proof.
    pose proof coin_prob as P. destruct coin_good_v as (A & B & C & D). split.
    - pose proof (@C106_nonzero_real R [0; 3] throw 1 (hd 0) coin_throw 1 2 ltac:(lia)) as H.
      change (law_given [0; 3] 2 0 coin_good (pieces 1 (hd 0) 2) (fun n => nonzero_v r_ops (r_float 1) throw n 2)) in H.
      specialize (H ltac:(change (2 + 0)%nat with 2%nat; rewrite P; lra) is0). change (2 + 0)%nat with 2%nat in H. rewrite P in H.
      replace (1 / 3) with (prob [0; 3] 2 (fun t => coin_good t && is0 (pieces 1 (hd 0) 2 t)) / (3 / 4)).
      + eapply is_lim_seq_ext; [|exact H]. intros n. cbn beta. rewrite Nat.add_0_r. reflexivity.
      + unfold prob. cbn [tapes flat_map map app filter]. rewrite A, B, C, D. cbn. destruct (Req_EM_T 0 0); [|lra]. destruct (Req_EM_T 3 0); [lra|]. cbn. lra.
    - pose proof (proj1 (@C106_rounds R R [0; 3] r_ops (r_float 1) throw 1 (hd 0) coin_throw 2 len (fun m => leibniz r_ring 2 (mget r_ops m)) ltac:(discriminate)
        (fun x L => len_v x L ltac:(lia)) (fun m Hm => C30_leibniz r_ring Hm))) as H.
      change (prob [0; 3] (2 * 1) (fun b => o_lt r_ops (f_epsilon (r_float 1)) (len (pieces 1 (hd 0) 2 b)))) with (prob [0; 3] 2 coin_good) in H. rewrite P in H.
      replace (4 / 3) with (1 / (3 / 4)) by lra. apply H. lra.
  Qed.
End C106_ex.

Print Assumptions C106_components.
Print Assumptions C106_entries.
Print Assumptions C106_rejection.
Print Assumptions C106_nonzero.
Print Assumptions C106_unit.
Print Assumptions C106_invertible.
Print Assumptions C106_uniform3.
Print Assumptions C106_normal.
Print Assumptions C106_rounds.
Print Assumptions C106_complex.
Print Assumptions C106_quaternion.
Print Assumptions C106_moebius.
Print Assumptions C106_nonzero_real.
Print Assumptions C106_unit_real.
Print Assumptions C106_invertible_real.
Print Assumptions C106_total.
