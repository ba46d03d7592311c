(** Characterisation of the vector model by ordinary list functions. *)
From Verif Require Import VectorModel.
Set Implicit Arguments.

(* ------------------------------------------------------------------------- *)
(** * Outcomes                                                                 *)

Lemma Ok_inj : forall A (a b : A), Ok a = Ok b -> a = b.
Proof. congruence. Qed.
Lemma bind_Ok : forall A B (r : res A) (f : A -> res B) b,
  bind r f = Ok b -> exists a, r = Ok a /\ f a = Ok b.
Proof. intros A B [a| | |] f b H; simpl in H; try discriminate; eauto. Qed.

Lemma bind_Ok_iff : forall A B (r : res A) (f : A -> res B) b,
  bind r f = Ok b <-> exists a, r = Ok a /\ f a = Ok b.
Proof. split; [apply bind_Ok | intros (a & -> & H); exact H]. Qed.

Lemma bind_ret : forall A (r : res A), bind r (fun x => Ok x) = r.
Proof. intros A [a| | |]; reflexivity. Qed.

Lemma bind_assoc : forall A B C (r : res A) (f : A -> res B) (g : B -> res C),
  bind (bind r f) g = bind r (fun x => bind (f x) g).
Proof. intros A B C [a| | |] f g; reflexivity. Qed.

Lemma bind_ext : forall A B (r : res A) (f g : A -> res B),
  (forall a, r = Ok a -> f a = g a) -> bind r f = bind r g.
Proof. intros A B [a| | |] f g H; simpl; auto. Qed.

(* ------------------------------------------------------------------------- *)
(** * map_res and relatives                                                    *)

Lemma map_res_ok : forall A B (f : A -> B) l, map_res (fun a => Ok (f a)) l = Ok (map f l).
Proof. induction l; simpl; auto. rewrite IHl. reflexivity. Qed.

Lemma map_res_ok1 : forall A B (f : A -> B) l, map_res (ok1 f) l = Ok (map f l).
Proof. intros. apply map_res_ok. Qed.

Lemma map_res_ext : forall A B (f g : A -> res B) l,
  (forall a, In a l -> f a = g a) -> map_res f l = map_res g l.
Proof.
  induction l; simpl; intros H; auto.
  rewrite (H a) by auto. apply bind_ext. intros b _. rewrite IHl; auto.
Qed.

Lemma map_res_map : forall A B C (f : A -> B) (g : B -> res C) l,
  map_res g (map f l) = map_res (fun a => g (f a)) l.
Proof. induction l; simpl; auto. apply bind_ext. intros. rewrite IHl. reflexivity. Qed.

Lemma map_res_length : forall A B (f : A -> res B) l r, map_res f l = Ok r -> length r = length l.
Proof.
  induction l; simpl; intros r H. { inversion H; reflexivity. }
  apply bind_Ok in H as (b & _ & H). apply bind_Ok in H as (bs & H1 & H2).
  inversion H2; subst. simpl. f_equal. auto.
Qed.

Lemma map_res_ok_forall2 : forall A B (f : A -> res B) l r,
  map_res f l = Ok r <-> Forall2 (fun a b => f a = Ok b) l r.
Proof.
  induction l; simpl; intros r; split; intros H.
  - inversion H; constructor.
  - inversion H; reflexivity.
  - apply bind_Ok in H as (b & E & H). apply bind_Ok in H as (bs & H1 & H2).
    inversion H2; subst. constructor; auto. apply IHl; auto.
  - inversion H; subst. rewrite H2. simpl. apply IHl in H4. rewrite H4. reflexivity.
Qed.

Lemma map_res_app : forall A B (f : A -> res B) l1 l2,
  map_res f (l1 ++ l2) =
  bind (map_res f l1) (fun a => bind (map_res f l2) (fun b => Ok (a ++ b))).
Proof.
  induction l1; simpl; intros.
  - symmetry. apply bind_ret.
  - destruct (f a); simpl; auto. rewrite IHl1. rewrite !bind_assoc. simpl.
    apply bind_ext. intros. rewrite !bind_assoc. apply bind_ext. intros. reflexivity.
Qed.

(** If every scalar call succeeds, so does the whole; otherwise the first failure is the outcome. *)
Lemma map_res_fail : forall A B (f : A -> res B) l,
  (forall r, map_res f l <> Ok r) ->
  exists l1 a l2, l = l1 ++ a :: l2 /\ (forall x, In x l1 -> exists y, f x = Ok y) /\
    (forall y, f a <> Ok y) /\ map_res f l = refail (f a).
Proof.
  induction l; intros H.
  - exfalso. apply (H []). reflexivity.
  - simpl in H |- *. destruct (f a) as [b| | |] eqn:E; simpl in H |- *.
    + destruct (map_res f l) as [bs| | |] eqn:E2; simpl in H.
      { exfalso; eapply H; reflexivity. }
      all: destruct IHl as (l1 & a' & l2 & E3 & H1 & H2 & H3); [congruence|];
        exists (a :: l1), a', l2; subst; simpl; repeat split; auto;
        intros x [->|Hx]; eauto.
    + exists [], a, l. repeat split; simpl; try tauto; try (intros; congruence). rewrite E; reflexivity.
    + exists [], a, l. repeat split; simpl; try tauto; try (intros; congruence). rewrite E; reflexivity.
    + exists [], a, l. repeat split; simpl; try tauto; try (intros; congruence). rewrite E; reflexivity.
Qed.

Lemma map_st_unit : forall A B (f : A -> res B) l,
  map_st (fun (_ : unit) a => let! b := f a in Ok (tt, b)) tt l = rmap (pair tt) (map_res f l).
Proof.
  induction l; simpl; auto. destruct (f a); simpl; auto.
  rewrite IHl. destruct (map_res f l); reflexivity.
Qed.

Lemma v_map_res : forall A B (f : A -> res B) v, v_map f v = map_res f v.
Proof.
  intros. unfold v_map, v_map_st. rewrite map_st_unit. destruct (map_res f v); reflexivity.
Qed.

Lemma v_map_pure : forall A B (f : A -> B) v, v_map (ok1 f) v = Ok (map f v).
Proof. intros. rewrite v_map_res. apply map_res_ok. Qed.

(** Element-wise combination of two lists. *)
Fixpoint map2_res {A B C : Type} (op : A -> B -> res C) (u : list A) (v : list B) : res (list C) :=
  match u, v with
  | x :: u', y :: v' => let! z := op x y in let! l := map2_res op u' v' in Ok (z :: l)
  | _, _ => Ok []
  end.
Fixpoint map2 {A B C : Type} (op : A -> B -> C) (u : list A) (v : list B) : list C :=
  match u, v with
  | x :: u', y :: v' => op x y :: map2 op u' v'
  | _, _ => []
  end.

Lemma map2_res_pure : forall A B C (op : A -> B -> C) u v, map2_res (ok2 op) u v = Ok (map2 op u v).
Proof. induction u; destruct v; simpl; auto. rewrite IHu. reflexivity. Qed.

Lemma map2_res_combine : forall A B C (op : A -> B -> res C) u v,
  map_res (fun '(x, y) => op x y) (combine u v) = map2_res op u v.
Proof. induction u; destruct v; simpl; auto. apply bind_ext. intros. rewrite IHu. reflexivity. Qed.

Lemma map2_combine : forall A B C (op : A -> B -> C) u v,
  map2 op u v = map (fun p => op (fst p) (snd p)) (combine u v).
Proof. induction u; destruct v; simpl; auto. f_equal. auto. Qed.

Lemma map2_length : forall A B C (op : A -> B -> C) u v,
  length u = length v -> length (map2 op u v) = length u.
Proof. induction u; destruct v; simpl; intros; auto; try discriminate. Qed.

Lemma map2_length' : forall A B C (op : A -> B -> C) n u v,
  length u = n -> length v = n -> length (map2 op u v) = n.
Proof. intros. rewrite map2_length; congruence. Qed.

Lemma nth_error_map2 : forall A B C (op : A -> B -> C) u v i,
  nth_error (map2 op u v) i =
  match nth_error u i, nth_error v i with Some x, Some y => Some (op x y) | _, _ => None end.
Proof.
  induction u; destruct v; destruct i; simpl; auto.
  - destruct (nth_error u i); auto.
Qed.

Lemma map2_res_ok_iff : forall A B C (op : A -> B -> res C) u v l,
  length u = length v ->
  (map2_res op u v = Ok l <->
   length l = length u /\
   forall i x y, nth_error u i = Some x -> nth_error v i = Some y ->
                 exists z, op x y = Ok z /\ nth_error l i = Some z).
Proof.
  induction u; destruct v; simpl; intros l E; try discriminate.
  - split; intros H.
    + inversion H; subst. split; auto. intros [|i] x y Hx; discriminate.
    + destruct H as (H & _). destruct l; [reflexivity|discriminate].
  - injection E as E. split; intros H.
    + apply bind_Ok in H as (z & Hz & H). apply bind_Ok in H as (t & Ht & H).
      inversion H; subst. apply IHu in Ht as (L & Ht); auto. split; simpl; auto.
      intros [|i] x y Hx Hy; simpl in *.
      * inversion Hx; inversion Hy; subst; eauto.
      * eapply Ht; eauto.
    + destruct H as (L & H). destruct l as [|z t]; [discriminate|].
      destruct (H 0 a b eq_refl eq_refl) as (z' & Hz & E0). simpl in E0. inversion E0; subst z'.
      rewrite Hz. simpl. assert (map2_res op u v = Ok t) as ->.
      { apply IHu; auto. split; auto. intros i x y Hx Hy. exact (H (S i) x y Hx Hy). }
      reflexivity.
Qed.

Lemma map2_res_length : forall A B C (op : A -> B -> res C) u v l,
  length u = length v -> map2_res op u v = Ok l -> length l = length u.
Proof. intros. apply map2_res_ok_iff in H0; tauto. Qed.

(* ------------------------------------------------------------------------- *)
(** * init                                                                     *)

Lemma list_set_app : forall A (a b : list A) x y,
  list_set (a ++ x :: b) (length a) y = a ++ y :: b.
Proof. induction a; simpl; intros; auto. f_equal. auto. Qed.

Lemma list_set_length : forall A (l : list A) i x, length (list_set l i x) = length l.
Proof. induction l; destruct i; simpl; auto. Qed.

Lemma nth_error_list_set : forall A (l : list A) i j x,
  nth_error (list_set l i x) j =
  if (i =? j) && (i <? length l) then Some x else nth_error l j.
Proof.
  induction l as [|h t IH]; intros i j x.
  - cbn [list_set length]. replace (i <? 0) with false by (symmetry; apply Nat.ltb_ge; lia).
    rewrite andb_false_r. reflexivity.
  - destruct i, j; simpl; auto. rewrite IH.
    replace (S i <? S (length t)) with (i <? length t); [reflexivity|].
    destruct (i <? length t) eqn:E; symmetry; [apply Nat.ltb_lt in E; apply Nat.ltb_lt; lia|].
    apply Nat.ltb_ge in E; apply Nat.ltb_ge; lia.
Qed.

Lemma assume_init_some : forall T (l : list T), v_assume_init (map Some l) = Ok l.
Proof. induction l; simpl; auto. rewrite IHl. reflexivity. Qed.

(** Calling a closure [n] times, collecting the results. *)
Fixpoint calls {C T : Type} (n : nat) (f : C -> res (C * T)) (c : C) : res (C * list T) :=
  match n with
  | O => Ok (c, [])
  | S k => let! (c1, y) := f c in let! (c2, l) := calls k f c1 in Ok (c2, y :: l)
  end.

Lemma calls_length : forall C T n (f : C -> res (C * T)) c c1 l,
  calls n f c = Ok (c1, l) -> length l = n.
Proof.
  induction n; simpl; intros f c c1 l H. { inversion H; reflexivity. }
  apply bind_Ok in H as ((c2 & y) & _ & H). apply bind_Ok in H as ((c3 & l') & H1 & H2).
  inversion H2; subst. simpl. f_equal. eauto.
Qed.

Lemma v_init_loop_calls : forall C T n (f : C -> res (C * T)) c (pre : list T),
  v_init_loop f n (length pre) c (map Some pre ++ repeat None n) =
  let! (c1, l) := calls n f c in Ok (c1, map Some (pre ++ l)).
Proof.
  induction n; simpl; intros.
  - rewrite !app_nil_r. reflexivity.
  - destruct (f c) as [(c1 & y)| | |]; simpl; auto.
    replace (length pre) with (length (map (@Some T) pre)) at 2 by apply map_length.
    rewrite list_set_app.
    replace (map Some pre ++ Some y :: repeat None n) with (map Some (pre ++ [y]) ++ repeat None n)
      by (rewrite map_app, <- app_assoc; reflexivity).
    replace (S (length pre)) with (length (pre ++ [y])) by (rewrite app_length; simpl; lia).
    rewrite IHn. destruct (calls n f c1) as [(c2 & l)| | |]; simpl; auto.
    rewrite <- app_assoc. reflexivity.
Qed.

Lemma v_init_calls : forall C T N (f : C -> res (C * T)) c, v_init N f c = calls N f c.
Proof.
  intros. unfold v_init, v_uninit. pose proof (v_init_loop_calls N f c []) as H. simpl in H.
  rewrite H. destruct (calls N f c) as [(c1 & l)| | |]; simpl; auto.
  rewrite assume_init_some. reflexivity.
Qed.

Lemma calls_const : forall T n (y : T),
  calls n (fun _ : unit => let! y := Ok y in Ok (tt, y)) tt = Ok (tt, repeat y n).
Proof. induction n; simpl; intros; auto. simpl in IHn. rewrite IHn. reflexivity. Qed.

Lemma v_init_const_repeat : forall T N (y : T), v_init_const N (Ok y) = Ok (repeat y N).
Proof.
  intros. unfold v_init_const. rewrite v_init_calls, calls_const. reflexivity.
Qed.

Lemma v_zero_repeat : forall T (o : Ops T) N, v_zero o N = Ok (repeat (o_zero o) N).
Proof. intros. apply v_init_const_repeat. Qed.

(* ------------------------------------------------------------------------- *)
(** * try_from_iter                                                            *)

(** Pull at most [n] items, stopping at the first [None]. *)
Fixpoint pull {S A : Type} (n : nat) (next : next_fn S A) (s : S) : res (S * list A) :=
  match n with
  | O => Ok (s, [])
  | Datatypes.S k =>
      let! (s1, o) := next s in
      match o with
      | None => Ok (s1, [])
      | Some y => let! (s2, l) := pull k next s1 in Ok (s2, y :: l)
      end
  end.

Lemma pull_length : forall S A n (next : next_fn S A) s s1 l,
  pull n next s = Ok (s1, l) -> length l <= n.
Proof.
  induction n; simpl; intros next s s1 l H. { inversion H; simpl; lia. }
  apply bind_Ok in H as ((s2 & o) & _ & H). destruct o as [y|].
  - apply bind_Ok in H as ((s3 & l') & H1 & H2). inversion H2; subst. simpl.
    apply IHn in H1. lia.
  - inversion H; simpl; lia.
Qed.

Lemma tfi_loop_pull : forall S A n (next : next_fn S A) s (pre : list A),
  tfi_loop next n (length pre) (map Some pre ++ repeat None n) s =
  let! (s1, l) := pull n next s in
  Ok (s1, map Some (pre ++ l) ++ repeat None (n - length l), length pre + length l).
Proof.
  induction n; intros next s pre.
  - simpl. rewrite !app_nil_r, Nat.add_0_r. reflexivity.
  - cbn [tfi_loop pull]. destruct (next s) as [(s1 & [y|])| | |]; auto.
    + cbn [bind repeat]. 
      replace (length pre) with (length (map (@Some A) pre)) at 2 by apply map_length.
      rewrite list_set_app.
      replace (map Some pre ++ Some y :: repeat None n) with (map Some (pre ++ [y]) ++ repeat None n)
        by (rewrite map_app, <- app_assoc; reflexivity).
      replace (Datatypes.S (length pre)) with (length (pre ++ [y])) by (rewrite app_length; simpl; lia).
      rewrite IHn. destruct (pull n next s1) as [(s2 & l)| | |]; simpl; auto.
      rewrite app_length. simpl. rewrite <- app_assoc. simpl.
      do 2 f_equal. lia.
    + cbn [bind]. simpl. rewrite app_nil_r, Nat.add_0_r. reflexivity.
Qed.

Lemma tfi_drop_some : forall A (l : list A) rest, tfi_drop (map Some l ++ rest) (length l) = Ok l.
Proof. induction l; simpl; intros; auto. destruct rest; reflexivity. rewrite IHl. reflexivity. Qed.

Lemma tfi_pull : forall S A N (next : next_fn S A) s,
  tfi N next s =
  match pull N next s with
  | Ok (s1, l) => if length l =? N then ([], Ok (s1, Some l)) else (l, Ok (s1, None))
  | Panic => ([], Panic) | UB => ([], UB) | Fuel => ([], Fuel)
  end.
Proof.
  intros. unfold tfi, v_uninit. pose proof (tfi_loop_pull N next s []) as H. simpl in H.
  rewrite H. destruct (pull N next s) as [(s1 & l)| | |] eqn:E; simpl; auto.
  apply pull_length in E.
  destruct (N <? length l) eqn:E1. { apply Nat.ltb_lt in E1. lia. }
  destruct (length l =? N) eqn:E2.
  - apply Nat.eqb_eq in E2. replace (N - length l) with 0 by lia. simpl.
    rewrite app_nil_r, assume_init_some. reflexivity.
  - rewrite tfi_drop_some. reflexivity.
Qed.

Lemma v_try_from_iter_pull : forall S A N (next : next_fn S A) s,
  v_try_from_iter N next s =
  let! (s1, l) := pull N next s in Ok (s1, if length l =? N then Some l else None).
Proof.
  intros. unfold v_try_from_iter. rewrite tfi_pull.
  destruct (pull N next s) as [(s1 & l)| | |]; simpl; auto.
  destruct (length l =? N); reflexivity.
Qed.

Lemma pull_list : forall A n (l : list A), pull n list_next l = Ok (skipn n l, firstn n l).
Proof.
  induction n; simpl; intros; auto. destruct l; simpl; auto. rewrite IHn. reflexivity.
Qed.

Lemma pull_range : forall n lo, pull n range_next (lo, lo + n) = Ok ((lo + n, lo + n), seq lo n).
Proof.
  induction n; intros. { simpl. rewrite Nat.add_0_r. reflexivity. }
  cbn [pull range_next]. replace (lo <? lo + S n) with true by (symmetry; apply Nat.ltb_lt; lia).
  cbn [bind]. replace (lo + S n) with (S lo + n) by lia. rewrite IHn. reflexivity.
Qed.

Lemma v_indices_seq : forall N, v_indices N = Ok (seq 0 N).
Proof.
  intros. unfold v_indices, v_from_iter_unwrap. rewrite v_try_from_iter_pull.
  pose proof (pull_range N 0) as H. simpl in H. rewrite H. simpl.
  rewrite seq_length, Nat.eqb_refl. reflexivity.
Qed.

Lemma pull_zip : forall A B n (u : list A) (v : list B),
  length u = n -> length v = n ->
  pull n (zip_next list_next list_next) (u, v) = Ok (([], []), combine u v).
Proof.
  induction n; simpl; intros u v Hu Hv.
  - destruct u, v; try discriminate. reflexivity.
  - destruct u, v; try discriminate. simpl. rewrite IHn; auto.
Qed.

Lemma v_zip_combine : forall T U N (u : list T) (v : list U),
  length u = N -> length v = N -> v_zip N u v = Ok (combine u v).
Proof.
  intros. unfold v_zip, v_from_iter_unwrap. rewrite v_try_from_iter_pull, pull_zip by auto. simpl.
  rewrite combine_length, H, H0, Nat.min_id, Nat.eqb_refl. reflexivity.
Qed.

Lemma v_zip_map_res : forall A B C N (op : A -> B -> res C) u v,
  length u = N -> length v = N -> v_zip_map N op u v = map2_res op u v.
Proof.
  intros. unfold v_zip_map. rewrite v_zip_combine by auto. simpl.
  rewrite v_map_res. apply map2_res_combine.
Qed.

Lemma v_zip_map_pure : forall A B C N (op : A -> B -> C) u v,
  length u = N -> length v = N -> v_zip_map N (ok2 op) u v = Ok (map2 op u v).
Proof. intros. rewrite v_zip_map_res by auto. apply map2_res_pure. Qed.

Lemma v_enumerate_combine : forall T N (v : list T),
  length v = N -> v_enumerate N v = Ok (combine (seq 0 N) v).
Proof.
  intros. unfold v_enumerate. rewrite v_indices_seq. simpl. apply v_zip_combine; auto.
  apply seq_length.
Qed.

Lemma v_unzip_loop_some : forall T U (l : list (T * U)) p q,
  length p = length q ->
  v_unzip_loop (length l) (length p) l
    (map Some p ++ repeat None (length l)) (map Some q ++ repeat None (length l)) =
  (map Some (p ++ map fst l), map Some (q ++ map snd l)).
Proof.
  induction l as [|(x & y) l IH]; simpl; intros p q E.
  - rewrite !app_nil_r. reflexivity.
  - replace (length p) with (length (map (@Some T) p)) at 2 by apply map_length.
    rewrite list_set_app.
    replace (length p) with (length (map (@Some U) q)) at 2 by (rewrite map_length; auto).
    rewrite list_set_app.
    replace (map Some p ++ Some x :: repeat None (length l))
      with (map Some (p ++ [x]) ++ repeat None (length l)) by (rewrite map_app, <- app_assoc; reflexivity).
    replace (map Some q ++ Some y :: repeat None (length l))
      with (map Some (q ++ [y]) ++ repeat None (length l)) by (rewrite map_app, <- app_assoc; reflexivity).
    replace (S (length p)) with (length (p ++ [x])) by (rewrite app_length; simpl; lia).
    rewrite IH by (rewrite !app_length; simpl; lia).
    rewrite <- !app_assoc. reflexivity.
Qed.

Lemma v_unzip_ok : forall T U N (l : list (T * U)),
  length l = N -> v_unzip N l = Ok (map fst l, map snd l).
Proof.
  intros T U N l <-. unfold v_unzip, v_uninit.
  pose proof (v_unzip_loop_some l [] [] eq_refl) as H. simpl in H. rewrite H.
  rewrite !assume_init_some. reflexivity.
Qed.

(** Left-to-right traversal with state. *)
Lemma pull_scan : forall St T U n (f : St -> T -> res (St * U)) s (v : list T),
  length v = n ->
  pull n (scan_next f list_next) (v, s) = let! (s1, l) := map_st f s v in Ok (([], s1), l).
Proof.
  induction n; intros f s v H; destruct v as [|x t]; try discriminate; auto.
  simpl. destruct (f s x) as [(s1 & y)| | |]; simpl; auto.
  injection H as H. rewrite IHn by auto.
  destruct (map_st f s1 t) as [(s2 & l)| | |]; reflexivity.
Qed.

Lemma map_st_length : forall C A B (f : C -> A -> res (C * B)) l c c1 r,
  map_st f c l = Ok (c1, r) -> length r = length l.
Proof.
  induction l; simpl; intros c c1 r H. { inversion H; reflexivity. }
  apply bind_Ok in H as ((c2 & b) & _ & H). apply bind_Ok in H as ((c3 & bs) & H1 & H2).
  inversion H2; subst. simpl. f_equal. eauto.
Qed.

Lemma v_scan_map_st : forall St T U N (f : St -> T -> res (St * U)) s (v : list T),
  length v = N -> v_scan_st N f s v = map_st f s v.
Proof.
  intros. unfold v_scan_st. rewrite v_try_from_iter_pull, pull_scan by auto.
  destruct (map_st f s v) as [(s1 & l)| | |] eqn:E; simpl; auto.
  apply map_st_length in E. rewrite E, H, Nat.eqb_refl. reflexivity.
Qed.

Lemma v_fold_first_cons : forall T (f : T -> T -> res T) x t, v_fold_first f (x :: t) = fold_res f x t.
Proof. reflexivity. Qed.

Lemma fold_res_ok : forall S A (f : S -> A -> S) l s,
  fold_res (fun s a => Ok (f s a)) s l = Ok (fold_left f l s).
Proof. induction l; simpl; auto. Qed.

Lemma fold_res_ok2 : forall S A (f : S -> A -> S) l s, fold_res (ok2 f) s l = Ok (fold_left f l s).
Proof. exact fold_res_ok. Qed.

Lemma fold_res_ext : forall S A (f g : S -> A -> res S) l s,
  (forall s a, In a l -> f s a = g s a) -> fold_res f s l = fold_res g s l.
Proof.
  induction l; simpl; intros s H; auto. rewrite H by auto. apply bind_ext. intros. apply IHl. auto.
Qed.

Lemma fold_res_app : forall S A (f : S -> A -> res S) l1 l2 s,
  fold_res f s (l1 ++ l2) = bind (fold_res f s l1) (fun s1 => fold_res f s1 l2).
Proof. induction l1; simpl; intros; auto. destruct (f s a); simpl; auto. Qed.
