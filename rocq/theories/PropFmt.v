(** C87: printing to a writer that can fail at any write.
    [W] is the writer's state; each write says whether it succeeded, or panics. *)
From Coq Require Import List String Arith Lia Bool.
From Verif Require Import Spec MathModel VecProofs MatProofs FmtModel.
Import ListNotations.
Set Implicit Arguments.
Local Open Scope string_scope.

(** * Specification: a list of things to write, in order, stopping at the first failure. *)
Inductive piece (T : Type) : Type := Text (s : string) | Elem (x : T).
Arguments Text {T} s. Arguments Elem {T} x.

Section Writer.
  Context {W T : Type} (lit : string -> W -> res (W * bool)) (elem : T -> W -> res (W * bool)).
  Definition put (p : piece T) : W -> res (W * bool) := match p with Text s => lit s | Elem x => elem x end.
  (** What has been written when the pieces [l] are written one after the other until one of them fails. *)
  Fixpoint write_all (l : list (piece T)) (w : W) : res (W * bool) :=
    match l with
    | [] => Ok (w, true)
    | p :: l' => match put p w with
                 | Ok (w', true) => write_all l' w'
                 | r => r
                 end
    end.
  Fixpoint separated (v : list T) : list (piece T) :=
    match v with
    | [] => []
    | [x] => [Elem x]
    | x :: v' => Elem x :: Text ", " :: separated v'
    end.
End Writer.
(** The text of one piece, when [fmt x] is the text of [x]. *)
Definition said {T : Type} (fmt : T -> string) (p : piece T) : string := match p with Text s => s | Elem x => fmt x end.
(** Each write appends to the text already written: all of its piece if it succeeds, some beginning of it otherwise. *)
Definition appends {W T : Type} (text : W -> string) (fmt : T -> string)
    (lit : string -> W -> res (W * bool)) (elem : T -> W -> res (W * bool)) : Prop :=
  forall p w w' ok, put lit elem p w = Ok (w', ok) ->
    exists d rest, text w' = text w ++ d /\ said fmt p = d ++ rest /\ (ok = true -> rest = "").
(** A whole run does the same. *)
Definition appended {W : Type} (text : W -> string) (whole : string) (w : W) (r : res (W * bool)) : Prop :=
  forall w' ok, r = Ok (w', ok) ->
    exists d rest, text w' = text w ++ d /\ whole = d ++ rest /\ (ok = true -> rest = "").
(** No write fails or panics. *)
Definition never_fails {W T : Type} (lit : string -> W -> res (W * bool)) (elem : T -> W -> res (W * bool)) : Prop :=
  forall p w, exists w', put lit elem p w = Ok (w', true).

(** * Facts about [write_all] *)
Section Facts.
  Context {W T : Type} (lit : string -> W -> res (W * bool)) (elem : T -> W -> res (W * bool)).
  Notation wa := (write_all lit elem).
  Lemma write_all_app : forall a b w, wa (a ++ b) w =
    match wa a w with Ok (w', true) => wa b w' | r => r end.
  Proof.
    induction a as [|p a IH]; intros b w; cbn [write_all List.app]; [reflexivity|].
    destruct (put lit elem p w) as [[w1 [|]]| | |]; auto.
  Qed.
  Lemma and_then_lit : forall s k (l : list (piece T)) , (forall w, k w = wa l w) -> forall w, and_then (lit s) k w = wa (Text s :: l) w.
  Proof. intros s k l E w. unfold and_then. cbn [write_all put]. destruct (lit s w) as [[w1 [|]]| | |]; cbn [bind]; auto. Qed.
  Lemma and_then_elem : forall x k (l : list (piece T)) , (forall w, k w = wa l w) -> forall w, and_then (elem x) k w = wa (Elem x :: l) w.
  Proof. intros x k l E w. unfold and_then. cbn [write_all put]. destruct (elem x w) as [[w1 [|]]| | |]; cbn [bind]; auto. Qed.
  Lemma and_then_all : forall a k (l1 l2 : list (piece T)), (forall w, a w = wa l1 w) -> (forall w, k w = wa l2 w) ->
    forall w, and_then a k w = wa (l1 ++ l2) w.
  Proof. intros a k l1 l2 Ea Ek w. unfold and_then. rewrite write_all_app, Ea. destruct (wa l1 w) as [[w1 [|]]| | |]; cbn [bind]; auto. Qed.
  Lemma lit_one : forall s w, lit s w = wa [Text s] w.
  Proof. intros. cbn [write_all put]. destruct (lit s w) as [[w1 [|]]| | |]; auto. Qed.
  Lemma done_nil : forall w, done w = wa [] w.
  Proof. reflexivity. Qed.

  Lemma nth_skipn : forall A (v : list A) i x, nth_error v i = Some x -> skipn i v = x :: skipn (S i) v.
  Proof.
    intros A v i x. revert v. induction i; intros [|y v] E; try discriminate.
    - inversion E; subst. reflexivity.
    - change (skipn (S i) (y :: v)) with (skipn i v). rewrite (IHi v E). reflexivity.
  Qed.
  Definition each (v : list T) : list (piece T) := flat_map (fun x => [Elem x; Text ", "]) v.
  Lemma v_write_loop_all : forall (v : list T) k l left i, (forall w, k w = wa l w) -> i + left <= List.length v ->
    forall w, v_write_loop lit elem v left i k w = wa (each (firstn left (skipn i v)) ++ l) w.
  Proof.
    intros v k l. induction left as [|left IH]; intros i Ek H w; cbn [v_write_loop]; [apply Ek|].
    destruct (nth_error v i) as [x|] eqn:E. 2:{ apply nth_error_None in E. lia. }
    rewrite (nth_skipn _ _ E). cbn [firstn each flat_map]. rewrite <- app_assoc.
    apply and_then_all; [|intros; apply IH; auto; lia].
    intros w1. unfold eval, v_index, index. rewrite E. cbn [bind].
    apply and_then_elem. intros; apply lit_one.
  Qed.
  Lemma separated_snoc : forall l x, separated (l ++ [x]) = (each l ++ [Elem x])%list.
  Proof.
    induction l as [|y l IH]; intros; [reflexivity|].
    cbn [List.app]. cbn [each flat_map List.app]. fold (each l). rewrite <- IH.
    destruct l; reflexivity.
  Qed.
  Lemma m_write_row_all : forall (m : list (list T)) r j k l, nth_error m j = Some r -> (forall w, k w = wa l w) ->
    forall left i, i + left = List.length r ->
    forall w, m_write_row lit elem m left j i k w = wa (each (skipn i r) ++ l) w.
  Proof.
    intros m r j k l Hj Ek. induction left as [|left IH]; intros i H w; cbn [m_write_row].
    - rewrite skipn_all2 by lia. apply Ek.
    - destruct (nth_error r i) as [x|] eqn:E. 2:{ apply nth_error_None in E. lia. }
      rewrite (nth_skipn _ _ E). cbn [each flat_map]. rewrite <- app_assoc.
      apply and_then_all; [|intros; apply IH; auto; lia].
      intros w1. unfold eval. rewrite m_index_elt. unfold elt. rewrite Hj, E. cbn [bind].
      apply and_then_elem. intros; apply lit_one.
  Qed.
  Lemma m_write_rows_all : forall (m : list (list T)) M N, rect M N m -> forall k l, (forall w, k w = wa l w) ->
    forall left j, j + left = M ->
    forall w, m_write_rows lit elem m N left j k w =
      wa (flat_map (fun r => Text "  " :: each r ++ [Text nl])%list (skipn j m) ++ l) w.
  Proof.
    intros m M N (L & F) k l Ek. induction left as [|left IH]; intros j H w; cbn [m_write_rows].
    - rewrite skipn_all2 by lia. apply Ek.
    - destruct (nth_error m j) as [r|] eqn:E. 2:{ apply nth_error_None in E. lia. }
      assert (Lr : List.length r = N) by (rewrite Forall_forall in F; apply F; eapply nth_error_In; eauto).
      rewrite (nth_skipn _ _ E). cbn [flat_map]. rewrite <- app_assoc. cbn [List.app].
      apply and_then_lit. intros w1. rewrite <- app_assoc.
      change r with (skipn 0 r) at 1. apply m_write_row_all; auto.
      intros w2. cbn [List.app]. apply and_then_lit. intros w3. apply IH. lia.
  Qed.
End Facts.

(** * The theorems *)

(** The writes made, and their order; nothing is written after a failed write, and the failure is returned. *)
Theorem C87_vector_writes : forall W T (lit : string -> W -> res (W * bool)) (elem : T -> W -> res (W * bool)) N v w,
  List.length v = N -> 0 < N ->
  v_write lit elem N v w =
  write_all lit elem ([Text "Vector"; Text (nat_str N); Text "("] ++ separated v ++ [Text ")"])%list w.
Proof.
  intros W T lit elem N v w L H. destruct N as [|n]; [lia|].
  destruct (exists_last (l := v)) as (l & x & E). { intros ->. discriminate. }
  assert (Ll : List.length l = n) by (rewrite E, app_length in L; simpl in L; lia).
  unfold v_write. rewrite E at 3. rewrite separated_snoc. apply and_then_all.
  { apply and_then_lit, and_then_lit, lit_one. }
  intros w1. rewrite <- app_assoc.
  assert (K : forall w2, and_then (eval (v_index v n) (fun y => and_then (elem y) (lit ")"))) done w2 = write_all lit elem ([Elem x; Text ")"] ++ [])%list w2).
  { apply and_then_all; [|apply done_nil]. intros w3. unfold eval, v_index, index.
    rewrite E, nth_error_app2, Ll, Nat.sub_diag by lia. cbn [nth_error bind]. apply and_then_elem, lit_one. }
  rewrite (@v_write_loop_all _ _ lit elem v _ _ n 0 K) by lia.
  cbn [skipn]. rewrite E, firstn_app, Ll, Nat.sub_diag, <- Ll, firstn_all. cbn [firstn]. rewrite app_nil_r. reflexivity.
Qed.
(** A vector of no elements: the header is written; if that does not fail, the call panics. *)
Theorem C87_vector_writes_empty : forall W T (lit : string -> W -> res (W * bool)) (elem : T -> W -> res (W * bool)) v w,
  v_write lit elem 0 v w =
  match write_all lit elem [Text "Vector"; Text "0"; Text "("] w with
  | Ok (_, true) => Panic
  | r => r
  end.
Proof.
  intros. unfold v_write, and_then. change (nat_str 0) with "0". cbn [write_all put].
  destruct (lit "Vector" w) as [[w1 [|]]| | |]; cbn [bind]; auto.
  destruct (lit "0" w1) as [[w2 [|]]| | |]; cbn [bind]; auto.
  destruct (lit "(" w2) as [[w3 [|]]| | |]; cbn [bind]; auto.
Qed.
Theorem C87_matrix_writes : forall W T (lit : string -> W -> res (W * bool)) (elem : T -> W -> res (W * bool)) M N m w,
  rect M N m ->
  m_write lit elem M N m w =
  write_all lit elem
    ([Text nl; Text "Matrix"; Text (nat_str M); Text "x"; Text (nat_str N); Text ("(" ++ nl)] ++
     flat_map (fun r => Text "  " :: flat_map (fun x => [Elem x; Text ", "]) r ++ [Text nl])%list m ++
     [Text (")" ++ nl)])%list w.
Proof.
  intros W T lit elem M N m w R. unfold m_write. cbn [List.app]. apply and_then_lit. intros w1.
  match goal with |- _ = write_all _ _ (?a :: ?b :: ?c :: ?d :: ?e :: ?l) _ => change (a :: b :: c :: d :: e :: l) with ([a; b; c; d; e] ++ l)%list end.
  apply and_then_all.
  - repeat apply and_then_lit. apply lit_one.
  - intros w2. change m with (skipn 0 m) at 2. eapply m_write_rows_all; eauto; apply and_then_lit, done_nil.
Qed.
Theorem C87_complex_writes : forall W T (lit : string -> W -> res (W * bool)) (elem : T -> W -> res (W * bool)) a b w,
  c_write lit elem (Cx a b) w = write_all lit elem [Text "Complex("; Elem a; Text ", "; Elem b; Text ")"] w.
Proof. intros. unfold c_write, eval. cbn [c_re bind]. apply and_then_lit, and_then_elem, and_then_lit, and_then_elem, lit_one. Qed.
Theorem C87_quaternion_writes : forall W T (lit : string -> W -> res (W * bool)) (elem : T -> W -> res (W * bool)) a b c d w,
  q_write lit elem (Qt a b c d) w =
  write_all lit elem [Text "Quaternion("; Elem a; Text ", "; Elem b; Text ", "; Elem c; Text ", "; Elem d; Text ")"] w.
Proof.
  intros. unfold q_write, eval. cbn [q_w q_x q_y q_z bind].
  apply and_then_lit, and_then_elem, and_then_lit, and_then_elem, and_then_lit, and_then_elem, and_then_lit, and_then_elem, lit_one.
Qed.

Section Text.
  Context {W T : Type} (text : W -> string) (fmt : T -> string)
    (lit : string -> W -> res (W * bool)) (elem : T -> W -> res (W * bool)).
  Definition whole (l : list (piece T)) : string := String.concat "" (map (said fmt) l).
  Lemma whole_cons : forall p l, whole (p :: l) = said fmt p ++ whole l.
  Proof. intros p [|q l]; unfold whole; cbn [map String.concat]; [now rewrite append_nil|reflexivity]. Qed.
  Lemma whole_app : forall a b, whole (a ++ b) = whole a ++ whole b.
  Proof. induction a; intros; [reflexivity|]. cbn [List.app]. rewrite !whole_cons, IHa, append_assoc. reflexivity. Qed.
  Lemma write_all_appended : appends text fmt lit elem -> forall l w, appended text (whole l) w (write_all lit elem l w).
  Proof.
    intros A. induction l as [|p l IH]; intros w w' ok E.
    - cbn [write_all] in E. inversion E; subst. exists "", "". rewrite append_nil. repeat split; auto.
    - cbn [write_all] in E. rewrite whole_cons.
      destruct (put lit elem p w) as [[w1 [|]]| | |] eqn:P; try discriminate.
      + destruct (A _ _ _ _ P) as (d1 & r1 & T1 & S1 & Z1). rewrite (Z1 eq_refl), append_nil in S1.
        destruct (IH w1 w' ok E) as (d2 & r2 & T2 & S2 & Z2).
        exists (d1 ++ d2), r2. rewrite T2, T1, S1, S2. rewrite !append_assoc. repeat split; auto.
      + inversion E; subst. destruct (A _ _ _ _ P) as (d1 & r1 & T1 & S1 & Z1).
        exists d1, (r1 ++ whole l). rewrite T1, S1, append_assoc. repeat split; auto; discriminate.
  Qed.
  Lemma write_all_never_fails : never_fails lit elem -> forall l w, exists w', write_all lit elem l w = Ok (w', true).
  Proof.
    intros A. induction l as [|p l IH]; intros w; cbn [write_all]; [eauto|].
    destruct (A p w) as (w1 & ->). apply IH.
  Qed.
  Lemma whole_separated : forall v, whole (separated v) = String.concat ", " (map fmt v).
  Proof.
    induction v as [|x v IH]; [reflexivity|]. destruct v as [|y v]; [reflexivity|].
    change (separated (x :: y :: v)) with (Elem x :: Text ", " :: separated (y :: v)).
    rewrite !whole_cons, IH. reflexivity.
  Qed.
  Lemma whole_each : forall r, whole (flat_map (fun x => [Elem x; Text ", "]) r) = String.concat "" (map (fun x => fmt x ++ ", ") r).
  Proof.
    induction r as [|x r IH]; [reflexivity|].
    cbn [flat_map List.app]. rewrite !whole_cons, IH. cbn [said map].
    destruct (map (fun x => fmt x ++ ", ") r) eqn:E; cbn [String.concat].
    - now rewrite append_nil.
    - rewrite append_assoc. reflexivity.
  Qed.
  Lemma whole_rows : forall m, whole (flat_map (fun r => Text "  " :: flat_map (fun x => [Elem x; Text ", "]) r ++ [Text nl])%list m) =
    String.concat "" (map (fun r => "  " ++ String.concat "" (map (fun x => fmt x ++ ", ") r) ++ nl) m).
  Proof.
    induction m as [|r m IH]; [reflexivity|].
    cbn [flat_map]. rewrite whole_app, IH, whole_cons, whole_app, whole_each. cbn [said map].
    set (q := "  " ++ _ ++ nl).
    replace ("  " ++ String.concat "" (map (fun x => fmt x ++ ", ") r) ++ whole [Text nl]) with q by reflexivity.
    clearbody q. destruct (map (fun r => "  " ++ String.concat "" (map (fun x => fmt x ++ ", ") r) ++ nl) m); cbn [String.concat].
    - now rewrite append_nil.
    - reflexivity.
  Qed.
End Text.

(** What can have been written when printing ends: a beginning of the text the value prints as ([v_fmt] and the others: C18, C35, C84),
    and all of it if [Ok] is returned. *)
Theorem C87_text : forall W T (text : W -> string) (fmt : T -> string) lit elem, appends text fmt lit elem ->
  (forall N v s w, List.length v = N -> v_fmt N fmt v = Ok s -> appended text s w (v_write lit elem N v w)) /\
  (forall M N m s w, rect M N m -> m_fmt M N fmt m = Ok s -> appended text s w (m_write lit elem M N m w)) /\
  (forall a b s w, c_fmt fmt (Cx a b) = Ok s -> appended text s w (c_write lit elem (Cx a b) w)) /\
  (forall a b c d s w, q_fmt fmt (Qt a b c d) = Ok s -> appended text s w (q_write lit elem (Qt a b c d) w)) /\
  (forall v w, appended text "Vector0(" w (v_write lit elem 0 v w)).
Proof.
  intros W T text fmt lit elem A. repeat split.
  - intros N v s w L E. destruct N as [|n]; [discriminate|].
    rewrite (proj1 (v_fmt_spec fmt v L)) in E by lia. apply Ok_inj in E. subst s.
    rewrite C87_vector_writes by (auto; lia). cbn [List.app].
    replace (String.append "Vector" _) with (whole fmt (Text "Vector" :: Text (nat_str (S n)) :: Text "(" :: separated v ++ [Text ")"])%list).
    + apply write_all_appended; auto.
    + rewrite !whole_cons, whole_app, whole_separated. reflexivity.
  - intros M N m s w R E. rewrite (m_fmt_spec fmt R) in E. apply Ok_inj in E. subst s.
    rewrite C87_matrix_writes by auto. cbn [List.app].
    match goal with |- appended _ ?s _ (write_all _ _ ?l _) => replace s with (whole fmt l) end.
    + apply write_all_appended; auto.
    + rewrite !whole_cons, whole_app, whole_rows. cbn [said]. unfold whole at 1. cbn [map said String.concat].
      rewrite !append_assoc. reflexivity.
  - intros a b s w E. apply Ok_inj in E. subst s. rewrite C87_complex_writes.
    match goal with |- appended _ ?s _ (write_all _ _ ?l _) => replace s with (whole fmt l) by (rewrite !whole_cons; reflexivity) end.
    apply write_all_appended; auto.
  - intros a b c d s w E. apply Ok_inj in E. subst s. rewrite C87_quaternion_writes.
    match goal with |- appended _ ?s _ (write_all _ _ ?l _) => replace s with (whole fmt l) by (rewrite !whole_cons; reflexivity) end.
    apply write_all_appended; auto.
  - intros v w w' ok E. rewrite C87_vector_writes_empty in E.
    destruct (write_all lit elem [Text "Vector"; Text "0"; Text "("] w) as [[w1 [|]]| | |] eqn:P; try discriminate.
    apply Ok_inj in E. inversion E; subst.
    destruct (write_all_appended A [Text "Vector"; Text "0"; Text "("] w P) as (d & r & H1 & H2 & H3). exists d, r. auto.
Qed.

(** Printing to a writer that never fails returns [Ok] (a vector of no elements excepted), and then, by [C87_text], the whole text. *)
Theorem C87_no_failure : forall W T (lit : string -> W -> res (W * bool)) (elem : T -> W -> res (W * bool)), never_fails lit elem ->
  (forall N v w, List.length v = N -> 0 < N -> exists w', v_write lit elem N v w = Ok (w', true)) /\
  (forall M N m w, rect M N m -> exists w', m_write lit elem M N m w = Ok (w', true)) /\
  (forall a b w, exists w', c_write lit elem (Cx a b) w = Ok (w', true)) /\
  (forall a b c d w, exists w', q_write lit elem (Qt a b c d) w = Ok (w', true)) /\
  (forall v w, v_write lit elem 0 v w = Panic).
Proof.
  intros W T lit elem A. repeat split.
  - intros. rewrite C87_vector_writes by auto. apply write_all_never_fails; auto.
  - intros. rewrite C87_matrix_writes by auto. apply write_all_never_fails; auto.
  - intros. rewrite C87_complex_writes. apply write_all_never_fails; auto.
  - intros. rewrite C87_quaternion_writes. apply write_all_never_fails; auto.
  - intros. rewrite C87_vector_writes_empty. destruct (write_all_never_fails A [Text "Vector"; Text "0"; Text "("] w) as (w' & ->). reflexivity.
Qed.

(** Whatever the writer does, an error is returned exactly when some write failed,
    and that write was the last one made ([write_all] read as a statement about the writes). *)
Theorem C87_failure_is_last : forall W T (lit : string -> W -> res (W * bool)) (elem : T -> W -> res (W * bool)) l w w' ok,
  write_all lit elem l w = Ok (w', ok) ->
  if ok then True else
  exists before p after w1, l = (before ++ p :: after)%list /\ write_all lit elem before w = Ok (w1, true) /\ put lit elem p w1 = Ok (w', false).
Proof.
  intros W T lit elem. induction l as [|p l IH]; intros w w' ok E; cbn [write_all] in E.
  - inversion E; exact I.
  - destruct (put lit elem p w) as [[w1 [|]]| | |] eqn:P; try discriminate.
    + specialize (IH _ _ _ E). destruct ok; auto. destruct IH as (b & q & a & w2 & -> & H1 & H2).
      exists (p :: b), q, a, w2. cbn [write_all]. rewrite P. auto.
    + inversion E; subst. exists [], p, l, w. auto.
Qed.

(** A buffer of fixed capacity, which takes what fits and then fails, satisfies the hypothesis. *)
Definition bounded (cap : nat) (s : string) (w : string) : res (string * bool) :=
  Ok (if (String.length w + String.length s <=? cap)%nat then (w ++ s, true) else (w ++ substring 0 (cap - String.length w) s, false)).
Lemma bounded_appends : forall cap, appends (fun w => w) nat_str (bounded cap) (fun n => bounded cap (nat_str n)).
Proof.
  intros cap p w w' ok E.
  assert (G : forall s, bounded cap s w = Ok (w', ok) -> exists d rest, w' = w ++ d /\ s = d ++ rest /\ (ok = true -> rest = "")).
  { clear E. intros s E. unfold bounded in E. destruct (String.length w + String.length s <=? cap)%nat eqn:C; apply Ok_inj in E; inversion E; subst.
    - exists s, "". rewrite append_nil. auto.
    - exists (substring 0 (cap - String.length w) s). revert C. generalize (cap - String.length w). clear. intros n _.
      revert n. induction s as [|c s IH]; intros n; [exists ""; destruct n; repeat split; discriminate|].
      destruct n as [|n]; [exists (String c s); repeat split; discriminate|].
      destruct (IH n) as (r & _ & H & _). exists r. cbn [substring append]. repeat split; try discriminate. now f_equal. }
  destruct p; apply G; exact E.
Qed.
Example C87_example :
  v_write (bounded 14) (fun n => bounded 14 (nat_str n)) 3 [10; 2; 33] "" = Ok ("Vector3(10, 2,", false) /\
  v_write (bounded 18) (fun n => bounded 18 (nat_str n)) 3 [10; 2; 33] "" = Ok ("Vector3(10, 2, 33)", true) /\
  v_write (bounded 5) (fun n => bounded 5 (nat_str n)) 0 [] "" = Ok ("Vecto", false) /\
  v_write (bounded 8) (fun n => bounded 8 (nat_str n)) 0 [] "" = Panic /\
  q_write (bounded 15) (fun n => bounded 15 (nat_str n)) (Qt 1 2 3 4) "" = Ok ("Quaternion(1, 2", false) /\
  m_write (bounded 20) (fun n => bounded 20 (nat_str n)) 1 1 [[7]] "" = Ok (nl ++ "Matrix1x1(" ++ nl ++ "  7, " ++ nl ++ ")" ++ nl, true).
Proof. vm_compute. repeat split. Qed.

Print Assumptions C87_vector_writes.
Print Assumptions C87_vector_writes_empty.
Print Assumptions C87_matrix_writes.
Print Assumptions C87_complex_writes.
Print Assumptions C87_quaternion_writes.
Print Assumptions C87_text.
Print Assumptions C87_no_failure.
Print Assumptions C87_failure_is_last.
