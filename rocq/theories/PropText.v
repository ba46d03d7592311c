(** C111: the printed text determines the value. *)
From Coq Require Import String Ascii List Lia Decimal DecimalString DecimalNat DecimalFacts.
From Verif Require Import SpecFacts VFacts VecProofs MFacts MatProofs ComplexModel MathModel FmtModel DeriveModel PropVector PropMatrix PropParts.
Import ListNotations.
Set Implicit Arguments.
Local Open Scope string_scope.

(** * Specification *)
(** A comma, a closing parenthesis or a space ends an element. *)
Definition stop (c : ascii) : Prop := c = ","%char \/ c = ")"%char \/ c = " "%char.
Definition ends (r : string) : Prop := match r with EmptyString => True | String c _ => stop c end.
Fixpoint chars (P : ascii -> Prop) (s : string) : Prop := match s with EmptyString => True | String c t => P c /\ chars P t end.
(** From the text of an element, followed by anything an element can be followed by, the element and the rest can be recovered. *)
Definition readable {T : Type} (P : T -> Prop) (fmt : T -> string) : Prop :=
  forall x y r s, P x -> P y -> ends r -> ends s -> fmt x ++ r = fmt y ++ s -> x = y /\ r = s.

(* ------------------------------------------------------------------------- *)
Lemma app_str : forall x y z : string, (x ++ y) ++ z = x ++ (y ++ z).
Proof. induction x; intros; cbn; [reflexivity|rewrite IHx; reflexivity]. Qed.
Lemma app_inj : forall x y z : string, x ++ y = x ++ z -> y = z.
Proof. induction x; intros y z H; cbn in H; auto. injection H as H. auto. Qed.
Lemma app_nil : forall x : string, x ++ "" = x.
Proof. induction x; cbn; congruence. Qed.
(* texts made of characters that are not Q, followed by rests that begin with Q *)
Lemma split_at : forall (Q : ascii -> Prop) a b r s, chars (fun c => ~ Q c) a -> chars (fun c => ~ Q c) b ->
  match r with EmptyString => True | String c _ => Q c end -> match s with EmptyString => True | String c _ => Q c end ->
  a ++ r = b ++ s -> a = b /\ r = s.
Proof.
  induction a as [|c a IH]; intros [|d b] r s Ha Hb Hr Hs E; cbn in *.
  - auto.
  - subst r. destruct Hb as (Hb & _). contradiction.
  - subst s. destruct Ha as (Ha & _). contradiction.
  - injection E as -> E. destruct (IH b r s) as (-> & ->); tauto.
Qed.
(** ** Elements *)
Theorem C111_scalar : forall T (P : T -> Prop) fmt, (forall x y, P x -> P y -> fmt x = fmt y -> x = y) ->
  (forall x, P x -> chars (fun c => ~ stop c) (fmt x)) -> readable P fmt.
Proof.
  intros T P fmt Inj Ch x y r s Px Py Hr Hs E. destruct (@split_at stop (fmt x) (fmt y) r s) as (A & B); auto.
Qed.

(* decimal numbers *)
Definition digit (c : ascii) : Prop := In c ["0"; "1"; "2"; "3"; "4"; "5"; "6"; "7"; "8"; "9"]%char.
Lemma chars_mono : forall (P Q : ascii -> Prop) s, (forall c, P c -> Q c) -> chars P s -> chars Q s.
Proof. intros P Q s H. induction s; cbn; auto. intros (A & B). auto. Qed.
Lemma nat_str_digits : forall n, chars digit (nat_str n).
Proof.
  intros n. unfold nat_str, NilZero.string_of_uint. destruct (Nat.to_uint n) eqn:E. { cbn. unfold digit. cbn. tauto. }
  all: rewrite <- E; clear; generalize (Nat.to_uint n); intros w; induction w; cbn; auto; split; auto; unfold digit; cbn; tauto.
Qed.
Lemma nat_str_inj : forall m n, nat_str m = nat_str n -> m = n.
Proof.
  assert (G : forall n, option_map Nat.of_uint (NilZero.uint_of_string (nat_str n)) = Some n).
  { intros n. unfold nat_str. rewrite NilZero.usu. { cbn. f_equal. apply Unsigned.of_to. }
    intros E. pose proof (Unsigned.of_to n) as H. rewrite E in H. cbn in H. subst n. discriminate. }
  intros m n E. pose proof (G m) as A. rewrite E, G in A. congruence.
Qed.
Lemma digit_not : forall c d, digit c -> ~ digit d -> c <> d.
Proof. intros c d H N ->. auto. Qed.
Ltac nodigit := unfold digit; cbn; let K := fresh in intros K; repeat (destruct K as [K|K]; [discriminate K|]); exact K.
Lemma nat_str_split : forall m n c r d s, ~ digit c -> ~ digit d -> nat_str m ++ String c r = nat_str n ++ String d s -> m = n /\ String c r = String d s.
Proof.
  intros m n c r d s Hc Hd E. destruct (@split_at (fun c => ~ digit c) (nat_str m) (nat_str n) (String c r) (String d s)) as (A & B); auto.
  1,2: eapply chars_mono; [|apply nat_str_digits]; intros x Hx K; exact (K Hx).
  split; auto. apply nat_str_inj. exact A.
Qed.
(** Numbers in decimal notation are readable. *)
Theorem C111_decimal : readable (fun _ => True) nat_str.
Proof.
  apply C111_scalar. { intros. apply nat_str_inj. auto. } intros x _. eapply chars_mono; [|apply nat_str_digits].
  intros c H [->|[->| ->]]; revert H; nodigit.
Qed.

Section Elems.
  Context {T : Type} (P : T -> Prop) (fmt : T -> string) (Hf : readable P fmt).
  Lemma ends_comma : forall r, ends (", " ++ r).
  Proof. intros. cbn. unfold stop. auto. Qed.
  Lemma ends_paren : forall r, ends (")" ++ r).
  Proof. intros. cbn. unfold stop. auto. Qed.
  Lemma list_split : forall v v' r s, Forall P v -> Forall P v' -> length v = length v' ->
    String.concat ", " (map fmt v) ++ ")" ++ r = String.concat ", " (map fmt v') ++ ")" ++ s -> v = v' /\ r = s.
  Proof.
    induction v as [|x v IH]; intros [|y v'] r s F F' L E; try discriminate.
    - split; auto. cbn in E. congruence.
    - apply Forall_cons_iff in F as (Px & F). apply Forall_cons_iff in F' as (Py & F'). injection L as L.
      destruct v as [|x2 v], v' as [|y2 v']; try discriminate.
      + cbn [map String.concat] in E. destruct (@Hf x y _ _ Px Py (ends_paren _) (ends_paren _) E) as (-> & Q). injection Q as ->. auto.
      + change (String.concat ", " (map fmt (x :: x2 :: v))) with (fmt x ++ ", " ++ String.concat ", " (map fmt (x2 :: v))) in E.
        change (String.concat ", " (map fmt (y :: y2 :: v'))) with (fmt y ++ ", " ++ String.concat ", " (map fmt (y2 :: v'))) in E.
        rewrite !app_str in E. destruct (@Hf x y _ _ Px Py (ends_comma _) (ends_comma _) E) as (-> & Q). apply app_inj in Q.
        destruct (IH (y2 :: v') r s F F' L Q) as (-> & ->). auto.
  Qed.
  (** ** Vectors: also the length can be read off *)
  Theorem C111_vector : forall N N' v v' a a' r s, length v = N -> length v' = N' -> Forall P v -> Forall P v' ->
    v_fmt N fmt v = Ok a -> v_fmt N' fmt v' = Ok a' -> a ++ r = a' ++ s -> N = N' /\ v = v' /\ r = s.
  Proof.
    intros N N' v v' a a' r s L L' F F' E E' H.
    assert (K : forall N v a, length v = N -> v_fmt N fmt v = Ok a -> a = "Vector" ++ nat_str N ++ "(" ++ String.concat ", " (map fmt v) ++ ")").
    { clear. intros N v a L E. destruct (@C18_format T N fmt v L) as (A & B). destruct N as [|n]. { rewrite (B eq_refl) in E. discriminate. }
      rewrite A in E by lia. apply Ok_inj in E. auto. }
    rewrite (K _ _ _ L E), (K _ _ _ L' E'), !app_str in H. apply app_inj in H. cbn [String.append] in H.
    apply nat_str_split in H; try nodigit. destruct H as (-> & H). injection H as H.
    destruct (@list_split v v' r s F F' (eq_trans L (eq_sym L')) H) as (-> & ->). auto.
  Qed.
  Theorem C111_vector_element : forall N show, (forall v, length v = N -> Forall P v -> v_fmt N fmt v = Ok (show v)) ->
    readable (fun v => length v = N /\ Forall P v) show.
  Proof.
    intros N show S v v' r s (L & F) (L' & F') _ _ E. destruct (@C111_vector N N v v' _ _ r s L L' F F' (S v L F) (S v' L' F') E) as (_ & A & B). auto.
  Qed.
  (** ** Complex numbers and quaternions *)
  Theorem C111_complex : forall a b a' b' t t' r s, P a -> P b -> P a' -> P b' -> c_fmt fmt (Cx a b) = Ok t -> c_fmt fmt (Cx a' b') = Ok t' ->
    t ++ r = t' ++ s -> Cx a b = Cx a' b' /\ r = s.
  Proof.
    intros a b a' b' t t' r s Pa Pb Pa' Pb' E E' H. rewrite (proj1 (C84_text fmt a b a a)) in E. rewrite (proj1 (C84_text fmt a' b' a a)) in E'. apply Ok_inj in E, E'. subst t t'.
    rewrite !app_str in H. apply app_inj in H.
    destruct (@list_split [a; b] [a'; b'] r s) as (Q & ->); auto. injection Q as -> ->. auto.
  Qed.
  Theorem C111_quaternion : forall a b c d a' b' c' d' t t' r s, P a -> P b -> P c -> P d -> P a' -> P b' -> P c' -> P d' ->
    q_fmt fmt (Qt a b c d) = Ok t -> q_fmt fmt (Qt a' b' c' d') = Ok t' -> t ++ r = t' ++ s -> Qt a b c d = Qt a' b' c' d' /\ r = s.
  Proof.
    intros a b c d a' b' c' d' t t' r s Pa Pb Pc Pd Pa' Pb' Pc' Pd' E E' H. rewrite (proj2 (C84_text fmt a b c d)) in E. rewrite (proj2 (C84_text fmt a' b' c' d')) in E'. apply Ok_inj in E, E'. subst t t'.
    rewrite !app_str in H. apply app_inj in H.
    destruct (@list_split [a; b; c; d] [a'; b'; c'; d'] r s) as (Q & ->); auto. injection Q as -> -> -> ->. auto.
  Qed.
  Theorem C111_complex_element : forall show, (forall z, P (re z) -> P (im z) -> c_fmt fmt z = Ok (show z)) -> readable (fun z => P (re z) /\ P (im z)) show.
  Proof.
    intros show S [a b] [a' b'] r s (Pa & Pb) (Pa' & Pb') _ _ E. cbn [re im] in *. eapply C111_complex; [| | | |apply S|apply S|exact E]; auto.
  Qed.
  Theorem C111_quaternion_element : forall show, (forall q, P (qw q) -> P (qx q) -> P (qy q) -> P (qz q) -> q_fmt fmt q = Ok (show q)) ->
    readable (fun q => P (qw q) /\ P (qx q) /\ P (qy q) /\ P (qz q)) show.
  Proof.
    intros show S [a b c d] [a' b' c' d'] r s (Pa & Pb & Pc & Pd) (Pa' & Pb' & Pc' & Pd') _ _ E. cbn [qw qx qy qz] in *.
    eapply C111_quaternion; [| | | | | | | |apply S|apply S|exact E]; auto.
  Qed.
  (** ** Matrices *)
  Lemma row_split : forall u u' r s, Forall P u -> Forall P u' -> length u = length u' ->
    String.concat "" (map (fun x => fmt x ++ ", ") u) ++ nl ++ r = String.concat "" (map (fun x => fmt x ++ ", ") u') ++ nl ++ s -> u = u' /\ r = s.
  Proof.
    assert (C : forall x l, String.concat "" (x :: l) = x ++ String.concat "" l). { intros x [|y l]; cbn; [rewrite app_nil|]; reflexivity. }
    induction u as [|x u IH]; intros [|y u'] r s F F' L E; try discriminate.
    - split; auto. cbn in E. congruence.
    - apply Forall_cons_iff in F as (Px & F). apply Forall_cons_iff in F' as (Py & F'). injection L as L. cbn [map] in E.
      rewrite !C, !app_str in E. destruct (@Hf x y _ _ Px Py (ends_comma _) (ends_comma _) E) as (-> & Q). apply app_inj in Q.
      destruct (IH u' r s F F' L Q) as (-> & ->). auto.
  Qed.
  Lemma rows_split : forall m m' r s, Forall (Forall P) m -> Forall (Forall P) m' -> length m = length m' -> (exists N, Forall (fun u => length u = N) m /\ Forall (fun u => length u = N) m') ->
    String.concat "" (map (fun u => "  " ++ String.concat "" (map (fun x => fmt x ++ ", ") u) ++ nl) m) ++ r =
    String.concat "" (map (fun u => "  " ++ String.concat "" (map (fun x => fmt x ++ ", ") u) ++ nl) m') ++ s -> m = m' /\ r = s.
  Proof.
    assert (C : forall x l, String.concat "" (x :: l) = x ++ String.concat "" l). { intros x [|y l]; cbn; [rewrite app_nil|]; reflexivity. }
    induction m as [|u m IH]; intros [|u' m'] r s F F' L (N & R & R') E; try discriminate; auto.
    apply Forall_cons_iff in F as (Px & F). apply Forall_cons_iff in F' as (Py & F'). apply Forall_cons_iff in R as (Lu & R). apply Forall_cons_iff in R' as (Lu' & R'). injection L as L.
    cbn [map] in E. rewrite !C, !app_str in E. apply app_inj in E. destruct (@row_split u u' _ _ Px Py (eq_trans Lu (eq_sym Lu')) E) as (-> & Q).
    destruct (IH m' r s F F' L) as (-> & ->); eauto.
  Qed.
  Theorem C111_matrix : forall M N M' N' m m' a a' r s, rect M N m -> rect M' N' m' -> Forall (Forall P) m -> Forall (Forall P) m' ->
    m_fmt M N fmt m = Ok a -> m_fmt M' N' fmt m' = Ok a' -> a ++ r = a' ++ s -> M = M' /\ N = N' /\ m = m' /\ r = s.
  Proof.
    intros M N M' N' m m' a a' r s R R' F F' E E' H. rewrite (@C35_format T fmt m M N R) in E. rewrite (@C35_format T fmt m' M' N' R') in E'. apply Ok_inj in E, E'. subst a a'.
    rewrite !app_str in H. apply app_inj in H. apply app_inj in H. cbn [String.append] in H.
    apply nat_str_split in H; try nodigit. destruct H as (-> & H). injection H as H.
    apply nat_str_split in H; try nodigit. destruct H as (-> & H). injection H as H.
    destruct R as (L & R), R' as (L' & R').
    destruct (@rows_split m m' (")" ++ nl ++ r) (")" ++ nl ++ s) F F' (eq_trans L (eq_sym L')) (ex_intro _ _ (conj R R')) H) as (-> & Q).
    apply app_inj in Q. apply app_inj in Q. auto.
  Qed.
  Theorem C111_matrix_element : forall M N show, (forall m, rect M N m -> Forall (Forall P) m -> m_fmt M N fmt m = Ok (show m)) ->
    readable (fun m => rect M N m /\ Forall (Forall P) m) show.
  Proof.
    intros M N show S m m' r s (R & F) (R' & F') _ _ E. destruct (@C111_matrix M N M N m m' _ _ r s R R' F F' (S m R F) (S m' R' F') E) as (_ & _ & A & B). auto.
  Qed.
End Elems.

(** ** Derived Debug of the transformations *)
Section Wrapped.
  (** A writer that appends to a string. *)
  Let out (s w : string) : res (string * bool) := Ok (w ++ s, true).
  Theorem C111_wrappers : forall a b w t,
    (shift_debug out (out a) w = Ok t -> shift_debug out (out b) w = Ok t -> a = b) /\
    (scale_debug out (out a) w = Ok t -> scale_debug out (out b) w = Ok t -> a = b) /\
    (linear_debug out (out a) w = Ok t -> linear_debug out (out b) w = Ok t -> a = b) /\
    (rotation2_debug out (out a) w = Ok t -> rotation2_debug out (out b) w = Ok t -> a = b) /\
    (rotation3_debug out (out a) w = Ok t -> rotation3_debug out (out b) w = Ok t -> a = b) /\
    (moebius_debug out (out a) w = Ok t -> moebius_debug out (out b) w = Ok t -> a = b).
  Proof.
    assert (R : forall a b c, a ++ c = b ++ c -> a = b).
    { assert (LA : forall a b, String.length (a ++ b) = (String.length a + String.length b)%nat) by (induction a; intros; cbn; auto).
      intros a b c. revert b. induction a as [|x a IH]; intros [|y b] H; auto.
      - exfalso. apply (f_equal String.length) in H. rewrite !LA in H. cbn in H. lia.
      - exfalso. apply (f_equal String.length) in H. rewrite !LA in H. cbn in H. lia.
      - cbn in H. injection H as -> H. f_equal. auto. }
    assert (D : forall n f a b w t, debug1 out n f (out a) w = Ok t -> debug1 out n f (out b) w = Ok t -> a = b).
    { intros n f a b w t. unfold debug1, and_then, out. cbn [bind]. intros E E'. rewrite <- E in E'. apply Ok_inj in E'. injection E' as E'. rewrite !app_str in E'.
      repeat apply app_inj in E'. symmetry. eapply R. exact E'. }
    intros. repeat split; apply D.
  Qed.
End Wrapped.

(** A chain, whose parts are printed readably, determines both parts. *)
Theorem C111_chain : forall A B (P : A -> Prop) (Q : B -> Prop) fa fb w t ph (out := fun (s w : string) => Ok (w ++ s, true)) x y x' y',
  readable P fa -> readable Q fb -> P x -> Q y -> P x' -> Q y' ->
  chain_debug out (out (fa x)) (out (fb y)) (out ph) w = Ok t -> chain_debug out (out (fa x')) (out (fb y')) (out ph) w = Ok t -> x = x' /\ y = y'.
Proof.
  intros A B P Q fa fb w t ph out x y x' y' Ra Rb Px Qy Px' Qy'. unfold chain_debug, and_then, out. cbn [bind]. intros E E'. rewrite <- E in E'. apply Ok_inj in E'. injection E' as E'.
  rewrite !app_str in E'. do 5 apply app_inj in E'. symmetry in E'.
  destruct (Ra x x' _ _ Px Px' (ends_comma _) (ends_comma _) E') as (-> & K). apply app_inj in K. apply app_inj in K. apply app_inj in K.
  destruct (Rb y y' _ _ Qy Qy' (ends_comma _) (ends_comma _) K) as (-> & _). auto.
Qed.

(** A vector of complex numbers with integer parts: the text of one such vector does not print any other; without the condition on
    the elements' texts it can: with a scalar printed as "1, 1" two different vectors look alike. *)
Example C111_ex : forall v v' s, length v = 2%nat -> length v' = 2%nat ->
  let show := fun z : complex nat => ("Complex(" ++ nat_str (re z) ++ ", " ++ nat_str (im z) ++ ")")%string in
  v_fmt 2 show v = Ok s -> v_fmt 2 show v' = Ok s -> v = v'.
Proof.
  intros v v' s L L' show E E'.
  assert (R : readable (fun z : complex nat => True /\ True) show).
  { apply (C111_complex_element C111_decimal). intros [a b] _ _. reflexivity. }
  assert (T : forall l : list (complex nat), Forall (fun z : complex nat => True /\ True) l) by (intros l; apply Forall_forall; auto).
  destruct (C111_vector R "" "" L L' (T v) (T v') E E' eq_refl) as (_ & H & _). exact H.
Qed.
Example C111_ex_ambiguous : let show := fun b : bool => if b then "1, 1" else "1" in
  v_fmt 2 show [true; false] = v_fmt 2 show [false; true].
Proof. reflexivity. Qed.
Example C111_ex_value : v_fmt 2 (fun z : complex nat => "Complex(" ++ nat_str (re z) ++ ", " ++ nat_str (im z) ++ ")") [Cx 1 23; Cx 4 5] = Ok "Vector2(Complex(1, 23), Complex(4, 5))".
Proof. reflexivity. Qed.

Print Assumptions C111_scalar.
Print Assumptions C111_decimal.
Print Assumptions C111_vector.
Print Assumptions C111_vector_element.
Print Assumptions C111_complex.
Print Assumptions C111_quaternion.
Print Assumptions C111_complex_element.
Print Assumptions C111_quaternion_element.
Print Assumptions C111_matrix.
Print Assumptions C111_matrix_element.
Print Assumptions C111_wrappers.
Print Assumptions C111_chain.
