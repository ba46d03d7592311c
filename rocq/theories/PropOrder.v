(** Property C07: [max], [min] and [norm_l_inf] when some values are incomparable (NaN); C36: [clamp] of floats. *)
From Coq Require Import ZArith SpecFloat Lia Permutation.
From Verif Require Import SpecFacts VFacts VecProofs MFacts MatProofs MathModel FloatInst.
Set Implicit Arguments.
Local Open Scope nat_scope.
Local Open Scope list_scope.

(* ------------------------------------------------------------------------- *)
(** * Specification                                                            *)

(** [<] as floats have it: [nan] elements are comparable with nothing, the others form a strict weak order. *)
Definition order_except {A : Type} (nan : A -> bool) (lt : A -> A -> bool) : Prop :=
  (forall x y, nan x = true \/ nan y = true -> lt x y = false) /\
  (forall x, lt x x = false) /\
  (forall x y z, lt x y = true -> lt y z = true -> lt x z = true) /\
  (forall x y z, nan y = false -> lt x y = false -> lt y z = false -> lt x z = false).

(** Equivalent: neither is less than the other. *)
Definition tied {A : Type} (lt : A -> A -> bool) (x y : A) : Prop := lt x y = false /\ lt y x = false.

Lemma sf_order : order_except is_nan SFltb.
Proof.
  split; [|split; [|split]].
  - intros x y [H|H]. { destruct x; try discriminate. reflexivity. } destruct y; try discriminate. apply SFltb_nan_r.
  - intros x. destruct (is_nan x) eqn:E. { destruct x; try discriminate. reflexivity. }
    apply SFltb_code_false; auto. unfold clt. destruct (code x) as [[a b] c]. lia.
  - intros x y z H1 H2. destruct (is_nan x) eqn:Ex; [destruct x; try discriminate|]. destruct (is_nan y) eqn:Ey; [destruct y; try discriminate|].
    destruct (is_nan z) eqn:Ez; [destruct z; try discriminate; rewrite SFltb_nan_r in H2; discriminate|].
    rewrite SFltb_code in * by auto. unfold clt in *. destruct (code x) as [[a b] c], (code y) as [[a' b'] c'], (code z) as [[a'' b''] c'']. lia.
  - intros x y z Ey H1 H2. destruct (is_nan x) eqn:Ex; [destruct x; try discriminate; reflexivity|].
    destruct (is_nan z) eqn:Ez; [destruct z; try discriminate; apply SFltb_nan_r|].
    rewrite SFltb_code_false in * by auto. unfold clt in *. destruct (code x) as [[a b] c], (code y) as [[a' b'] c'], (code z) as [[a'' b''] c'']. lia.
Qed.

(* ------------------------------------------------------------------------- *)
(** * C07                                                                      *)

Section Nan.
  Context {T : Type} (o : Ops T) (nan : T -> bool) (W : order_except nan (o_lt o)).

  (** [max]: a leading NaN is the result; otherwise NaNs are skipped and the result is a greatest of the
      remaining elements. *)
  Theorem C07_max : forall x t,
    (nan x = true -> v_max o (x :: t) = Ok x) /\
    (nan x = false -> v_max o (x :: t) = v_max o (x :: filter (fun y => negb (nan y)) t) /\
       exists m, v_max o (x :: t) = Ok m /\ In m (x :: t) /\ nan m = false /\ forall y, In y (x :: t) -> o_lt o m y = false).
  Proof.
    intros x t. destruct W as (Wn & Wi & Wt & Wg). split.
    - intros H. rewrite v_max_fold. f_equal. induction t as [|y t IH]; auto. cbn. rewrite Wn; auto.
    - intros H. split.
      + rewrite !v_max_fold. f_equal. revert x H. induction t as [|y t IH]; intros x H; auto. cbn. destruct (nan y) eqn:Ey; cbn.
        * rewrite Wn by auto. apply IH. auto.
        * destruct (o_lt o x y); apply IH; auto.
      + rewrite v_max_fold. eexists. split; [reflexivity|].
        assert (X : forall t x, nan x = false -> let m := fold_left (fun x y => if o_lt o x y then y else x) t x in
          In m (x :: t) /\ nan m = false /\ forall z, o_lt o x z = false \/ In z t -> o_lt o m z = false).
        { clear x t H. induction t as [|y t IH]; intros x H; cbn zeta; cbn [fold_left].
          - split; [left; auto|]. split; auto. intros z [Hz|[]]; auto.
          - destruct (o_lt o x y) eqn:E.
            + assert (Ny : nan y = false) by (destruct (nan y) eqn:Ny; auto; rewrite Wn in E; auto).
              destruct (IH y Ny) as (A & B & C). split; [right; exact A|]. split; auto. intros z [Hz|[<-|Hz]].
              * apply C. left. destruct (o_lt o y z) eqn:G; auto. rewrite (Wt _ _ _ E G) in Hz. discriminate.
              * apply C. left. apply Wi.
              * apply C. right. auto.
            + destruct (IH x H) as (A & B & C). split. { destruct A; [left; auto|right; right; auto]. } split; auto.
              intros z [Hz|[<-|Hz]]; apply C; auto. }
        destruct (X t x H) as (A & B & C). repeat split; auto. intros y [<-|Hy]; apply C; auto.
  Qed.

  (** [min]: a trailing NaN is the result; otherwise everything up to the last NaN is ignored and the result is a
      least of the elements behind it. *)
  Theorem C07_min : forall l1 n l2, nan n = true -> (forall y, In y l2 -> nan y = false) ->
    (l2 = [] -> v_min o (l1 ++ n :: l2) = Ok n) /\ (l2 <> [] -> v_min o (l1 ++ n :: l2) = v_min o l2).
  Proof.
    intros l1 n l2 Hn H2. destruct W as (Wn & _).
    assert (P : forall t x, fold_left (fun x y => if o_lt o x y then x else y) (t ++ n :: l2) x =
      fold_left (fun x y => if o_lt o x y then x else y) l2 n).
    { induction t as [|y t IH]; intros x; cbn [app fold_left]. - rewrite Wn; auto. - apply IH. }
    assert (Q : v_min o (l1 ++ n :: l2) = Ok (fold_left (fun x y => if o_lt o x y then x else y) l2 n)).
    { destruct l1 as [|x l1]; cbn [app]; rewrite v_min_fold; [reflexivity|]. f_equal. apply P. }
    rewrite Q. split.
    - intros ->. reflexivity.
    - destruct l2 as [|y l2]; [congruence|]. intros _. rewrite v_min_fold. cbn [fold_left]. rewrite Wn by auto. reflexivity.
  Qed.
  Theorem C07_min_numbers : forall v, v <> [] -> (forall y, In y v -> nan y = false) ->
    exists m, v_min o v = Ok m /\ In m v /\ forall y, In y v -> o_lt o y m = false.
  Proof.
    intros [|x t] NE H; [congruence|]. clear NE. destruct W as (Wn & Wi & Wt & Wg). rewrite v_min_fold. eexists. split; [reflexivity|].
    assert (X : forall t x, nan x = false -> (forall y, In y t -> nan y = false) -> let m := fold_left (fun x y => if o_lt o x y then x else y) t x in
      In m (x :: t) /\ forall z, o_lt o z x = false \/ In z t -> o_lt o z m = false).
    { clear x t H. induction t as [|y t IH]; intros x H Ht; cbn zeta; cbn [fold_left].
      - split; [left; auto|]. intros z [Hz|[]]; auto.
      - destruct (o_lt o x y) eqn:E.
        + destruct (IH x H) as (A & C). { intros; apply Ht; right; auto. } split. { destruct A; [left; auto|right; right; auto]. }
          intros z [Hz|[<-|Hz]]; apply C; auto. left. destruct (o_lt o y x) eqn:G; auto. pose proof (Wt _ _ _ E G) as K. rewrite Wi in K. discriminate.
        + destruct (IH y) as (A & C). { apply Ht; left; auto. } { intros; apply Ht; right; auto. } split; [right; exact A|].
          intros z [Hz|[<-|Hz]].
          * apply C. left. eapply Wg; eauto.
          * apply C. left. apply Wi.
          * apply C. right. auto. }
    destruct (X t x) as (A & C). { apply H; left; auto. } { intros; apply H; right; auto. } split; auto. intros y [<-|Hy]; apply C; auto.
  Qed.
  (** So: [max] is NaN exactly when the first element is, [min] exactly when the last one is. *)
  Theorem C07_nan_result : forall x t l y, 
    (exists m, v_max o (x :: t) = Ok m /\ nan m = nan x) /\ (exists m, v_min o (l ++ [y]) = Ok m /\ nan m = nan y).
  Proof.
    intros x t l y. split.
    - destruct (C07_max x t) as (A & B). destruct (nan x) eqn:E. { exists x. auto. } destruct (B eq_refl) as (_ & m & Em & _ & Hm & _). eauto.
    - destruct W as (Wn & Wi & Wt & Wg).
      assert (X : forall t x, fold_left (fun x y => if o_lt o x y then x else y) (t ++ [y]) x =
         let m := fold_left (fun x y => if o_lt o x y then x else y) t x in if o_lt o m y then m else y).
      { intros t' x'. rewrite fold_left_app. reflexivity. }
      destruct l as [|z l]; cbn [app]; rewrite v_min_fold. { eexists. split; reflexivity. }
      eexists. split; [reflexivity|]. rewrite X. cbn zeta. set (m := fold_left _ l z). destruct (o_lt o m y) eqn:E; auto.
      destruct (nan y) eqn:Ey. { rewrite Wn in E by auto. discriminate. } destruct (nan m) eqn:Em; auto. rewrite Wn in E by auto. discriminate.
  Qed.
End Nan.

(** Where [<] is a strict weak order the result does not depend on the order of the elements, up to ties. *)
Theorem C07_order_insensitive : forall T (o : Ops T) u v, strict_weak_order (o_lt o) -> Permutation u v -> u <> [] ->
  (exists a b, v_max o u = Ok a /\ v_max o v = Ok b /\ tied (o_lt o) a b) /\
  (exists a b, v_min o u = Ok a /\ v_min o v = Ok b /\ tied (o_lt o) a b).
Proof.
  intros T o u v W P NE. assert (NE' : v <> []). { intros ->. apply Permutation_sym, Permutation_nil in P. contradiction. }
  pose proof (Permutation_sym P) as P'.
  destruct (v_max_spec o u W) as (_ & A). destruct (v_max_spec o v W) as (_ & B). destruct (v_min_spec o u W) as (_ & C). destruct (v_min_spec o v W) as (_ & D).
  destruct (A NE) as (a & Ea & Ia & Ha). destruct (B NE') as (b & Eb & Ib & Hb). destruct (C NE) as (c & Ec & Ic & Hc). destruct (D NE') as (d & Ed & Id & Hd).
  split; [exists a, b|exists c, d]; repeat split; auto.
  - apply Ha. eapply Permutation_in; eauto.
  - apply Hb. eapply Permutation_in; eauto.
  - apply Hd. eapply Permutation_in; eauto.
  - apply Hc. eapply Permutation_in; eauto.
Qed.
Theorem C07_norm_order_insensitive : forall T (o : Ops T) (abs : T -> T) u v, strict_weak_order (o_lt o) -> Permutation u v -> u <> [] ->
  exists a b, v_norm_l_inf o (ok1 abs) u = Ok a /\ v_norm_l_inf o (ok1 abs) v = Ok b /\ tied (o_lt o) a b.
Proof.
  intros T o abs u v W P NE. unfold v_norm_l_inf. rewrite !v_map_pure. cbn [bind].
  apply C07_order_insensitive; auto. { apply Permutation_map. auto. } destruct u; [congruence|discriminate].
Qed.

(** With NaN it does depend on it, for f64 (and any other format): both for [max], [min] and [norm_l_inf]. *)
Definition f64 : Ops spec_float := sf_ops 53 1024 (fun x _ => x).
Definition one64 : spec_float := o_one f64.
Theorem C07_order_insensitive_refuted : exists u v, Permutation u v /\
  v_max f64 u = Ok S754_nan /\ v_max f64 v = Ok one64 /\
  v_min f64 u = Ok one64 /\ v_min f64 v = Ok S754_nan /\
  v_norm_l_inf f64 (ok1 SFabs) u = Ok S754_nan /\ v_norm_l_inf f64 (ok1 SFabs) v = Ok one64.
Proof. exists [S754_nan; one64], [one64; S754_nan]. split; [apply perm_swap|]. repeat split; vm_compute; reflexivity. Qed.
(** Nor are max and min then bounds of the comparable elements. *)
Theorem C07_not_extremal_refuted : exists v m, v_min f64 v = Ok m /\ exists y, In y v /\ SFltb y m = true.
Proof.
  exists [S754_zero false; S754_nan; one64], one64. split; [vm_compute; reflexivity|]. exists (S754_zero false). split; [left; reflexivity|vm_compute; reflexivity].
Qed.

(** Non-vacuity: the f64 order satisfies the hypothesis, and NaNs in the middle really are skipped by [max]. *)
Example C07_witness : order_except is_nan (o_lt f64) /\
  v_max f64 [S754_zero true; S754_nan; one64; S754_nan] = Ok one64 /\ v_min f64 [S754_zero true; S754_nan; one64] = Ok one64.
Proof. split; [exact sf_order|]. split; vm_compute; reflexivity. Qed.

(* ------------------------------------------------------------------------- *)
(** * [clamp] of floats                                                        *)

(** [f64::max]: the other argument if one is NaN, otherwise an argument below neither (which zero is returned for
    [max(-0, 0)] is not promised).  [f64::min] the same with the order reversed. *)
Definition float_max {A : Type} (nan : A -> bool) (lt : A -> A -> bool) (mx : A -> A -> A) : Prop :=
  forall x y,
    (nan x = true -> nan y = false -> mx x y = y) /\ (nan x = false -> nan y = true -> mx x y = x) /\
    (nan x = true -> nan y = true -> nan (mx x y) = true) /\
    (nan x = false -> nan y = false -> (mx x y = x \/ mx x y = y) /\ lt (mx x y) x = false /\ lt (mx x y) y = false).
Definition float_min {A : Type} (nan : A -> bool) (lt : A -> A -> bool) (mn : A -> A -> A) : Prop :=
  float_max nan (fun x y => lt y x) mn.

(** What a component [z] of the result is, given the component [s] and the bounds [x], [y]: between the bounds when these
    are in order; [s] itself if that is between them; the nearer bound otherwise; the {e lower} bound if [s] is NaN; and
    the upper bound whenever the bounds are not in order ([f64::clamp] would panic instead). *)
Definition clamped {A : Type} (nan : A -> bool) (lt : A -> A -> bool) (s x y z : A) : Prop :=
  nan z = false /\
  (lt y x = true -> tied lt z y) /\
  (lt y x = false ->
     lt z x = false /\ lt y z = false /\
     (nan s = true -> tied lt z x) /\ (lt s x = true -> tied lt z x) /\ (lt y s = true -> tied lt z y) /\
     (nan s = false -> lt s x = false -> lt y s = false -> tied lt z s)).

Lemma clamp_scalar : forall A (nan : A -> bool) lt mn mx, order_except nan lt -> float_min nan lt mn -> float_max nan lt mx ->
  forall s x y, nan x = false -> nan y = false -> clamped nan lt s x y (mn (mx s x) y).
Proof.
  intros A nan lt mn mx (On & Oi & Ot & Oc) Hn Hx s x y Nx Ny.
  (* the inner maximum is a number, and tied with s or x *)
  assert (K : exists w, mx s x = w /\ nan w = false /\ lt w x = false /\
            (nan s = true -> w = x) /\ (nan s = false -> lt w s = false /\ (w = s \/ w = x))).
  { destruct (Hx s x) as (X1 & _ & _ & X4). destruct (nan s) eqn:Es.
    - exists x. rewrite X1 by auto. repeat split; auto; discriminate.
    - destruct (X4 eq_refl Nx) as (C & L1 & L2). exists (mx s x). repeat split; auto; try discriminate.
      destruct C as [-> | ->]; auto. }
  destruct K as (w & -> & Nw & Wx & W1 & W2).
  destruct (Hn w y) as (_ & _ & _ & Y4). destruct (Y4 Nw Ny) as (C & L1 & L2). cbn beta in L1, L2.
  set (z := mn w y) in *. assert (Nz : nan z = false) by (destruct C as [-> | ->]; auto).
  assert (Asym : forall p q, lt p q = true -> lt q p = false).
  { intros p q H. destruct (lt q p) eqn:E; auto. specialize (Ot p q p H E). rewrite Oi in Ot. discriminate. }
  split; [exact Nz|]. split.
  - intros B. split; [|exact L2]. destruct (lt z y) eqn:E; auto. destruct C as [Cz | Cz]; rewrite Cz in *.
    + (* w < y < x contradicts w >= x *) rewrite (Ot w y x E B) in Wx. discriminate.
    + rewrite Oi in E. discriminate.
  - intros B.
    assert (Zx : lt z x = false). { destruct C as [-> | ->]; auto. }
    split; [exact Zx|]. split; [exact L2|].
    assert (T1 : w = x -> tied lt z x). { intros ->. split; auto. }
    split; [intros Ns; apply T1; auto|]. split.
    + intros Sx. apply T1. assert (Ns : nan s = false) by (destruct (nan s) eqn:E; auto; rewrite On in Sx; auto).
      destruct (W2 Ns) as (_ & [-> | ->]); auto. rewrite Wx in Sx. discriminate.
    + split.
      * intros Ys. assert (Ns : nan s = false) by (destruct (nan s) eqn:E; auto; rewrite On in Ys; auto).
        destruct (W2 Ns) as (Ws & _). assert (Yw : lt y w = true).
        { destruct (lt y w) eqn:E; auto. rewrite (Oc y w s Nw E Ws) in Ys. discriminate. }
        destruct C as [Cz | Cz]; rewrite Cz in *. { rewrite L2 in Yw. discriminate. } split; apply Oi.
      * intros Ns Sx Ys. destruct (W2 Ns) as (Ws & D).
        assert (Sw : lt s w = false). { destruct D as [-> | ->]; auto. }
        assert (Yw : lt y w = false) by (apply (Oc y s w Ns); auto).
        assert (Wz : lt z w = false). { destruct C as [-> | ->]; auto. }
        split; [apply (Oc z w s Nw); auto|]. apply (Oc s w z Nw); auto.
Qed.

Theorem C36_clamp_floats : forall A (nan : A -> bool) lt mn mx, order_except nan lt -> float_min nan lt mn -> float_max nan lt mx ->
  forall N v a b, length v = N -> length a = N -> length b = N ->
  exists r, v_clamp N mn mx v (Ok a) (Ok b) = Ok r /\ length r = N /\
    forall i s x y, nth_error v i = Some s -> nth_error a i = Some x -> nth_error b i = Some y -> nan x = false -> nan y = false ->
      exists z, nth_error r i = Some z /\ clamped nan lt s x y z.
Proof.
  intros A nan lt mn mx O Hn Hx N v a b Lv La Lb.
  destruct (v_fun_spec (fun x => x) (fun x _ => x) (fun s a b => mn (mx s a) b) v a b Lv La Lb) as (r1 & r2 & r3 & _ & _ & E & _ & _ & L & S).
  exists r3. split; [exact E|]. split; [exact L|]. intros i s x y Hs Ha Hb Nx Ny. destruct (S i s x y Hs Ha Hb) as (_ & _ & S3).
  eexists. split; [exact S3|]. apply clamp_scalar; auto.
Qed.
Theorem C36_clamp_floats_matrix : forall A (nan : A -> bool) lt mn mx, order_except nan lt -> float_min nan lt mn -> float_max nan lt mx ->
  forall M N m a b, rect M N m -> rect M N a -> rect M N b ->
  exists r, m_clamp M N mn mx m (Ok a) (Ok b) = Ok r /\ rect M N r /\
    forall i j s x y, elt m i j = Some s -> elt a i j = Some x -> elt b i j = Some y -> nan x = false -> nan y = false ->
      exists z, elt r i j = Some z /\ clamped nan lt s x y z.
Proof.
  intros A nan lt mn mx O Hn Hx M N m a b Rm Ra Rb.
  destruct (m_fun_spec (fun x => x) (fun x _ => x) (fun s a b => mn (mx s a) b) Rm Ra Rb) as (r1 & r2 & r3 & _ & _ & E & _ & _ & L & S).
  exists r3. split; [exact E|]. split; [exact L|]. intros i j s x y Hs Ha Hb Nx Ny. destruct (S i j s x y Hs Ha Hb) as (_ & _ & S3).
  eexists. split; [exact S3|]. apply clamp_scalar; auto.
Qed.

(** The contracts are met by IEEE floats, and the cases occur: inside, below, NaN, bounds out of order. *)
Definition sf_max (x y : spec_float) : spec_float := if is_nan x then y else if SFltb x y then y else x.
Definition sf_min (x y : spec_float) : spec_float := if is_nan x then y else if SFltb y x then y else x.
Example C36_clamp_floats_example :
  float_max is_nan SFltb sf_max /\ float_min is_nan SFltb sf_min /\
  (let z := S754_zero false in let i := S754_infinity false in
   v_clamp 4 sf_min sf_max [one64; SFopp i; S754_nan; one64] (Ok [z; z; one64; i]) (Ok [i; i; i; z]) = Ok [one64; z; one64; z]).
Proof.
  assert (Asym : forall x y, SFltb x y = true -> SFltb y x = false).
  { destruct sf_order as (_ & Oi & Ot & _). intros x y H. destruct (SFltb y x) eqn:E; auto. specialize (Ot x y x H E). rewrite Oi in Ot. discriminate. }
  destruct sf_order as (On & Oi & _ & _).
  split; [|split; [|vm_compute; reflexivity]]; intros x y; unfold sf_max, sf_min; (split; [|split; [|split]]); intros Nx Ny; rewrite Nx; auto.
  - rewrite On; auto.
  - destruct (SFltb x y) eqn:E; auto.
  - rewrite On; auto.
  - destruct (SFltb y x) eqn:E; auto.
Qed.

Print Assumptions C07_max.
Print Assumptions C07_min.
Print Assumptions C07_min_numbers.
Print Assumptions C07_nan_result.
Print Assumptions C07_order_insensitive.
Print Assumptions C07_norm_order_insensitive.
Print Assumptions C07_order_insensitive_refuted.
Print Assumptions C07_not_extremal_refuted.
Print Assumptions C36_clamp_floats.
Print Assumptions C36_clamp_floats_matrix.
