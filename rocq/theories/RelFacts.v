(** A relation between two runs of the crate's generic code on two scalar types: if the scalar operations are
    related, so are the results.  Used for C70 - C72. *)
From Coq Require Import ZArith Lia.
From Verif Require Import SpecFacts VFacts VecProofs MFacts MatProofs AlgFacts ComplexModel MoebiusModel TransformModel.
Set Implicit Arguments.
Local Open Scope nat_scope.
Local Open Scope list_scope.

(** [strict = true]: both return related values, or both fail alike.
    [strict = false]: if the first returns, so does the second, with related values. *)
Definition rrel (strict : bool) {A B : Type} (R : A -> B -> Prop) (a : res A) (b : res B) : Prop :=
  match a, b with
  | Ok x, Ok y => R x y
  | Ok _, _ => False
  | Panic, Panic => True
  | UB, UB => True
  | Fuel, Fuel => True
  | _, _ => strict = false
  end.

(** Vectors and matrices of related components. *)
Definition vrel (N : nat) {A B : Type} (R : A -> B -> Prop) (u : list A) (v : list B) : Prop := length u = N /\ Forall2 R u v.
Definition mrel (M N : nat) {A B : Type} (R : A -> B -> Prop) (a : list (list A)) (b : list (list B)) : Prop :=
  vrel M (vrel N R) a b.
Definition crel {A B : Type} (R : A -> B -> Prop) (a : complex A) (b : complex B) : Prop := R (re a) (re b) /\ R (im a) (im b).
Definition qrel {A B : Type} (R : A -> B -> Prop) (a : quat A) (b : quat B) : Prop :=
  R (qw a) (qw b) /\ R (qx a) (qx b) /\ R (qy a) (qy b) /\ R (qz a) (qz b).
Definition prel {A B A' B' : Type} (R : A -> A' -> Prop) (S : B -> B' -> Prop) (p : A * B) (q : A' * B') : Prop :=
  R (fst p) (fst q) /\ S (snd p) (snd q).

Lemma Forall2_len : forall A B (R : A -> B -> Prop) u v, Forall2 R u v -> length u = length v.
Proof. intros. induction H; cbn; auto. Qed.
Lemma vrel_length : forall N A B (R : A -> B -> Prop) u v, vrel N R u v -> length u = N /\ length v = N.
Proof. intros N A B R u v (L & F). split; auto. rewrite <- L. symmetry. eapply Forall2_len; eauto. Qed.
Lemma mrel_rect : forall M N A B (R : A -> B -> Prop) a b, mrel M N R a b -> rect M N a /\ rect M N b.
Proof.
  intros M N A B R a b (L & F). revert M L. induction F as [|x y a b (Lx & Hxy) F IH]; intros M L.
  - destruct M; [|discriminate]. split; split; auto.
  - destruct M as [|M]; [discriminate|]. destruct (IH M) as (Ra & Rb). { cbn in L. lia. }
    split; apply rect_cons; split; auto. apply Forall2_len in Hxy. congruence.
Qed.
Lemma Forall2_nth : forall A B (R : A -> B -> Prop) u v, length u = length v ->
  (forall i x y, nth_error u i = Some x -> nth_error v i = Some y -> R x y) -> Forall2 R u v.
Proof.
  intros A B R u. induction u as [|x u IH]; intros [|y v] L H; try discriminate; constructor.
  - apply (H 0); reflexivity.
  - apply IH. { cbn in L. lia. } intros i. apply (H (S i)).
Qed.
Lemma Forall2_nth_inv : forall A B (R : A -> B -> Prop) u v i x y, Forall2 R u v ->
  nth_error u i = Some x -> nth_error v i = Some y -> R x y.
Proof.
  intros A B R u v i x y H. revert i. induction H; intros [|i] E1 E2; try discriminate; cbn in *.
  - congruence.
  - eauto.
Qed.
Lemma mrel_elt : forall M N A B (R : A -> B -> Prop) a b, rect M N a -> rect M N b ->
  (forall i j x y, elt a i j = Some x -> elt b i j = Some y -> R x y) -> mrel M N R a b.
Proof.
  intros M N A B R a b (La & Fa) (Lb & Fb) H. split; auto. apply Forall2_nth; [congruence|]. intros i x y E1 E2.
  pose proof (nth_error_Forall Fa E1) as Lx. pose proof (nth_error_Forall Fb E2) as Ly. cbn in Lx, Ly. split; auto.
  apply Forall2_nth; [congruence|]. intros j s t E3 E4. apply (H i j); unfold elt; [rewrite E1|rewrite E2]; auto.
Qed.
Lemma mrel_elt_inv : forall M N A B (R : A -> B -> Prop) a b i j x y, mrel M N R a b ->
  elt a i j = Some x -> elt b i j = Some y -> R x y.
Proof.
  intros M N A B R a b i j x y (_ & F) E1 E2. unfold elt in *. destruct (nth_error a i) eqn:Ea; [|discriminate]. destruct (nth_error b i) eqn:Eb; [|discriminate].
  destruct (Forall2_nth_inv _ F Ea Eb) as (_ & G). eapply Forall2_nth_inv; eauto.
Qed.

Section Rel.
  Context (strict : bool).
  Local Notation rr := (rrel strict).

  Lemma rr_bind : forall A B A' B' (R : A -> B -> Prop) (S : A' -> B' -> Prop) a b f g,
    rr R a b -> (forall x y, R x y -> rr S (f x) (g y)) -> rr S (bind a f) (bind b g).
  Proof.
    intros A B A' B' R S a b f g H K. destruct a; destruct b; cbn in H |- *; try contradiction; auto; try (destruct (g a); auto).
  Qed.
  Lemma rr_mono : forall A B (R S : A -> B -> Prop) a b, rr R a b -> (forall x y, R x y -> S x y) -> rr S a b.
  Proof. intros A B R S a b H K. destruct a, b; cbn in *; auto. Qed.
  Lemma rr_lift2 : forall A B C A' B' C' (R : A -> A' -> Prop) (S : B -> B' -> Prop) (Q : C -> C' -> Prop) f g a a' b b',
    rr R a a' -> rr S b b' -> (forall x x' y y', R x x' -> S y y' -> rr Q (f x y) (g x' y')) -> rr Q (lift2 f a b) (lift2 g a' b').
  Proof. intros. eapply rr_bind; eauto. intros. eapply rr_bind; eauto. Qed.

  Lemma rr_map_res : forall A B A' B' (R : A -> A' -> Prop) (S : B -> B' -> Prop) f g l l',
    Forall2 R l l' -> (forall x y, R x y -> rr S (f x) (g y)) -> rr (Forall2 S) (map_res f l) (map_res g l').
  Proof.
    intros A B A' B' R S f g l l' H K. induction H as [|x y l l' Hxy H IH]; cbn [map_res]. { constructor. }
    eapply rr_bind; [apply K; exact Hxy|]. intros. eapply rr_bind; [exact IH|]. intros. constructor; auto.
  Qed.
  Lemma rr_map2_res : forall A B C A' B' C' (R : A -> A' -> Prop) (S : B -> B' -> Prop) (Q : C -> C' -> Prop) f g u u' v v',
    Forall2 R u u' -> Forall2 S v v' -> (forall x x' y y', R x x' -> S y y' -> rr Q (f x y) (g x' y')) ->
    rr (Forall2 Q) (map2_res f u v) (map2_res g u' v').
  Proof.
    intros A B C A' B' C' R S Q f g u u' v v' H. revert v v'. induction H as [|x x' u u' Hx H IH]; intros v v' Hv K.
    { destruct Hv; cbn; constructor. }
    destruct Hv as [|y y' v v' Hy Hv]; cbn [map2_res]. { constructor. }
    eapply rr_bind; [apply K; eauto|]. intros. eapply rr_bind; [apply IH; eauto|]. intros. constructor; auto.
  Qed.
  Lemma rr_fold_res : forall A B A' B' (R : A -> A' -> Prop) (S : B -> B' -> Prop) f g s s' l l',
    S s s' -> Forall2 R l l' -> (forall s s' x x', S s s' -> R x x' -> rr S (f s x) (g s' x')) ->
    rr S (fold_res f s l) (fold_res g s' l').
  Proof.
    intros A B A' B' R S f g s s' l l' Hs H K. revert s s' Hs. induction H as [|x y l l' Hxy H IH]; intros s s' Hs; cbn [fold_res]. { exact Hs. }
    eapply rr_bind; [apply K; eauto|]. intros. apply IH. auto.
  Qed.
  Lemma rr_index : forall A B (R : A -> B -> Prop) u v i, Forall2 R u v -> rr R (index u i) (index v i).
  Proof.
    intros A B R u v i H. unfold index. destruct (nth_error u i) eqn:E1, (nth_error v i) eqn:E2; cbn; auto.
    - eapply Forall2_nth_inv; eauto.
    - apply nth_error_None in E2. rewrite <- (Forall2_len H) in E2. apply nth_error_None in E2. congruence.
    - apply nth_error_None in E1. rewrite (Forall2_len H) in E1. apply nth_error_None in E1. congruence.
  Qed.

  (* ------------------------------------------------------------------------- *)
  (** Vector and matrix combinators *)
  Section Comb.
    Context {A B C A' B' C' : Type} (R : A -> A' -> Prop) (S : B -> B' -> Prop) (Q : C -> C' -> Prop).
    Lemma rr_v_map : forall N f g u u', vrel N R u u' -> (forall x y, R x y -> rr S (f x) (g y)) -> rr (vrel N S) (v_map f u) (v_map g u').
    Proof.
      intros N f g u u' (L & F) K. rewrite !v_map_res. pose proof (@rr_map_res _ _ _ _ R S f g u u' F K) as X.
      pose proof (@map_res_length _ _ f u) as Y. destruct (map_res f u) as [r| | |]; auto. destruct (map_res g u'); auto.
      split; auto. rewrite <- L. apply Y. reflexivity.
    Qed.
    Lemma rr_v_zip_map : forall N f g u u' v v', vrel N R u u' -> vrel N S v v' ->
      (forall x x' y y', R x x' -> S y y' -> rr Q (f x y) (g x' y')) -> rr (vrel N Q) (v_zip_map N f u v) (v_zip_map N g u' v').
    Proof.
      intros N f g u u' v v' Hu Hv K. destruct (vrel_length Hu) as (L1 & L2). destruct (vrel_length Hv) as (L3 & L4).
      rewrite !v_zip_map_res by auto. destruct Hu as (_ & Fu). destruct Hv as (_ & Fv).
      pose proof (@rr_map2_res _ _ _ _ _ _ R S Q f g u u' v v' Fu Fv K) as X. pose proof (@map2_res_length _ _ _ f u v) as Y.
      destruct (map2_res f u v) as [r| | |]; auto. destruct (map2_res g u' v'); auto. split; auto. rewrite (Y r) by congruence. congruence.
    Qed.
    Lemma rr_m_map : forall M N f g a a', mrel M N R a a' -> (forall x y, R x y -> rr S (f x) (g y)) -> rr (mrel M N S) (m_map f a) (m_map g a').
    Proof.
      intros M N f g a a' H K. pose proof (@m_map_res A B f a) as E1. pose proof (@m_map_res A' B' g a') as E2. rewrite E1, E2. clear E1 E2.
      destruct H as (L & F).
      assert (X : rr (Forall2 (vrel N S)) (map_res (map_res f) a) (map_res (map_res g) a')).
      { eapply rr_map_res; [exact F|]. intros r r' Hr. rewrite <- !v_map_res. clear L F.
        destruct Hr as (L & F). rewrite !v_map_res. pose proof (@rr_map_res _ _ _ _ R S f g r r' F K) as X.
        pose proof (@map_res_length _ _ f r) as Y. destruct (map_res f r) as [w| | |]; auto. destruct (map_res g r'); auto.
        split; auto. rewrite <- L. apply Y. reflexivity. }
      pose proof (@map_res_length _ _ (map_res f) a) as Y. destruct (map_res (map_res f) a) as [w| | |]; auto. destruct (map_res (map_res g) a'); auto.
      split; auto. rewrite <- L. apply Y. reflexivity.
    Qed.
    Lemma rr_m_zip_map : forall M N f g a a' b b', mrel M N R a a' -> mrel M N S b b' ->
      (forall x x' y y', R x x' -> S y y' -> rr Q (f x y) (g x' y')) -> rr (mrel M N Q) (m_zip_map M N f a b) (m_zip_map M N g a' b').
    Proof.
      intros M N f g a a' b b' Ha Hb K. destruct (mrel_rect Ha) as (R1 & R2). destruct (mrel_rect Hb) as (R3 & R4).
      rewrite !m_zip_map_res by auto. destruct Ha as (La & Fa), Hb as (Lb & Fb).
      assert (X : rr (Forall2 (vrel N Q)) (map2_res (map2_res f) a b) (map2_res (map2_res g) a' b')).
      { eapply rr_map2_res; [exact Fa|exact Fb|]. intros x x' y y' (Lx & Fx) (Ly & Fy).
        pose proof (@rr_map2_res _ _ _ _ _ _ R S Q f g x x' y y' Fx Fy K) as X. pose proof (@map2_res_length _ _ _ f x y) as Y.
        destruct (map2_res f x y) as [r| | |]; auto. destruct (map2_res g x' y'); auto. split; auto. rewrite (Y r) by congruence. congruence. }
      pose proof (@map2_res_length _ _ _ (map2_res f) a b) as Y.
      destruct (map2_res (map2_res f) a b) as [r| | |]; auto. destruct (map2_res (map2_res g) a' b'); auto. split; auto. rewrite (Y r) by congruence. congruence.
    Qed.
    Lemma rr_m_transpose : forall M N a a', mrel M N R a a' -> rr (mrel N M R) (m_transpose M N a) (m_transpose M N a').
    Proof.
      intros M N a a' H. destruct (mrel_rect H) as (R1 & R2).
      destruct (m_transpose_spec R1) as (t & -> & Rt & E). destruct (m_transpose_spec R2) as (t' & -> & Rt' & E').
      cbn. apply mrel_elt; auto. intros j i x y. rewrite E, E'. eapply mrel_elt_inv; eauto.
    Qed.
    Lemma rr_m_index : forall M N a a' i j, mrel M N R a a' -> rr R (m_index a (i, j)) (m_index a' (i, j)).
    Proof.
      intros M N a a' i j (_ & F). unfold m_index, v_index. cbn [fst snd]. eapply rr_bind; [apply rr_index; exact F|].
      intros x y (_ & G). apply rr_index. auto.
    Qed.
    Lemma rr_m_row : forall M N a a' i, mrel M N R a a' -> rr (vrel N R) (m_row a i) (m_row a' i).
    Proof. intros M N a a' i (_ & F). apply rr_index. auto. Qed.
    Lemma rr_v_index : forall N a a' i, vrel N R a a' -> rr R (v_index a i) (v_index a' i).
    Proof. intros N a a' i (_ & F). apply rr_index. auto. Qed.
  End Comb.

  Lemma vrel_refl : forall A N (l : list A), length l = N -> vrel N eq l l.
  Proof. intros A N l L. split; auto. clear L. induction l; constructor; auto. Qed.
  Lemma mrel_refl : forall A M N (m : list (list A)), rect M N m -> mrel M N eq m m.
  Proof. intros. apply mrel_elt; auto. intros. congruence. Qed.
  Lemma rr_m_col : forall A A' (R : A -> A' -> Prop) M N a a' j, mrel M N R a a' -> rr (vrel M R) (m_col M a j) (m_col M a' j).
  Proof.
    intros A A' R M N a a' j H. unfold m_col. rewrite v_indices_seq. cbn [bind].
    apply rr_v_map with (R := eq). { apply vrel_refl. apply seq_length. } intros x y <-. eapply rr_m_index; eauto.
  Qed.
  Lemma rr_v_fold_first : forall A A' (R : A -> A' -> Prop) N f g u u', vrel N R u u' ->
    (forall x x' y y', R x x' -> R y y' -> rr R (f x y) (g x' y')) -> rr R (v_fold_first f u) (v_fold_first g u').
  Proof.
    intros A A' R N f g u u' (_ & F) K. destruct F as [|x y u u' Hxy F]; [exact I|].
    rewrite !v_fold_first_cons. eapply rr_fold_res; eauto.
  Qed.
  Lemma rr_m_fold_first : forall A A' (R : A -> A' -> Prop) M N f g a a', mrel M N R a a' ->
    (forall x x' y y', R x x' -> R y y' -> rr R (f x y) (g x' y')) -> rr R (m_fold_first f a) (m_fold_first g a').
  Proof.
    intros A A' R M N f g a a' (_ & F) K. unfold m_fold_first. destruct F as [|r r' a a' Hr F]; [exact I|].
    cbn [list_next bind unwrap]. eapply rr_bind. { eapply rr_v_fold_first; eauto. }
    intros s s' Hs. eapply rr_fold_res; eauto. intros t t' x x' Ht (_ & Hx). unfold v_fold. eapply rr_fold_res; eauto.
  Qed.
  Lemma vrel_const : forall A A' (R : A -> A' -> Prop) N x y, R x y -> rr (vrel N R) (v_init_const N (Ok x)) (v_init_const N (Ok y)).
  Proof.
    intros. rewrite !v_init_const_repeat. split; [apply repeat_length|]. induction N; constructor; auto.
  Qed.
  Lemma mrel_const : forall A A' (R : A -> A' -> Prop) M N x y, R x y -> rr (mrel M N R) (m_init_const M N (Ok x)) (m_init_const M N (Ok y)).
  Proof.
    intros. rewrite !m_init_const_mk. apply mrel_elt; try apply rect_mk. intros i j s t. rewrite !elt_mk.
    destruct ((i <? M) && (j <? N)); congruence.
  Qed.
  Lemma rr_prel : forall A B A' B' (R : A -> A' -> Prop) (S : B -> B' -> Prop) x x' y y', R x x' -> S y y' -> rr (prel R S) (Ok (x, y)) (Ok (x', y')).
  Proof. intros. split; auto. Qed.
End Rel.

(* ------------------------------------------------------------------------- *)
(** * Related scalar operations                                                *)

(** The ring operations. *)
Record OpsRel (strict : bool) {T U : Type} (R : T -> U -> Prop) (o : Ops T) (o' : Ops U) : Prop := mkOpsRel {
  or_zero : R (o_zero o) (o_zero o');
  or_one : R (o_one o) (o_one o');
  or_add : forall x x' y y', R x x' -> R y y' -> rrel strict R (o_add o x y) (o_add o' x' y');
  or_sub : forall x x' y y', R x x' -> R y y' -> rrel strict R (o_sub o x y) (o_sub o' x' y');
  or_mul : forall x x' y y', R x x' -> R y y' -> rrel strict R (o_mul o x y) (o_mul o' x' y');
  or_neg : forall x x', R x x' -> rrel strict R (o_neg o x) (o_neg o' x')
}.
(** Division. *)
Definition DivRel (strict : bool) {T U : Type} (R : T -> U -> Prop) (o : Ops T) (o' : Ops U) : Prop :=
  forall x x' y y', R x x' -> R y y' -> rrel strict R (o_div o x y) (o_div o' x' y').
Definition RemRel (strict : bool) {T U : Type} (R : T -> U -> Prop) (o : Ops T) (o' : Ops U) : Prop :=
  forall x x' y y', R x x' -> R y y' -> rrel strict R (o_rem o x y) (o_rem o' x' y').

Section OpsRel.
  Context (strict : bool) {T U : Type} (R : T -> U -> Prop) (o : Ops T) (o' : Ops U) (P : OpsRel strict R o o').
  Local Notation rr := (rrel strict).
  Let Pz := or_zero P. Let P1 := or_one P. Let Pa := or_add P. Let Ps := or_sub P. Let Pm := or_mul P. Let Pn := or_neg P.

  Lemma rr_v_zero : forall N, rr (vrel N R) (v_zero o N) (v_zero o' N).
  Proof. intros. apply vrel_const. exact Pz. Qed.
  Lemma rr_v_add : forall N u u' v v', vrel N R u u' -> vrel N R v v' -> rr (vrel N R) (v_add o N u v) (v_add o' N u' v').
  Proof. intros. eapply rr_v_zip_map; eauto. Qed.
  Lemma rr_v_sub : forall N u u' v v', vrel N R u u' -> vrel N R v v' -> rr (vrel N R) (v_sub o N u v) (v_sub o' N u' v').
  Proof. intros. eapply rr_v_zip_map; eauto. Qed.
  Lemma rr_v_mul : forall N u u' v v', vrel N R u u' -> vrel N R v v' -> rr (vrel N R) (v_mul o N u v) (v_mul o' N u' v').
  Proof. intros. eapply rr_v_zip_map; eauto. Qed.
  Lemma rr_v_neg : forall N u u', vrel N R u u' -> rr (vrel N R) (v_neg o u) (v_neg o' u').
  Proof. intros. eapply rr_v_map; eauto. Qed.
  Lemma rr_v_smul : forall N u u' s s', vrel N R u u' -> R s s' -> rr (vrel N R) (v_smul o u s) (v_smul o' u' s').
  Proof. intros. eapply rr_v_map; eauto. Qed.
  Lemma rr_v_sum : forall N u u', vrel N R u u' -> rr R (v_sum o u) (v_sum o' u').
  Proof. intros. eapply rr_v_fold_first; eauto. Qed.
  Lemma rr_v_dot : forall N u u' v v', vrel N R u u' -> vrel N R v v' -> rr R (v_dot o N u v) (v_dot o' N u' v').
  Proof. intros. unfold v_dot. eapply rr_bind; [apply rr_v_mul; eauto|]. intros. eapply rr_v_sum; eauto. Qed.
  Lemma rr_v_square_length : forall N u u', vrel N R u u' -> rr R (v_square_length o u) (v_square_length o' u').
  Proof. intros. unfold v_square_length. eapply rr_bind; [eapply rr_v_map; eauto|]. intros. eapply rr_v_sum; eauto. Qed.
  Lemma rr_v_iter_sum : forall N l l', Forall2 (vrel N R) l l' -> rr (vrel N R) (v_iter_sum o N l) (v_iter_sum o' N l').
  Proof. intros. unfold v_iter_sum. eapply rr_bind; [apply rr_v_zero|]. intros. eapply rr_fold_res; eauto. intros. apply rr_v_add; auto. Qed.
  Lemma rr_v_iter_product : forall N l l', Forall2 (vrel N R) l l' -> rr (vrel N R) (v_iter_product o N l) (v_iter_product o' N l').
  Proof. intros. unfold v_iter_product. eapply rr_bind; [apply vrel_const; exact P1|]. intros. eapply rr_fold_res; eauto. intros. apply rr_v_mul; auto. Qed.

  Lemma rr_m_zero : forall M N, rr (mrel M N R) (m_zero o M N) (m_zero o' M N).
  Proof. intros. apply mrel_const. exact Pz. Qed.
  Lemma rr_m_add : forall M N a a' b b', mrel M N R a a' -> mrel M N R b b' -> rr (mrel M N R) (m_add o M N a b) (m_add o' M N a' b').
  Proof. intros. eapply rr_m_zip_map; eauto. Qed.
  Lemma rr_m_sub : forall M N a a' b b', mrel M N R a a' -> mrel M N R b b' -> rr (mrel M N R) (m_sub o M N a b) (m_sub o' M N a' b').
  Proof. intros. eapply rr_m_zip_map; eauto. Qed.
  Lemma rr_m_mul : forall M N a a' b b', mrel M N R a a' -> mrel M N R b b' -> rr (mrel M N R) (m_mul o M N a b) (m_mul o' M N a' b').
  Proof. intros. eapply rr_m_zip_map; eauto. Qed.
  Lemma rr_m_neg : forall M N a a', mrel M N R a a' -> rr (mrel M N R) (m_neg o a) (m_neg o' a').
  Proof. intros. eapply rr_m_map; eauto. Qed.
  Lemma rr_m_smul : forall M N a a' s s', mrel M N R a a' -> R s s' -> rr (mrel M N R) (m_smul o a s) (m_smul o' a' s').
  Proof. intros. eapply rr_m_map; eauto. Qed.
  Lemma rr_m_sum : forall M N a a', mrel M N R a a' -> rr R (m_sum o a) (m_sum o' a').
  Proof. intros. eapply rr_m_fold_first; eauto. Qed.

  Lemma rr_indices : forall A A' (S : A -> A' -> Prop) M N f g,
    (forall i j, rr S (f (i, j)) (g (i, j))) ->
    rr (mrel M N S) (let! ix := m_indices M N in m_map f ix) (let! ix := m_indices M N in m_map g ix).
  Proof.
    intros. rewrite m_indices_mk. cbn [bind]. eapply rr_m_map with (R := eq). { apply mrel_refl. apply rect_mk. }
    intros [i j] y <-. apply H.
  Qed.
  Lemma rr_m_one : forall N, rr (mrel N N R) (m_one o N) (m_one o' N).
  Proof. intros. unfold m_one. apply rr_indices. intros i j. destruct (i =? j); [exact P1|exact Pz]. Qed.
  Lemma rr_m_dot : forall L M N a a' b b', mrel L M R a a' -> mrel M N R b b' -> rr (mrel L N R) (m_dot o L M N a b) (m_dot o' L M N a' b').
  Proof.
    intros. unfold m_dot. apply rr_indices. intros i j. eapply rr_bind; [eapply rr_m_row; eauto|]. intros.
    eapply rr_bind; [eapply rr_m_col; eauto|]. intros. apply rr_v_dot; auto.
  Qed.
  Lemma rr_m_dot_v : forall M N a a' v v', mrel M N R a a' -> vrel N R v v' -> rr (vrel M R) (m_dot_v o M N a v) (m_dot_v o' M N a' v').
  Proof.
    intros. unfold m_dot_v. rewrite v_indices_seq. cbn [bind]. eapply rr_v_map with (R := eq). { apply vrel_refl. apply seq_length. }
    intros i y <-. eapply rr_bind; [eapply rr_m_row; eauto|]. intros. apply rr_v_dot; auto.
  Qed.
  Lemma rr_v_dot_m : forall M N a a' v v', mrel M N R a a' -> vrel M R v v' -> rr (vrel N R) (v_dot_m o M N v a) (v_dot_m o' M N v' a').
  Proof.
    intros. unfold v_dot_m. rewrite v_indices_seq. cbn [bind]. eapply rr_v_map with (R := eq). { apply vrel_refl. apply seq_length. }
    intros i y <-. eapply rr_bind; [eapply rr_m_col; eauto|]. intros. apply rr_v_dot; auto.
  Qed.
  Lemma rr_m_outer : forall M N u u' v v', vrel M R u u' -> vrel N R v v' -> rr (mrel M N R) (m_outer o M N u v) (m_outer o' M N u' v').
  Proof.
    intros. unfold m_outer. apply rr_indices. intros i j. eapply rr_lift2; [eapply rr_v_index; eauto|eapply rr_v_index; eauto|auto].
  Qed.

  (** Determinants *)
  Lemma rr_refl : forall A (r : res A), rr eq r r.
  Proof. intros A []; cbn; auto. Qed.
  Lemma rr_d_cofactor : forall rec rec' s p q, (forall s, rr (prel eq R) (rec s) (rec' s)) ->
    rr (prel eq R) (d_cofactor o rec s p q) (d_cofactor o' rec' s p q).
  Proof.
    intros rec rec' s [i ri] [j rj] H. unfold d_cofactor. eapply rr_bind; [apply rr_refl|]. intros s1 ? <-.
    eapply rr_bind; [apply H|]. intros [s2 a] [s2' a'] (E & Ha). cbn in E, Ha. subst s2'.
    eapply rr_bind with (R := R). { destruct (_ =? 0); [exact Ha|auto]. }
    intros. eapply rr_bind; [apply rr_refl|]. intros s3 ? <-. apply rr_prel; auto.
  Qed.
  Lemma rr_d_loop : forall N m m' M' N', mrel M' N' R m m' -> forall left rec rec' rj i j s a a', (forall s, rr (prel eq R) (rec s) (rec' s)) -> R a a' ->
    rr (prel eq R) (d_loop o N m rec left rj i j s a) (d_loop o' N m' rec' left rj i j s a').
  Proof.
    intros N m m' M' N' Hm. induction left as [|left IH]; intros rec rec' rj i j s a a' H Ha; cbn [d_loop]. { apply rr_prel; auto. }
    eapply rr_bind; [apply rr_refl|]. intros j1 ? <-. eapply rr_bind; [eapply rr_m_index; eauto|]. intros x x' Hx.
    eapply rr_bind; [apply rr_d_cofactor; eauto|]. intros [s1 c] [s1' c'] (E & Hc). cbn in E, Hc. subst s1'.
    eapply rr_bind; [apply Pm; eauto|]. intros. eapply rr_bind; [apply Pa; eauto|]. intros. apply IH; auto.
  Qed.
  Lemma rr_d_det : forall N m m' M' N', mrel M' N' R m m' -> forall fuel s, rr (prel eq R) (d_det o N m fuel s) (d_det o' N m' fuel s).
  Proof.
    intros N m m' M' N' Hm. induction fuel as [|fuel IH]; intros s; cbn [d_det]. { exact I. }
    destruct (sm_deg s =? 0). { apply rr_prel; auto. } eapply rr_bind; [apply rr_refl|]. intros i ? <-. eapply rr_d_loop; eauto.
  Qed.
  Lemma rr_m_det : forall N m m', mrel N N R m m' -> rr R (m_det o N m) (m_det o' N m').
  Proof. intros. unfold m_det. eapply rr_bind; [eapply rr_d_det; eauto|]. intros [s a] [s' a'] (_ & Ha). exact Ha. Qed.
  Lemma rr_m_cofactor : forall N m m' i j, mrel N N R m m' -> rr R (m_cofactor o N m i j) (m_cofactor o' N m' i j).
  Proof.
    intros. unfold m_cofactor. destruct ((i <? N) && (j <? N)); [|exact I]. eapply rr_bind.
    { apply rr_d_cofactor. intros. eapply rr_d_det; eauto. } intros [s a] [s' a'] (_ & Ha). exact Ha.
  Qed.
  Lemma rr_m_adj : forall N m m', mrel N N R m m' -> rr (mrel N N R) (m_adj o N m) (m_adj o' N m').
  Proof. intros. unfold m_adj. apply rr_indices. intros i j. apply rr_m_cofactor. auto. Qed.


  (** Fixed sizes *)
  Lemma rr_v_get_unchecked : forall N u u' i, vrel N R u u' -> rr R (v_get_unchecked u i) (v_get_unchecked u' i).
  Proof.
    intros N u u' i H. destruct (vrel_length H) as (L1 & L2). destruct H as (_ & H). unfold v_get_unchecked, index_unchecked.
    destruct (nth_error u i) eqn:E1, (nth_error u' i) eqn:E2; cbn; auto.
    - eapply Forall2_nth_inv; eauto.
    - apply nth_error_None in E2. rewrite L2, <- L1 in E2. apply nth_error_None in E2. congruence.
    - apply nth_error_None in E1. rewrite L1, <- L2 in E1. apply nth_error_None in E1. congruence.
  Qed.
  Lemma vrel_cons : forall N x y u v, R x y -> vrel N R u v -> vrel (S N) R (x :: u) (y :: v).
  Proof. intros N x y u v H (L & F). split; cbn; auto. Qed.
  Lemma vrel_nil : vrel 0 R [] [].
  Proof. split; constructor. Qed.
  Lemma mrel_cons : forall M N x y u v, vrel N R x y -> mrel M N R u v -> mrel (S M) N R (x :: u) (y :: v).
  Proof. intros M N x y u v H (L & F). split; cbn; auto. Qed.
  Lemma mrel_nil : forall N, mrel 0 N R [] [].
  Proof. split; constructor. Qed.

  Lemma rr_v_cross2 : forall u u' v v', vrel 2 R u u' -> vrel 2 R v v' -> rr R (v_cross2 o u v) (v_cross2 o' u' v').
  Proof.
    intros. unfold v_cross2. repeat (eapply rr_lift2; [| |eauto]); try (eapply rr_v_get_unchecked; eauto).
  Qed.
  Ltac tree := repeat (eapply rr_lift2; [| |eauto]); try (eapply rr_v_get_unchecked; eauto); eauto.
  Lemma rr_v_cross3 : forall u u' v v', vrel 3 R u u' -> vrel 3 R v v' -> rr (vrel 3 R) (v_cross3 o u v) (v_cross3 o' u' v').
  Proof.
    intros. unfold v_cross3. eapply rr_bind; [tree|]. intros. eapply rr_bind; [tree|]. intros. eapply rr_bind; [tree|]. intros.
    cbn. repeat apply vrel_cons; auto. apply vrel_nil.
  Qed.
  Lemma rr_v_cross4 : forall u u' v v', vrel 4 R u u' -> vrel 4 R v v' -> rr (vrel 4 R) (v_cross4 o u v) (v_cross4 o' u' v').
  Proof.
    intros. unfold v_cross4. eapply rr_bind; [tree|]. intros. eapply rr_bind; [tree|]. intros. eapply rr_bind; [tree|]. intros.
    cbn. repeat apply vrel_cons; auto. apply vrel_nil.
  Qed.

  (** Complex numbers *)
  Lemma crel_vec : forall a a', crel R a a' -> vrel 2 R (c_into_vector a) (c_into_vector a').
  Proof. intros a a' (H & K). unfold c_into_vector. repeat apply vrel_cons; auto. apply vrel_nil. Qed.
  Lemma rr_c_from_vector : forall v v', vrel 2 R v v' -> rr (crel R) (c_from_vector v) (c_from_vector v').
  Proof.
    intros v v' (L & F). destruct F as [|x x' v v' Hx F]; try discriminate. destruct F as [|y y' v v' Hy F]; try discriminate.
    destruct F; try discriminate. cbn. split; auto.
  Qed.
  Lemma rr_c_re : forall a a', crel R a a' -> rr R (c_re a) (c_re a').
  Proof. intros a a' (H & K). exact H. Qed.
  Lemma rr_c_im : forall a a', crel R a a' -> rr R (c_im a) (c_im a').
  Proof. intros a a' (H & K). exact K. Qed.
  Lemma rr_c_new : forall x x' y y', R x x' -> R y y' -> rr (crel R) (c_new x y) (c_new x' y').
  Proof. intros. cbn. split; auto. Qed.
  Lemma rr_c_zero : rr (crel R) (c_zero o) (c_zero o').
  Proof. apply rr_c_new; auto. Qed.
  Lemma rr_c_one : rr (crel R) (c_one o) (c_one o').
  Proof. apply rr_c_new; auto. Qed.
  Lemma rr_c_i : rr (crel R) (c_i o) (c_i o').
  Proof. apply rr_c_new; auto. Qed.
  Lemma rr_c_neg : forall a a', crel R a a' -> rr (crel R) (c_neg o a) (c_neg o' a').
  Proof. intros. eapply rr_bind; [apply rr_v_neg; apply crel_vec; eauto|]. intros. apply rr_c_from_vector; auto. Qed.
  Lemma rr_c_add : forall a a' b b', crel R a a' -> crel R b b' -> rr (crel R) (c_add o a b) (c_add o' a' b').
  Proof. intros. eapply rr_bind; [apply rr_v_add; apply crel_vec; eauto|]. intros. apply rr_c_from_vector; auto. Qed.
  Lemma rr_c_sub : forall a a' b b', crel R a a' -> crel R b b' -> rr (crel R) (c_sub o a b) (c_sub o' a' b').
  Proof. intros. eapply rr_bind; [apply rr_v_sub; apply crel_vec; eauto|]. intros. apply rr_c_from_vector; auto. Qed.
  Lemma rr_c_conj : forall a a', crel R a a' -> rr (crel R) (c_conj o a) (c_conj o' a').
  Proof. intros a a' (H & K). unfold c_conj. cbn [c_into_tuple c_into_vector v_into_tuple2 list_next bind unwrap]. eapply rr_bind; [eauto|]. intros. apply rr_c_new; auto. Qed.
  Lemma rr_c_mul : forall a a' b b', crel R a a' -> crel R b b' -> rr (crel R) (c_mul o a b) (c_mul o' a' b').
  Proof.
    intros. unfold c_mul. eapply rr_bind; [|intros; eapply rr_bind; [|intros; apply rr_c_new; eauto]];
      repeat (eapply rr_lift2; [| |eauto]); try (apply rr_c_re; auto); try (apply rr_c_im; auto).
  Qed.
  Lemma rr_c_mul_s : forall a a' s s', crel R a a' -> R s s' -> rr (crel R) (c_mul_s o a s) (c_mul_s o' a' s').
  Proof. intros. eapply rr_bind; [apply rr_v_smul; [apply crel_vec|]; eauto|]. intros. apply rr_c_from_vector; auto. Qed.
  Lemma rr_c_norm_sqr : forall a a', crel R a a' -> rr R (c_norm_sqr o a) (c_norm_sqr o' a').
  Proof. intros. eapply rr_v_square_length. apply crel_vec; eauto. Qed.
  Lemma rr_c_dot : forall a a' b b', crel R a a' -> crel R b b' -> rr R (c_dot o a b) (c_dot o' a' b').
  Proof. intros. apply rr_v_dot; apply crel_vec; eauto. Qed.
  Lemma rr_c_sum : forall l l', Forall2 (crel R) l l' -> rr (crel R) (c_sum o l) (c_sum o' l').
  Proof. intros. eapply rr_bind; [apply rr_c_zero|]. intros. eapply rr_fold_res; eauto. intros. apply rr_c_add; auto. Qed.
  Lemma rr_c_product : forall l l', Forall2 (crel R) l l' -> rr (crel R) (c_product o l) (c_product o' l').
  Proof. intros. eapply rr_bind; [apply rr_c_one|]. intros. eapply rr_fold_res; eauto. intros. apply rr_c_mul; auto. Qed.

  (** Quaternions *)
  Lemma qrel_vec : forall a a', qrel R a a' -> vrel 4 R (q_into_vector a) (q_into_vector a').
  Proof. intros a a' (H & K & K1 & K2). unfold q_into_vector. repeat apply vrel_cons; auto. apply vrel_nil. Qed.
  Lemma rr_q_from_vector : forall v v', vrel 4 R v v' -> rr (qrel R) (q_from_vector v) (q_from_vector v').
  Proof.
    intros v v' (L & F). do 4 (destruct F as [|? ? ? ? ? F]; try discriminate). destruct F; try discriminate.
    cbn. repeat split; auto.
  Qed.
  Lemma rr_q_new : forall a a' b b' c c' d d', R a a' -> R b b' -> R c c' -> R d d' -> rr (qrel R) (q_new a b c d) (q_new a' b' c' d').
  Proof. intros. cbn. repeat split; auto. Qed.
  Lemma rr_q_comp : forall a a', qrel R a a' -> rr R (q_w a) (q_w a') /\ rr R (q_x a) (q_x a') /\ rr R (q_y a) (q_y a') /\ rr R (q_z a) (q_z a').
  Proof. intros a a' H. exact H. Qed.
  Lemma rr_q_zero : rr (qrel R) (q_zero o) (q_zero o').
  Proof. apply rr_q_new; auto. Qed.
  Lemma rr_q_one : rr (qrel R) (q_one o) (q_one o').
  Proof. apply rr_q_new; auto. Qed.
  Lemma rr_q_neg : forall a a', qrel R a a' -> rr (qrel R) (q_neg o a) (q_neg o' a').
  Proof. intros. eapply rr_bind; [apply rr_v_neg; apply qrel_vec; eauto|]. intros. apply rr_q_from_vector; auto. Qed.
  Lemma rr_q_add : forall a a' b b', qrel R a a' -> qrel R b b' -> rr (qrel R) (q_add o a b) (q_add o' a' b').
  Proof. intros. eapply rr_bind; [apply rr_v_add; apply qrel_vec; eauto|]. intros. apply rr_q_from_vector; auto. Qed.
  Lemma rr_q_sub : forall a a' b b', qrel R a a' -> qrel R b b' -> rr (qrel R) (q_sub o a b) (q_sub o' a' b').
  Proof. intros. eapply rr_bind; [apply rr_v_sub; apply qrel_vec; eauto|]. intros. apply rr_q_from_vector; auto. Qed.
  Lemma rr_q_mul_s : forall a a' s s', qrel R a a' -> R s s' -> rr (qrel R) (q_mul_s o a s) (q_mul_s o' a' s').
  Proof. intros. eapply rr_bind; [apply rr_v_smul; [apply qrel_vec|]; eauto|]. intros. apply rr_q_from_vector; auto. Qed.
  Lemma rr_q_norm_sqr : forall a a', qrel R a a' -> rr R (q_norm_sqr o a) (q_norm_sqr o' a').
  Proof. intros. eapply rr_v_square_length. apply qrel_vec; eauto. Qed.
  Lemma rr_q_dot : forall a a' b b', qrel R a a' -> qrel R b b' -> rr R (q_dot o a b) (q_dot o' a' b').
  Proof. intros. apply rr_v_dot; apply qrel_vec; eauto. Qed.
  Lemma rr_q_conj : forall a a', qrel R a a' -> rr (qrel R) (q_conj o a) (q_conj o' a').
  Proof.
    intros a a' (Hw & Hx & Hy & Hz). unfold q_conj. cbn [q_into_tuple q_into_vector v_into_tuple4 list_next bind unwrap].
    eapply rr_bind; [eauto|]. intros. eapply rr_bind; [eauto|]. intros. eapply rr_bind; [eauto|]. intros. apply rr_q_new; auto.
  Qed.
  Lemma rr_q_mul : forall a a' b b', qrel R a a' -> qrel R b b' -> rr (qrel R) (q_mul o a b) (q_mul o' a' b').
  Proof.
    intros a a' b b' Ha Hb. pose proof (rr_q_comp Ha) as (A1 & A2 & A3 & A4). pose proof (rr_q_comp Hb) as (B1 & B2 & B3 & B4).
    unfold q_mul. do 4 (eapply rr_bind; [repeat (eapply rr_lift2; [| |eauto]); eauto|intros]). apply rr_q_new; auto.
  Qed.
  Lemma rr_q_mul_c : forall a a' b b', qrel R a a' -> crel R b b' -> rr (qrel R) (q_mul_c o a b) (q_mul_c o' a' b').
  Proof.
    intros a a' b b' Ha Hb. pose proof (rr_q_comp Ha) as (A1 & A2 & A3 & A4). pose proof (rr_c_re Hb) as B1. pose proof (rr_c_im Hb) as B2.
    unfold q_mul_c. do 4 (eapply rr_bind; [repeat (eapply rr_lift2; [| |eauto]); eauto|intros]). apply rr_q_new; auto.
  Qed.
  Lemma rr_c_mul_q : forall a a' b b', crel R a a' -> qrel R b b' -> rr (qrel R) (c_mul_q o a b) (c_mul_q o' a' b').
  Proof.
    intros a a' b b' Hb Ha. pose proof (rr_q_comp Ha) as (A1 & A2 & A3 & A4). pose proof (rr_c_re Hb) as B1. pose proof (rr_c_im Hb) as B2.
    unfold c_mul_q. do 4 (eapply rr_bind; [repeat (eapply rr_lift2; [| |eauto]); eauto|intros]). apply rr_q_new; auto.
  Qed.
  Lemma rr_q_add_c : forall a a' b b', qrel R a a' -> crel R b b' -> rr (qrel R) (q_add_c o a b) (q_add_c o' a' b').
  Proof.
    intros a a' b b' (Hw & Hx & Hy & Hz) (Hr & Hi). unfold q_add_c. cbn [q_into_tuple q_into_vector v_into_tuple4 c_into_tuple c_into_vector v_into_tuple2 list_next bind unwrap].
    eapply rr_bind; [eauto|]. intros. eapply rr_bind; [eauto|]. intros. apply rr_q_new; auto.
  Qed.
  Lemma rr_q_sum : forall l l', Forall2 (qrel R) l l' -> rr (qrel R) (q_sum o l) (q_sum o' l').
  Proof. intros. eapply rr_bind; [apply rr_q_zero|]. intros. eapply rr_fold_res; eauto. intros. apply rr_q_add; auto. Qed.
  Lemma rr_q_product : forall l l', Forall2 (qrel R) l l' -> rr (qrel R) (q_product o l) (q_product o' l').
  Proof. intros. eapply rr_bind; [apply rr_q_one|]. intros. eapply rr_fold_res; eauto. intros. apply rr_q_mul; auto. Qed.

  (** Rotations *)
  Lemma rr_rot2_apply : forall r r' v v', crel R r r' -> vrel 2 R v v' -> rr (vrel 2 R) (rot2_apply o r v) (rot2_apply o' r' v').
  Proof.
    intros. unfold rot2_apply. eapply rr_bind; [apply rr_c_from_vector; eauto|]. intros. eapply rr_bind; [apply rr_c_mul; eauto|]. intros.
    cbn. apply crel_vec; auto.
  Qed.
  Lemma rr_rot3_apply : forall r r' v v', qrel R r r' -> vrel 3 R v v' -> rr (vrel 3 R) (rot3_apply o r v) (rot3_apply o' r' v').
  Proof.
    intros r r' v v' Hr (L & F). do 3 (destruct F as [|? ? ? ? ? F]; try discriminate). destruct F; try discriminate.
    unfold rot3_apply. cbn [q_from_scalar_and_vector3 v_into_tuple3 list_next bind unwrap].
    eapply rr_bind; [apply rr_q_new; eauto|]. intros. eapply rr_bind.
    { eapply rr_lift2; [apply rr_q_mul; eauto|apply rr_q_conj; eauto|]. intros. apply rr_q_mul; eauto. }
    intros p p' (? & ? & ? & ?). cbn. repeat apply vrel_cons; auto. apply vrel_nil.
  Qed.

  (** Division *)
  Section Div.
    Context (D : DivRel strict R o o').
    Lemma rr_v_div : forall N u u' v v', vrel N R u u' -> vrel N R v v' -> rr (vrel N R) (v_div o N u v) (v_div o' N u' v').
    Proof. intros. eapply rr_v_zip_map; eauto. Qed.
    Lemma rr_v_sdiv : forall N u u' s s', vrel N R u u' -> R s s' -> rr (vrel N R) (v_sdiv o u s) (v_sdiv o' u' s').
    Proof. intros. eapply rr_v_map; eauto. Qed.
    Lemma rr_m_div : forall M N a a' b b', mrel M N R a a' -> mrel M N R b b' -> rr (mrel M N R) (m_div o M N a b) (m_div o' M N a' b').
    Proof. intros. eapply rr_m_zip_map; eauto. Qed.
    Lemma rr_m_sdiv : forall M N a a' s s', mrel M N R a a' -> R s s' -> rr (mrel M N R) (m_sdiv o a s) (m_sdiv o' a' s').
    Proof. intros. eapply rr_m_map; eauto. Qed.
    Lemma rr_m_inv : forall N m m', mrel N N R m m' -> rr (mrel N N R) (m_inv o N m) (m_inv o' N m').
    Proof.
      intros. unfold m_inv. eapply rr_bind; [apply rr_m_adj; eauto|]. intros. eapply rr_bind; [apply rr_m_det; eauto|]. intros.
      apply rr_m_sdiv; auto.
    Qed.
    Lemma rr_c_div_s : forall a a' s s', crel R a a' -> R s s' -> rr (crel R) (c_div_s o a s) (c_div_s o' a' s').
    Proof. intros. eapply rr_bind; [apply rr_v_sdiv; [apply crel_vec|]; eauto|]. intros. apply rr_c_from_vector; auto. Qed.
    Lemma rr_c_inv : forall a a', crel R a a' -> rr (crel R) (c_inv o a) (c_inv o' a').
    Proof.
      intros. unfold c_inv. eapply rr_bind; [apply rr_c_conj; eauto|]. intros. eapply rr_bind; [apply rr_c_norm_sqr; eauto|]. intros.
      apply rr_c_div_s; auto.
    Qed.
    Lemma rr_c_div : forall a a' b b', crel R a a' -> crel R b b' -> rr (crel R) (c_div o a b) (c_div o' a' b').
    Proof. intros. unfold c_div. eapply rr_bind; [apply rr_c_inv; eauto|]. intros. apply rr_c_mul; auto. Qed.
    Lemma rr_q_div_s : forall a a' s s', qrel R a a' -> R s s' -> rr (qrel R) (q_div_s o a s) (q_div_s o' a' s').
    Proof. intros. eapply rr_bind; [apply rr_v_sdiv; [apply qrel_vec|]; eauto|]. intros. apply rr_q_from_vector; auto. Qed.
    Lemma rr_q_inv : forall a a', qrel R a a' -> rr (qrel R) (q_inv o a) (q_inv o' a').
    Proof.
      intros. unfold q_inv. eapply rr_bind; [apply rr_q_conj; eauto|]. intros. eapply rr_bind; [apply rr_q_norm_sqr; eauto|]. intros.
      apply rr_q_div_s; auto.
    Qed.
    Lemma rr_q_div : forall a a' b b', qrel R a a' -> qrel R b b' -> rr (qrel R) (q_div o a b) (q_div o' a' b').
    Proof. intros. unfold q_div. eapply rr_bind; [apply rr_q_inv; eauto|]. intros. apply rr_q_mul; auto. Qed.
    Lemma rr_mo_apply_self : forall m m' x x', mrel 2 2 R m m' -> R x x' -> rr R (mo_apply_self o m x) (mo_apply_self o' m' x').
    Proof.
      intros. unfold mo_apply_self, mo_apply. eapply rr_bind.
      { eapply rr_bind; [eapply rr_bind; [eapply rr_m_index; eauto|eauto]|]. intros. eapply rr_bind; [eapply rr_m_index; eauto|eauto]. }
      intros. eapply rr_bind.
      { eapply rr_bind; [eapply rr_bind; [eapply rr_m_index; eauto|eauto]|]. intros. eapply rr_bind; [eapply rr_m_index; eauto|eauto]. }
      intros. apply D; auto.
    Qed.
  End Div.

  (** Remainder *)
  Lemma rr_v_rem : RemRel strict R o o' -> forall N u u' v v', vrel N R u u' -> vrel N R v v' -> rr (vrel N R) (v_rem o N u v) (v_rem o' N u' v').
  Proof. intros. eapply rr_v_zip_map; eauto. Qed.
  Lemma rr_m_rem : RemRel strict R o o' -> forall M N a a' b b', mrel M N R a a' -> mrel M N R b b' -> rr (mrel M N R) (m_rem o M N a b) (m_rem o' M N a' b').
  Proof. intros. eapply rr_m_zip_map; eauto. Qed.

  (** Complex numbers and quaternions as scalars of matrices *)
  Lemma c_ops_rel : forall rem rem', OpsRel strict (crel R) (c_ops o rem) (c_ops o' rem').
  Proof.
    intros. constructor; cbn [o_zero o_one o_add o_sub o_mul o_neg c_ops]; intros.
    - split; auto.
    - split; auto.
    - apply rr_c_add; auto.
    - apply rr_c_sub; auto.
    - apply rr_c_mul; auto.
    - apply rr_c_neg; auto.
  Qed.
  Lemma q_ops_rel : OpsRel strict (qrel R) (q_ops o) (q_ops o').
  Proof.
    intros. constructor; cbn [o_zero o_one o_add o_sub o_mul o_neg q_ops]; intros.
    - repeat split; auto.
    - repeat split; auto.
    - apply rr_q_add; auto.
    - apply rr_q_sub; auto.
    - apply rr_q_mul; auto.
    - apply rr_q_neg; auto.
  Qed.
End OpsRel.
