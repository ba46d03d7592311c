(** Proofs for C107: the combinators of the crate, run on safe callbacks. *)
From Verif Require Import Spec SpecFacts VFacts VecProofs MFacts MatProofs SpecSafe MathModel ViewModel UnitModel NumModel.
Set Implicit Arguments.

Lemma sound_bind : forall A B (P : A -> Prop) (Q : B -> Prop) r f,
  sound P r -> (forall a, P a -> sound Q (f a)) -> sound Q (bind r f).
Proof. intros A B P Q [a| | |] f H K; cbn in *; auto. Qed.
Lemma sound_lift2 : forall A B C (P : A -> Prop) (Q : B -> Prop) (R : C -> Prop) f a b,
  sound P a -> sound Q b -> (forall x y, P x -> Q y -> sound R (f x y)) -> sound R (lift2 f a b).
Proof. intros. eapply sound_bind; eauto. intros. eapply sound_bind; eauto. Qed.
Lemma sound_lift1 : forall A B (P : A -> Prop) (Q : B -> Prop) f a,
  sound P a -> (forall x, P x -> sound Q (f x)) -> sound Q (lift1 f a).
Proof. intros. eapply sound_bind; eauto. Qed.
Lemma sound_mono : forall A (P Q : A -> Prop) r, sound P r -> (forall a, P a -> Q a) -> sound Q r.
Proof. intros A P Q [a| | |]; cbn; auto. Qed.
Lemma sound_ok : forall A (P : A -> Prop) a, P a -> sound P (Ok a).
Proof. auto. Qed.

Lemma sound_map_res : forall A B (P : A -> Prop) (Q : B -> Prop) (f : A -> res B) l,
  Forall P l -> (forall x, P x -> sound Q (f x)) -> sound (vec_of (length l) Q) (map_res f l).
Proof.
  intros A B P Q f l H K. induction H as [|x l Hx H IH]; cbn [map_res]. { split; auto. }
  eapply sound_bind; [apply K; auto|]. intros b Hb. eapply sound_bind; [exact IH|]. intros bs (L & F). split; cbn; auto.
Qed.
Lemma sound_map_st : forall C A B (I : C -> Prop) (P : A -> Prop) (Q : B -> Prop) (f : C -> A -> res (C * B)) l,
  Forall P l -> (forall c x, I c -> P x -> sound (pair_of I Q) (f c x)) ->
  forall c, I c -> sound (pair_of I (vec_of (length l) Q)) (map_st f c l).
Proof.
  intros C A B I P Q f l H K. induction H as [|x l Hx H IH]; intros c Hc; cbn [map_st]. { split; [exact Hc|split; constructor]. }
  eapply sound_bind; [apply K; auto|]. intros (c1 & b) (Hc1 & Hb). cbn in Hc1, Hb. eapply sound_bind; [apply IH; exact Hc1|].
  intros (c2 & bs) (Hc2 & L & F). cbn in Hc2, L, F. split; cbn; auto. split; cbn; auto.
Qed.
Lemma sound_fold_res : forall S A (I : S -> Prop) (P : A -> Prop) (f : S -> A -> res S) l,
  Forall P l -> (forall s x, I s -> P x -> sound I (f s x)) -> forall s, I s -> sound I (fold_res f s l).
Proof.
  intros S A I P f l H K. induction H as [|x l Hx H IH]; intros s Hs; cbn [fold_res]; auto.
  eapply sound_bind; [apply K; auto|]. intros. apply IH. auto.
Qed.
Lemma sound_calls : forall C A (I : C -> Prop) (P : A -> Prop) (f : C -> res (C * A)),
  (forall c, I c -> sound (pair_of I P) (f c)) -> forall n c, I c -> sound (pair_of I (vec_of n P)) (calls n f c).
Proof.
  intros C A I P f K. induction n as [|n IH]; intros c Hc; cbn [calls]. { split; [exact Hc|split; constructor]. }
  eapply sound_bind; [apply K; auto|]. intros (c1 & b) (Hc1 & Hb). cbn in Hc1, Hb. eapply sound_bind; [apply IH; exact Hc1|].
  intros (c2 & bs) (Hc2 & L & F). cbn in Hc2, L, F. split; cbn; auto. split; cbn; auto.
Qed.
Lemma sound_pull : forall S A (I : S -> Prop) (P : A -> Prop) (n : next_fn S A),
  closed_next I P n -> forall k s, I s -> sound (pair_of I (Forall P)) (pull k n s).
Proof.
  intros S A I P n K. induction k as [|k IH]; intros s Hs; cbn [pull]. { split; [exact Hs|constructor]. }
  eapply sound_bind; [apply K; auto|]. intros (s1 & [a|]) (Hs1 & Ha); cbn in Hs1, Ha.
  - eapply sound_bind; [apply IH; exact Hs1|]. intros (s2 & l) (Hs2 & F). cbn in Hs2, F. split; cbn; auto.
  - split; cbn; auto.
Qed.
Lemma sound_index : forall A (P : A -> Prop) v i, Forall P v -> sound P (index v i).
Proof.
  intros A P v i F. unfold index. destruct (nth_error v i) eqn:E; cbn; auto. eapply nth_error_Forall; eauto.
Qed.
Lemma Forall_list_set : forall A (P : A -> Prop) v i x, Forall P v -> P x -> Forall P (list_set v i x).
Proof. intros A P v i x F. revert i. induction F; intros [|i] Hx; cbn; constructor; auto. Qed.
Lemma length_list_set : forall A (v : list A) i x, length (list_set v i x) = length v.
Proof. induction v; intros [|i] x; cbn; auto. Qed.

(* ------------------------------------------------------------------------- *)
(** * Vectors                                                                  *)
Lemma safe_v_init : forall C A N (I : C -> Prop) (P : A -> Prop) (f : C -> res (C * A)) c,
  closed_draw I P f -> I c -> sound (pair_of I (vec_of N P)) (v_init N f c).
Proof. intros. rewrite v_init_calls. apply sound_calls; auto. Qed.
Lemma safe_v_init_const : forall A N (P : A -> Prop) (r : res A), sound P r -> sound (vec_of N P) (v_init_const N r).
Proof.
  intros. unfold v_init_const. eapply sound_bind; [apply safe_v_init with (I := any) (P := P); try exact I|].
  - intros [] _. eapply sound_bind; eauto. intros. split; auto. exact I.
  - intros (? & l) (_ & H0). exact H0.
Qed.
Lemma safe_v_index : forall A N (P : A -> Prop) v i, vec_of N P v -> sound P (v_index v i).
Proof. intros A N P v i (_ & F). apply sound_index. auto. Qed.
Lemma safe_v_index_set : forall A N (P : A -> Prop) v i x, vec_of N P v -> P x -> sound (vec_of N P) (v_index_set v i x).
Proof.
  intros A N P v i x (L & F) Hx. unfold v_index_set, index_set. destruct (i <? length v); cbn; auto.
  split; [rewrite length_list_set; auto|apply Forall_list_set; auto].
Qed.
Lemma safe_v_get_unchecked : forall A N (P : A -> Prop) v i, vec_of N P v -> i < N -> sound P (v_get_unchecked v i).
Proof.
  intros A N P v i (L & F) Hi. destruct (v_get_unchecked_spec v (i := i)) as (E & _); [lia|]. rewrite E. apply sound_index. auto.
Qed.
Lemma safe_v_set_unchecked : forall A N (P : A -> Prop) v i x, vec_of N P v -> P x -> i < N -> sound (vec_of N P) (v_set_unchecked v i x).
Proof.
  intros A N P v i x H Hx Hi. destruct (v_get_unchecked_spec v (i := i)) as (_ & E); [destruct H; lia|]. rewrite E. apply safe_v_index_set; auto.
Qed.
Lemma safe_v_try_from_iter : forall S A N (I : S -> Prop) (P : A -> Prop) (n : next_fn S A) s,
  closed_next I P n -> I s -> sound (pair_of I (opt_of (vec_of N P))) (v_try_from_iter N n s).
Proof.
  intros. rewrite v_try_from_iter_pull. eapply sound_bind; [eapply sound_pull; eauto|]. intros (s1 & l) (Hs & F). cbn in Hs, F.
  split; auto. cbn [snd opt_of]. destruct (Nat.eqb_spec (length l) N); cbn; auto. split; auto.
Qed.
Lemma safe_unwrap : forall A (P : A -> Prop) o, opt_of P o -> sound P (unwrap o).
Proof. intros A P [a|] H; cbn in *; auto. Qed.
Lemma safe_v_indices : forall N, sound (vec_of N (fun i => i < N)) (v_indices N).
Proof. intros. rewrite v_indices_seq. split; [apply seq_length|]. apply Forall_forall. intros i H. apply in_seq in H. lia. Qed.
Lemma safe_v_map_st : forall C A B N (I : C -> Prop) (P : A -> Prop) (Q : B -> Prop) (f : C -> A -> res (C * B)) c v,
  vec_of N P v -> I c -> (forall c x, I c -> P x -> sound (pair_of I Q) (f c x)) -> sound (pair_of I (vec_of N Q)) (v_map_st f c v).
Proof. intros C A B N I P Q f c v (L & F) Hc K. unfold v_map_st. rewrite <- L. eapply sound_map_st; eauto. Qed.
Lemma safe_v_map : forall A B N (P : A -> Prop) (Q : B -> Prop) (f : A -> res B) v,
  vec_of N P v -> (forall x, P x -> sound Q (f x)) -> sound (vec_of N Q) (v_map f v).
Proof. intros A B N P Q f v (L & F) K. rewrite v_map_res, <- L. eapply sound_map_res; eauto. Qed.
Lemma Forall_combine : forall A B (P : A -> Prop) (Q : B -> Prop) u v, Forall P u -> Forall Q v -> Forall (pair_of P Q) (combine u v).
Proof.
  intros A B P Q u v F. revert v. induction F as [|x u Hx F IH]; intros v G; destruct G; cbn; constructor; auto. split; auto.
Qed.
Lemma safe_v_zip : forall A B N (P : A -> Prop) (Q : B -> Prop) u v,
  vec_of N P u -> vec_of N Q v -> sound (vec_of N (pair_of P Q)) (v_zip N u v).
Proof.
  intros A B N P Q u v (L & F) (L' & F'). rewrite v_zip_combine by auto. split; [rewrite combine_length; lia|]. apply Forall_combine; auto.
Qed.
Lemma Forall_map_fst : forall A B (P : A -> Prop) (Q : B -> Prop) l, Forall (pair_of P Q) l -> Forall P (map fst l) /\ Forall Q (map snd l).
Proof. intros A B P Q l F. induction F as [|x l (H1 & H2) F (G1 & G2)]; cbn; split; constructor; auto. Qed.
Lemma safe_v_unzip : forall A B N (P : A -> Prop) (Q : B -> Prop) l,
  vec_of N (pair_of P Q) l -> sound (pair_of (vec_of N P) (vec_of N Q)) (v_unzip N l).
Proof.
  intros A B N P Q l (L & F). rewrite v_unzip_ok by auto. apply Forall_map_fst in F. destruct F.
  split; split; cbn; auto; rewrite map_length; auto.
Qed.
Lemma safe_v_fold : forall S A N (I : S -> Prop) (P : A -> Prop) (f : S -> A -> res S) s v,
  vec_of N P v -> I s -> (forall s x, I s -> P x -> sound I (f s x)) -> sound I (v_fold f s v).
Proof. intros S A N I P f s v (L & F) Hs K. eapply sound_fold_res; eauto. Qed.
Lemma safe_v_for_each_st : forall S A N (I : S -> Prop) (P : A -> Prop) (f : S -> A -> res S) s v,
  vec_of N P v -> I s -> (forall s x, I s -> P x -> sound I (f s x)) -> sound I (v_for_each_st f s v).
Proof. intros S A N I P f s v (L & F) Hs K. eapply sound_fold_res; eauto. Qed.
Lemma safe_v_fold_first : forall A N (P : A -> Prop) (f : A -> A -> res A) v,
  vec_of N P v -> (forall x y, P x -> P y -> sound P (f x y)) -> sound P (v_fold_first f v).
Proof.
  intros A N P f v (L & F) K. destruct F as [|x v Hx F]; [exact I|]. rewrite v_fold_first_cons. eapply sound_fold_res; eauto.
Qed.
Lemma safe_v_scan_st : forall C A B N (I : C -> Prop) (P : A -> Prop) (Q : B -> Prop) (f : C -> A -> res (C * B)) c v,
  vec_of N P v -> I c -> (forall c x, I c -> P x -> sound (pair_of I Q) (f c x)) -> sound (pair_of I (vec_of N Q)) (v_scan_st N f c v).
Proof. intros C A B N I P Q f c v (L & F) Hc K. rewrite v_scan_map_st by auto. rewrite <- L. eapply sound_map_st; eauto. Qed.
Lemma safe_v_zip_map : forall A B C N (P : A -> Prop) (Q : B -> Prop) (R : C -> Prop) (op : A -> B -> res C) u v,
  vec_of N P u -> vec_of N Q v -> (forall x y, P x -> Q y -> sound R (op x y)) -> sound (vec_of N R) (v_zip_map N op u v).
Proof.
  intros. unfold v_zip_map. eapply sound_bind; [eapply safe_v_zip; eauto|]. intros z Hz. eapply safe_v_map; eauto. intros (x & y) (Hx & Hy). auto.
Qed.
Lemma safe_v_assign : forall T U (P : T -> Prop) (Q : U -> Prop) (opa : T -> U -> res T) N M a b,
  vec_of N P a -> vec_of M Q b -> (forall x y, P x -> Q y -> sound P (opa x y)) -> in_place (vec_of N P) (v_assign opa a b).
Proof.
  intros T U P Q opa N M a b (L & F) (_ & G) K. subst N. revert b G. induction F as [|x a Hx F IH]; intros b G; cbn [v_assign].
  - split; [split; constructor|exact I].
  - destruct G as [|y b Hy G]. { split; [split; cbn; auto|exact I]. } specialize (K x y Hx Hy). destruct (opa x y); cbn in K; try contradiction.
    + destruct (IH b G) as ((L1 & F1) & S1). destruct (v_assign opa a b) as (w & r). cbn in *. split; cbn; auto. split; cbn; auto.
    + split; cbn; auto. split; cbn; auto.
    + split; cbn; auto. split; cbn; auto.
Qed.
Lemma v_assign_scalar_eq : forall T U (opa : T -> U -> res T) a x, v_assign_scalar opa a x = v_assign opa a (map (fun _ => x) a).
Proof. intros. induction a as [|s a IH]; cbn; auto. rewrite IH. reflexivity. Qed.
Lemma safe_v_assign_scalar : forall T U (P : T -> Prop) (Q : U -> Prop) (opa : T -> U -> res T) N a x,
  vec_of N P a -> Q x -> (forall x y, P x -> Q y -> sound P (opa x y)) -> in_place (vec_of N P) (v_assign_scalar opa a x).
Proof.
  intros. rewrite v_assign_scalar_eq. eapply safe_v_assign with (M := length a) (Q := Q); eauto. split; [apply map_length|].
  apply Forall_forall. intros y Hy. apply in_map_iff in Hy. destruct Hy as (? & <- & _). auto.
Qed.

(* ------------------------------------------------------------------------- *)
(** * Matrices                                                                 *)
Lemma mat_rect : forall A M N (P : A -> Prop) m, mat_of M N P m -> rect M N m.
Proof. intros A M N P m (L & F). split; auto. eapply Forall_impl; [|exact F]. intros r (Lr & _). exact Lr. Qed.
Lemma mat_elt : forall A M N (P : A -> Prop) m, rect M N m -> (forall i j x, elt m i j = Some x -> P x) -> mat_of M N P m.
Proof.
  intros A M N P m (L & F) H. split; auto. apply Forall_forall. intros r Hr. apply In_nth_error in Hr. destruct Hr as (i & Ei).
  pose proof (nth_error_Forall F Ei) as Lr. cbn in Lr. split; auto. apply Forall_forall. intros x Hx. apply In_nth_error in Hx.
  destruct Hx as (j & Ej). apply (H i j). unfold elt. rewrite Ei. exact Ej.
Qed.
Lemma mat_elt_inv : forall A M N (P : A -> Prop) m i j x, mat_of M N P m -> elt m i j = Some x -> P x.
Proof.
  intros A M N P m i j x (L & F) E. unfold elt in E. destruct (nth_error m i) eqn:Ei; [|discriminate].
  pose proof (nth_error_Forall F Ei) as (_ & G). eapply nth_error_Forall; eauto.
Qed.
Lemma mat_concat : forall A M N (P : A -> Prop) m, mat_of M N P m -> vec_of (M * N) P (concat m).
Proof.
  intros A M N P m (L & F). subst M. induction F as [|r m (Lr & Hr) F (IL & IH)]; cbn. { split; constructor. }
  split. { rewrite app_length. lia. } apply Forall_app. auto.
Qed.
Lemma mat_chunk : forall A (P : A -> Prop) N M l, vec_of (M * N) P l -> mat_of M N P (chunk M N l).
Proof.
  intros A P N M. induction M as [|M IH]; intros l (L & F); cbn [chunk]. { split; constructor. }
  cbn in L. rewrite <- (firstn_skipn N l) in F. apply Forall_app in F. destruct F as (F1 & F2).
  destruct (IH (skipn N l)) as (L1 & G). { split; auto. rewrite skipn_length. lia. }
  split; cbn; auto. constructor; auto. split; auto. rewrite firstn_length. lia.
Qed.
Lemma safe_m_init : forall C A M N (I : C -> Prop) (P : A -> Prop) (f : C -> res (C * A)) c,
  closed_draw I P f -> I c -> sound (pair_of I (mat_of M N P)) (m_init M N f c).
Proof. intros. apply safe_v_init; auto. intros ? ?. apply safe_v_init; auto. Qed.
Lemma safe_m_init_const : forall A M N (P : A -> Prop) (r : res A), sound P r -> sound (mat_of M N P) (m_init_const M N r).
Proof.
  intros. unfold m_init_const. eapply sound_bind; [apply safe_m_init with (I := any) (P := P); try exact I|].
  - intros [] _. eapply sound_bind; eauto. intros. split; auto. exact I.
  - intros (? & l) (_ & H0). exact H0.
Qed.
Lemma safe_m_index : forall A M N (P : A -> Prop) m ij, mat_of M N P m -> sound P (m_index m ij).
Proof. intros. unfold m_index. eapply sound_bind; [eapply safe_v_index; exact H|]. intros. eapply safe_v_index; eauto. Qed.
Lemma safe_m_index_set : forall A M N (P : A -> Prop) m ij x, mat_of M N P m -> P x -> sound (mat_of M N P) (m_index_set m ij x).
Proof.
  intros. unfold m_index_set. eapply sound_bind; [eapply safe_v_index; exact H|]. intros.
  eapply sound_bind; [eapply safe_v_index_set; eauto|]. intros. apply safe_v_index_set; auto.
Qed.
Lemma safe_m_row : forall A M N (P : A -> Prop) m i, mat_of M N P m -> sound (vec_of N P) (m_row m i).
Proof. intros. eapply safe_v_index; exact H. Qed.
Lemma safe_m_row_set : forall A M N (P : A -> Prop) m i r, mat_of M N P m -> vec_of N P r -> sound (mat_of M N P) (m_row_set m i r).
Proof. intros. apply safe_v_index_set; auto. Qed.
Lemma safe_m_col : forall A M N (P : A -> Prop) m j, mat_of M N P m -> sound (vec_of M P) (m_col M m j).
Proof.
  intros. unfold m_col. eapply sound_bind; [apply safe_v_indices|]. intros. eapply safe_v_map; eauto. intros. eapply safe_m_index; eauto.
Qed.
Lemma safe_m_get_unchecked : forall A M N (P : A -> Prop) m i j, mat_of M N P m -> i < M -> j < N -> sound P (m_get_unchecked m i j).
Proof.
  intros. unfold m_get_unchecked. eapply sound_bind; [eapply safe_v_get_unchecked; [exact H|auto]|]. intros. eapply safe_v_get_unchecked; eauto.
Qed.
Lemma safe_m_set_unchecked : forall A M N (P : A -> Prop) m i j x, mat_of M N P m -> P x -> i < M -> j < N ->
  sound (mat_of M N P) (m_set_unchecked m i j x).
Proof.
  intros. unfold m_set_unchecked. eapply sound_bind; [eapply safe_v_get_unchecked; [exact H|auto]|]. intros.
  eapply sound_bind; [eapply safe_v_set_unchecked; eauto|]. intros. apply safe_v_set_unchecked; auto.
Qed.
Lemma safe_m_map_st : forall C A B M N (I : C -> Prop) (P : A -> Prop) (Q : B -> Prop) (f : C -> A -> res (C * B)) c m,
  mat_of M N P m -> I c -> (forall c x, I c -> P x -> sound (pair_of I Q) (f c x)) -> sound (pair_of I (mat_of M N Q)) (m_map_st f c m).
Proof. intros. eapply safe_v_map_st; eauto. intros. eapply safe_v_map_st; eauto. Qed.
Lemma safe_m_map : forall A B M N (P : A -> Prop) (Q : B -> Prop) (f : A -> res B) m,
  mat_of M N P m -> (forall x, P x -> sound Q (f x)) -> sound (mat_of M N Q) (m_map f m).
Proof.
  intros. unfold m_map. eapply sound_bind; [eapply safe_m_map_st with (I := any); eauto; [exact I|]|].
  - intros [] x _ Hx. eapply sound_bind; [apply H0; exact Hx|]. intros. split; [exact I|]. cbn. eauto.
  - intros (? & w) (_ & Hw). exact Hw.
Qed.
Lemma safe_m_zip : forall A B M N (P : A -> Prop) (Q : B -> Prop) a b,
  mat_of M N P a -> mat_of M N Q b -> sound (mat_of M N (pair_of P Q)) (m_zip M N a b).
Proof.
  intros. unfold m_zip. eapply sound_bind; [eapply safe_v_zip; eauto|]. intros z Hz. eapply safe_v_map; eauto.
  intros (x & y) (Hx & Hy). apply safe_v_zip; auto.
Qed.
Lemma safe_m_unzip : forall A B M N (P : A -> Prop) (Q : B -> Prop) l,
  mat_of M N (pair_of P Q) l -> sound (pair_of (mat_of M N P) (mat_of M N Q)) (m_unzip M N l).
Proof.
  intros. unfold m_unzip. eapply sound_bind.
  - eapply safe_v_map; [exact H|]. intros r Hr. apply safe_v_unzip. exact Hr.
  - intros z Hz. apply safe_v_unzip. exact Hz.
Qed.
Lemma safe_m_fold : forall S A M N (I : S -> Prop) (P : A -> Prop) (f : S -> A -> res S) s m,
  mat_of M N P m -> I s -> (forall s x, I s -> P x -> sound I (f s x)) -> sound I (m_fold f s m).
Proof. intros. eapply safe_v_fold; eauto. intros. eapply safe_v_fold; eauto. Qed.
Lemma safe_m_for_each_st : forall S A M N (I : S -> Prop) (P : A -> Prop) (f : S -> A -> res S) s m,
  mat_of M N P m -> I s -> (forall s x, I s -> P x -> sound I (f s x)) -> sound I (m_for_each_st f s m).
Proof. intros. eapply safe_v_for_each_st; eauto. intros. eapply safe_v_for_each_st; eauto. Qed.
Lemma safe_m_fold_first : forall A M N (P : A -> Prop) (f : A -> A -> res A) m,
  mat_of M N P m -> (forall x y, P x -> P y -> sound P (f x y)) -> sound P (m_fold_first f m).
Proof.
  intros A M N P f m (L & F) K. unfold m_fold_first. destruct F as [|r m Hr F]; [exact I|]. cbn [list_next bind unwrap].
  eapply sound_bind; [eapply safe_v_fold_first; eauto|]. intros s Hs. eapply sound_fold_res; eauto. intros. eapply safe_v_fold; eauto.
Qed.
Lemma safe_m_scan_st : forall C A B M N (I : C -> Prop) (P : A -> Prop) (Q : B -> Prop) (f : C -> A -> res (C * B)) c m,
  mat_of M N P m -> I c -> (forall c x, I c -> P x -> sound (pair_of I Q) (f c x)) -> sound (pair_of I (mat_of M N Q)) (m_scan_st M N f c m).
Proof. intros. eapply safe_v_scan_st; eauto. intros. eapply safe_v_scan_st; eauto. Qed.
Lemma safe_group_next : forall S A N (I : S -> Prop) (P : A -> Prop) (n : next_fn S A),
  closed_next I P n -> closed_next I (vec_of N P) (group_next N n).
Proof. intros S A N I P n K s Hs. apply safe_v_try_from_iter; auto. Qed.
Lemma safe_m_try_from_iter_of_vectors : forall S A M N (I : S -> Prop) (P : A -> Prop) (n : next_fn S (list A)) s,
  closed_next I (vec_of N P) n -> I s -> sound (pair_of I (opt_of (mat_of M N P))) (m_try_from_iter_of_vectors M n s).
Proof.
  intros. unfold m_try_from_iter_of_vectors. eapply sound_bind; [eapply safe_v_try_from_iter; eauto|].
  intros (s1 & [l|]) (Hs & Hl); split; cbn in *; auto.
Qed.
Lemma safe_m_try_from_iter : forall S A M N (I : S -> Prop) (P : A -> Prop) (n : next_fn S A) s,
  closed_next I P n -> I s -> sound (pair_of I (opt_of (mat_of M N P))) (m_try_from_iter M N n s).
Proof. intros. apply safe_m_try_from_iter_of_vectors; auto. apply safe_group_next. auto. Qed.
Lemma closed_list_next : forall A (P : A -> Prop), closed_next (Forall P) P (@list_next A).
Proof. intros A P l F. destruct F; split; cbn; auto. Qed.
Lemma closed_flat_next : forall A (P : A -> Prop), closed_next (pair_of (Forall (Forall P)) (Forall P)) P (@m_iter_next A).
Proof.
  intros A P (rows & row) (Hr & Hx). cbn in Hr, Hx. unfold m_iter_next, flat_next.
  destruct Hx as [|x row Hx Hrow]; cbn [list_next bind].
  - destruct Hr as [|r rows Hr Hrows]; cbn [list_next bind]. { split; cbn; auto. split; cbn; auto. }
    destruct Hr; cbn; split; cbn; auto; split; cbn; auto.
  - split; cbn; auto. split; cbn; auto.
Qed.
Lemma safe_m_iter : forall A M N (P : A -> Prop) m, mat_of M N P m -> sound (pair_of (Forall (Forall P)) (Forall P)) (m_iter m).
Proof.
  intros A M N P m (L & F). unfold m_iter, flat_new. destruct F as [|r m (_ & Hr) F]; cbn; auto. split; cbn; auto.
  eapply Forall_impl; [|exact F]. intros ? (_ & ?). auto.
Qed.
Lemma safe_iter_any : forall S A (I : S -> Prop) (P : A -> Prop) (n : next_fn S A) p, closed_next I P n ->
  forall fuel s, I s -> sound any (iter_any fuel n p s).
Proof.
  intros S A I P n p K. induction fuel as [|k IH]; intros s Hs; [exact Logic.I|]. cbn [iter_any]. eapply sound_bind; [apply K; auto|].
  intros (s1 & [a|]) (H1 & _); [|exact Logic.I]. destruct (p a); [exact Logic.I|]. apply IH. exact H1.
Qed.
Lemma safe_iter_all : forall S A (I : S -> Prop) (P : A -> Prop) (n : next_fn S A) p, closed_next I P n ->
  forall fuel s, I s -> sound any (iter_all fuel n p s).
Proof.
  intros S A I P n p K. induction fuel as [|k IH]; intros s Hs; [exact Logic.I|]. cbn [iter_all]. eapply sound_bind; [apply K; auto|].
  intros (s1 & [a|]) (H1 & _); [|exact Logic.I]. destruct (p a); [|exact Logic.I]. apply IH. exact H1.
Qed.
Lemma safe_iter_for_each : forall S C A (I : S -> Prop) (J : C -> Prop) (P : A -> Prop) (n : next_fn S A) (f : C -> A -> C * res unit),
  closed_next I P n -> (forall c a, J c -> P a -> in_place J (f c a)) ->
  forall fuel s c, I s -> J c -> in_place J (iter_for_each fuel n f s c).
Proof.
  intros S C A I J P n f K Kf. induction fuel as [|k IH]; intros s c Hs Hc; cbn [iter_for_each]. { split; [exact Hc|exact Logic.I]. }
  specialize (K s Hs). destruct (n s) as [(s1 & [a|])| | |]; cbn in K; try contradiction; try (split; [exact Hc|exact Logic.I]).
  destruct K as (Hs1 & Ha). cbn in Hs1, Ha. destruct (Kf c a Hc Ha) as (Hc1 & Sr). destruct (f c a) as (c1 & [[]| | |]); cbn in *; try contradiction;
    try (split; [exact Hc1|exact Logic.I]). apply IH; auto.
Qed.
Lemma closed_zip_next : forall SA SB A B (I : SA -> Prop) (J : SB -> Prop) (P : A -> Prop) (Q : B -> Prop) (na : next_fn SA A) (nb : next_fn SB B),
  closed_next I P na -> closed_next J Q nb -> closed_next (pair_of I J) (pair_of P Q) (zip_next na nb).
Proof.
  intros SA SB A B I J P Q na nb Ka Kb (sa & sb) (Ha & Hb). cbn in Ha, Hb. cbn [zip_next]. eapply sound_bind; [apply Ka; exact Ha|].
  intros (sa1 & [a|]) (H1 & H2); cbn in H1, H2.
  - eapply sound_bind; [apply Kb; exact Hb|]. intros (sb1 & [b|]) (H3 & H4); cbn in H3, H4; split; cbn; auto; split; cbn; auto.
  - split; cbn; auto. split; cbn; auto.
Qed.
Lemma closed_map_next : forall S A B (I : S -> Prop) (P : A -> Prop) (Q : B -> Prop) f (n : next_fn S A),
  closed_next I P n -> (forall a, P a -> sound Q (f a)) -> closed_next I Q (map_next f n).
Proof.
  intros S A B I P Q f n K Kf s Hs. unfold map_next. eapply sound_bind; [apply K; exact Hs|]. intros (s1 & [a|]) (H1 & H2); cbn in H1, H2.
  - eapply sound_bind; [apply Kf; exact H2|]. intros b Hb. split; cbn; auto.
  - split; cbn; auto.
Qed.
Lemma closed_scan_next : forall S St A B (I : S -> Prop) (J : St -> Prop) (P : A -> Prop) (Q : B -> Prop) f (n : next_fn S A),
  closed_next I P n -> (forall st a, J st -> P a -> sound (pair_of J Q) (f st a)) -> closed_next (pair_of I J) Q (scan_next f n).
Proof.
  intros S St A B I J P Q f n K Kf (s & st) (Hs & Hst). cbn in Hs, Hst. cbn [scan_next]. eapply sound_bind; [apply K; exact Hs|].
  intros (s1 & [a|]) (H1 & H2); cbn in H1, H2.
  - eapply sound_bind; [apply Kf; [exact Hst|exact H2]|]. intros (st1 & b) (H3 & H4). cbn in H3, H4. split; cbn; auto. split; cbn; auto.
  - split; cbn; auto. split; cbn; auto.
Qed.
Lemma closed_range_next : forall hi, closed_next (fun s => snd s = hi) (fun i => i < hi) range_next.
Proof. intros hi (lo & h) E. cbn in E. subst h. unfold range_next. destruct (Nat.ltb_spec lo hi); split; cbn; auto. Qed.
Lemma safe_m_try_from_slice_of_vectors : forall A M N (P : A -> Prop) s, Forall (vec_of N P) s ->
  sound (opt_of (mat_of M N P)) (m_try_from_slice_of_vectors M s).
Proof.
  intros. unfold m_try_from_slice_of_vectors. destruct (length s =? M); [|exact I].
  eapply sound_bind; [eapply safe_m_try_from_iter_of_vectors; [apply closed_list_next|exact H]|].
  intros (? & o) (_ & Ho). cbn in Ho. eapply sound_bind; [apply safe_unwrap; exact Ho|]. intros. exact H0.
Qed.
Lemma safe_m_try_from_slice : forall A M N (P : A -> Prop) s, Forall P s -> sound (opt_of (mat_of M N P)) (m_try_from_slice M N s).
Proof.
  intros. unfold m_try_from_slice. destruct (length s =? M * N); [|exact I].
  eapply sound_bind; [eapply safe_m_try_from_iter; [apply closed_list_next|exact H]|].
  intros (? & o) (_ & Ho). cbn in Ho. eapply sound_bind; [apply safe_unwrap; exact Ho|]. intros. exact H0.
Qed.
Lemma safe_m_indices : forall M N, sound (mat_of M N (pair_of (fun i => i < M) (fun j => j < N))) (m_indices M N).
Proof.
  intros. rewrite m_indices_mk. apply mat_elt. { apply rect_mk. } intros i j x. rewrite elt_mk.
  destruct (Nat.ltb_spec i M), (Nat.ltb_spec j N); cbn; try discriminate. intros E. inversion E. split; cbn; auto.
Qed.
Lemma safe_m_transpose : forall A M N (P : A -> Prop) m, mat_of M N P m -> sound (mat_of N M P) (m_transpose M N m).
Proof.
  intros. destruct (m_transpose_spec (mat_rect H)) as (r & -> & R & E). apply mat_elt; auto. intros i j x Ex. rewrite E in Ex.
  eapply mat_elt_inv; eauto.
Qed.
Lemma safe_m_zip_map : forall A B C M N (P : A -> Prop) (Q : B -> Prop) (R : C -> Prop) (op : A -> B -> res C) a b,
  mat_of M N P a -> mat_of M N Q b -> (forall x y, P x -> Q y -> sound R (op x y)) -> sound (mat_of M N R) (m_zip_map M N op a b).
Proof.
  intros. unfold m_zip_map. eapply sound_bind; [eapply safe_m_zip; eauto|]. intros z Hz. eapply safe_m_map; eauto. intros (x & y) (Hx & Hy). auto.
Qed.
Lemma safe_m_assign : forall T U M N (P : T -> Prop) (Q : U -> Prop) (opa : T -> U -> res T) a b,
  mat_of M N P a -> mat_of M N Q b -> (forall x y, P x -> Q y -> sound P (opa x y)) -> in_place (mat_of M N P) (m_assign M N opa a b).
Proof.
  intros T U M N P Q opa a b Ha Hb K. destruct (Nat.eq_dec M 0) as [E|E].
  - destruct (@m_assign_spec T U opa opa M N a b ltac:(auto) (mat_rect Ha) (mat_rect Hb)) as (X & _). rewrite (X E). split; [exact Ha|exact I].
  - rewrite (m_assign_flat opa (mat_rect Ha) (mat_rect Hb)) by lia.
    destruct (safe_v_assign opa (mat_concat Ha) (mat_concat Hb) K) as (X & Y). destruct (v_assign opa (concat a) (concat b)) as (w & r).
    split; [apply mat_chunk; exact X|exact Y].
Qed.
Lemma safe_m_assign_scalar : forall T U M N (P : T -> Prop) (Q : U -> Prop) (opa : T -> U -> res T) a x,
  mat_of M N P a -> Q x -> (forall x y, P x -> Q y -> sound P (opa x y)) -> in_place (mat_of M N P) (m_assign_scalar M N opa a x).
Proof.
  intros. rewrite m_assign_scalar_flat. eapply safe_m_assign with (Q := Q); eauto. apply mat_elt. { apply rect_mk. }
  intros i j y. rewrite elt_mk. destruct (_ && _); intros E; [|discriminate]. inversion E. subst y. auto.
Qed.
