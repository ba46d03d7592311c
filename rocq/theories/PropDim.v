(** C114, continued: the operations are dimensionally consistent, so the theorems about changes of units apply. *)
From Coq Require Import ZArith Lia List.
From Verif Require Import SpecFacts VFacts MFacts MatProofs AlgFacts SquareModel SpecDet DetFacts SqProofs TransformModel PropEval SpecScale PropScale Instances.
Import ListNotations.
Set Implicit Arguments.
Local Open Scope list_scope.

Section Dim.
  Context {T G : Type} (o : Ops T) (add sub mul : T -> T -> T) (neg : T -> T) (Ht : PropEval.total o add sub mul neg).
  Context (u : units G) (A : abelian u).
  Local Notation so := (unit_ops o u).
  Local Notation Q := (quantity T G).
  Local Notation "a ** b" := (u_mul u a b) (at level 40, left associativity).
  Local Notation inv := (u_inv u).

  Lemma swap4 : forall a b c d, a ** b ** (c ** d) = a ** c ** (b ** d).
  Proof. intros. rewrite <- (ab_assoc A a b), (ab_assoc A b c d), (ab_comm A b c), <- (ab_assoc A c b d), (ab_assoc A a c). reflexivity. Qed.
  Lemma one_r : forall a, a ** u_one u = a.
  Proof. intros. rewrite (ab_comm A). apply (ab_one A). Qed.
  Lemma inv_r : forall a, a ** inv a = u_one u.
  Proof. intros. rewrite (ab_comm A). apply (ab_inv A). Qed.
  Lemma inv_unique : forall a b, a ** b = u_one u -> b = inv a.
  Proof. intros a b H. rewrite <- (ab_one A b), <- (ab_inv A a), <- (ab_assoc A), H. apply one_r. Qed.
  Lemma inv_mul : forall a b, inv (a ** b) = inv a ** inv b.
  Proof. intros. symmetry. apply inv_unique. rewrite swap4, !inv_r. apply (ab_one A). Qed.

  Lemma add_unit : forall x y g, o_add so (x, Some g) (y, Some g) = Ok (add x y, Some g).
  Proof. intros. cbn. rewrite (ab_same A). cbn. rewrite (proj1 Ht). reflexivity. Qed.
  Lemma add_none : forall x y g, o_add so (x, None) (y, g) = Ok (add x y, g).
  Proof. intros. cbn. rewrite (proj1 Ht). reflexivity. Qed.
  Lemma sub_unit : forall x y g, o_sub so (x, Some g) (y, Some g) = Ok (sub x y, Some g).
  Proof. intros. cbn. rewrite (ab_same A). cbn. rewrite (proj1 (proj2 Ht)). reflexivity. Qed.
  Lemma sub_none : forall x y g, o_sub so (x, None) (y, g) = Ok (sub x y, g).
  Proof. intros. cbn. rewrite (proj1 (proj2 Ht)). reflexivity. Qed.
  Lemma mul_any : forall x y g h, o_mul so (x, g) (y, h) = Ok (mul x y, times u g h).
  Proof. intros. cbn. rewrite (proj1 (proj2 (proj2 Ht))). reflexivity. Qed.
  Lemma neg_unit : forall x g, o_neg so (x, g) = Ok (neg x, g).
  Proof. intros. cbn. rewrite (proj2 (proj2 (proj2 Ht))). reflexivity. Qed.

  Theorem C114_consistent_sum : forall g l, l <> [] -> Forall (of_unit g) l -> exists r, v_sum so l = Ok r /\ of_unit g r.
  Proof.
    intros g [|(x & h) l] N H; [contradiction|]. inversion H as [|? ? E H']; subst. unfold of_unit in E. cbn [snd] in E. subst h. unfold v_sum. rewrite v_fold_first_cons. clear N H. revert x.
    induction H' as [|(y & h) l E H IH]; intros x; cbn [fold_res]; [eexists; split; reflexivity|]. unfold of_unit in E. cbn [snd] in E. subst h. rewrite add_unit. cbn [bind]. apply IH.
  Qed.
  Lemma unit_eq : forall g (q : Q), of_unit g q -> q = (fst q, Some g).
  Proof. intros g (x & h) E. unfold of_unit in E. cbn in *. subst. reflexivity. Qed.
  Theorem C114_consistent_dot : forall N a b c x y, 0 < N -> length x = N -> length y = N ->
    (forall i q, nth_error x i = Some q -> of_unit (a i) q) -> (forall i q, nth_error y i = Some q -> of_unit (b i) q) -> (forall i, i < N -> a i ** b i = c) ->
    exists r, v_dot so N x y = Ok r /\ of_unit c r.
  Proof.
    intros N a b c x y HN Lx Ly Hx Hy Hc. destruct (vk_ex so x Lx) as (f & ->), (vk_ex so y Ly) as (g & ->). unfold v_dot. rewrite v_zip_map_res by auto.
    rewrite (@map2_res_vk _ _ _ _ N _ _ (fun i => (mul (fst (f i)) (fst (g i)), Some c))).
    - cbn [bind]. apply C114_consistent_sum; [destruct N; [lia|discriminate]|]. apply Forall_forall. intros q Hq. apply in_map_iff in Hq as (i & <- & _). reflexivity.
    - intros i Hi. assert (Ex : of_unit (a i) (f i)) by (apply Hx; rewrite nth_error_vk; replace (i <? N) with true by (symmetry; apply Nat.ltb_lt; auto); reflexivity).
      assert (Ey : of_unit (b i) (g i)) by (apply Hy; rewrite nth_error_vk; replace (i <? N) with true by (symmetry; apply Nat.ltb_lt; auto); reflexivity).
      apply unit_eq in Ex, Ey. rewrite Ex, Ey, mul_any. cbn [times fst]. rewrite (Hc i Hi). reflexivity.
  Qed.
  Lemma m_map_exists : forall X (P : nat -> nat -> Q -> Prop) (f : X -> res Q) M N h, (forall i j, i < M -> j < N -> exists r, f (h i j) = Ok r /\ P i j r) ->
    exists p, m_map f (mk M N h) = Ok p /\ rect M N p /\ forall i j q, elt p i j = Some q -> P i j q.
  Proof.
    intros X P f M N h H. pose (g := fun i j => match f (h i j) with Ok r => r | _ => o_zero so end). exists (mk M N g). split.
    - apply m_map_mk. intros i j Hi Hj. unfold g. destruct (H i j Hi Hj) as (r & -> & _). reflexivity.
    - split; [apply rect_mk|]. intros i j q E. rewrite elt_mk in E. destruct ((i <? M) && (j <? N))%bool eqn:Lij; [|discriminate E]. assert (q = g i j) by congruence. subst q.
      apply Bool.andb_true_iff in Lij as (Li & Lj). apply Nat.ltb_lt in Li, Lj. unfold g. destruct (H i j Li Lj) as (r & -> & Hr). exact Hr.
  Qed.
  Theorem C114_consistent_product : forall L M N a b c x y, 0 < M -> rect L M x -> rect M N y ->
    (forall i j q, elt x i j = Some q -> of_unit (a i ** b j) q) -> (forall j k q, elt y j k = Some q -> of_unit (inv (b j) ** c k) q) ->
    exists p, m_dot so L M N x y = Ok p /\ rect L N p /\ forall i k q, elt p i k = Some q -> of_unit (a i ** c k) q.
  Proof.
    intros L M N a b c x y HM Rx Ry Hx Hy. destruct (mk_ex so Rx) as (f & ->), (mk_ex so Ry) as (g & ->). unfold m_dot. rewrite m_indices_mk. cbn [bind].
    apply (@m_map_exists _ (fun i k q => of_unit (a i ** c k) q)). intros i k Hi Hk. rewrite m_row_mk by auto. cbn [bind]. rewrite m_col_mk by auto. cbn [bind].
    apply (@C114_consistent_dot M (fun j => a i ** b j) (fun j => inv (b j) ** c k)); auto; try apply vk_length.
    - intros j q E. apply Hx. rewrite elt_mk. rewrite nth_error_vk in E. apply Nat.ltb_lt in Hi. rewrite Hi. destruct (j <? M); auto.
    - intros j q E. apply Hy. rewrite elt_mk. rewrite nth_error_vk in E. apply Nat.ltb_lt in Hk. rewrite Hk. destruct (j <? M); auto.
    - intros j _. rewrite <- (ab_assoc A (a i)), (ab_assoc A (b j)), inv_r, (ab_one A). reflexivity.
  Qed.

  Definition prod_of (a : nat -> G) (l : list nat) : G := fold_right (fun i s => a i ** s) (u_one u) l.
  Lemma prod_remove : forall a l k, k < length l -> prod_of a l = a (nth k l 0) ** prod_of a (remove_at k l).
  Proof.
    intros a. induction l as [|h t IH]; intros [|k] H; cbn [length] in H; try lia; [reflexivity|]. cbn [nth remove_at].
    change (prod_of a (h :: t)) with (a h ** prod_of a t). change (prod_of a (h :: remove_at k t)) with (a h ** prod_of a (remove_at k t)). rewrite (IH k) by lia.
    rewrite !(ab_assoc A), (ab_comm A (a h)). reflexivity.
  Qed.
  Lemma prod_app : forall a l m, prod_of a (l ++ m) = prod_of a l ** prod_of a m.
  Proof. intros a. induction l as [|h l IH]; intros m; cbn; [rewrite (ab_one A); reflexivity|]. fold (prod_of a l) (prod_of a m) (prod_of a (l ++ m)). rewrite IH, (ab_assoc A). reflexivity. Qed.
  Lemma prod_seq : forall a N, prod_of a (seq 0 N) = unit_product u N a.
  Proof. intros a. induction N; [reflexivity|]. rewrite seq_S, prod_app, IHN. cbn. rewrite one_r. reflexivity. Qed.
  Lemma fold_add_unit : forall (body : nat -> res Q) t (l : list nat) acc,
    (forall k, In k l -> exists d, body k = Ok (d, Some t)) -> (snd acc = None \/ snd acc = Some t) -> (l = [] -> snd acc = Some t) ->
    exists d, fold_res (fun a k => let! p := body k in o_add so a p) acc l = Ok (d, Some t).
  Proof.
    intros body t. induction l as [|k l IH]; intros (x & g) H C N; cbn [fold_res].
    - cbn [snd] in N. rewrite (N eq_refl). eexists. reflexivity.
    - destruct (H k) as (d & E); [left; auto|]. rewrite E. cbn [bind]. cbn [snd] in C.
      assert (E' : exists z, o_add so (x, g) (d, Some t) = Ok (z, Some t)). { destruct C as [-> | ->]; [rewrite add_none|rewrite add_unit]; eexists; reflexivity. }
      destruct E' as (z & E'). match goal with |- context [bind ?X _] => replace X with (Ok (z, Some t) : res Q) end. cbn [bind]. apply IH; auto. intros. apply H. right. auto.
  Qed.
  Lemma rneg_unit : forall k c g, exists c', rneg so k (c, g) = Ok (c', g).
  Proof. intros. unfold rneg. destruct (_ =? _)%nat; [eexists; reflexivity|]. cbn. rewrite (proj2 (proj2 (proj2 Ht))). eexists. reflexivity. Qed.
  Lemma rdet_units : forall (q : list (list Q)) (a b : nat -> G) rows cols,
    (forall i j, In i rows -> In j cols -> exists x, m_index q (i, j) = Ok (x, Some (a i ** b j))) -> length rows = length cols ->
    exists d, rdet so q rows cols = Ok (d, Some (prod_of a rows ** prod_of b cols)).
  Proof.
    intros q a b. induction rows as [|i rows IH]; intros cols H L.
    - destruct cols; [|discriminate]. cbn. rewrite (ab_one A). eexists. reflexivity.
    - cbn [rdet]. set (body := fun k => let! x := m_index q (i, nth k cols 0) in let! c := rdet so q rows (remove_at k cols) in let! c1 := rneg so k c in o_mul so x c1).
      destruct (@fold_add_unit body (prod_of a (i :: rows) ** prod_of b cols) (seq 0 (length cols)) (o_zero so)) as (d & E).
      + intros k Hk. apply in_seq in Hk. cbn [length] in L. unfold body. destruct (H i (nth k cols 0)) as (x & Ex); [left; auto|apply nth_In; lia|]. rewrite Ex. cbn [bind].
        destruct (IH (remove_at k cols)) as (c & Ec).
        { intros i' j' Hi Hj. apply H; [right; auto|]. eapply remove_at_in; eauto. }
        { rewrite remove_at_length by lia. lia. }
        rewrite Ec. cbn [bind]. destruct (@rneg_unit k c (Some (prod_of a rows ** prod_of b (remove_at k cols)))) as (c' & R). rewrite R. cbn [bind]. rewrite mul_any. cbn [times]. eexists. f_equal. f_equal. f_equal.
        rewrite (@prod_remove b cols k) by lia. change (prod_of a (i :: rows)) with (a i ** prod_of a rows). apply swap4.
      + left. reflexivity.
      + intros C. destruct cols; [discriminate L|]. discriminate C.
      + exists d. rewrite <- E. apply fold_res_ext. intros acc k _. unfold body. rewrite !bind_assoc'. apply bind_ext. intros ? _. rewrite !bind_assoc'. apply bind_ext. intros ? _. rewrite !bind_assoc'. apply bind_ext. reflexivity.
  Qed.
  Lemma index_unit : forall N (a b : nat -> G) (q : list (list Q)) i j, rect N N q -> (forall i j z, elt q i j = Some z -> of_unit (a i ** b j) z) -> i < N -> j < N ->
    exists x, m_index q (i, j) = Ok (x, Some (a i ** b j)).
  Proof.
    intros N a b q i j R H Hi Hj. destruct (mk_ex so R) as (f & ->). exists (fst (f i j)). rewrite m_index_mk by auto. f_equal. apply unit_eq. apply H. rewrite elt_mk.
    apply Nat.ltb_lt in Hi, Hj. rewrite Hi, Hj. reflexivity.
  Qed.
  (** If rows have units a i and columns b j, so that element (i, j) has unit a i * b j, det has the product of all as its unit. *)
  Theorem C114_consistent_det : forall N a b x, rect N N x -> (forall i j q, elt x i j = Some q -> of_unit (a i ** b j) q) ->
    exists r, m_det so N x = Ok r /\ of_unit (unit_product u N a ** unit_product u N b) r.
  Proof.
    intros N a b x R H. rewrite m_det_spec. destruct (@rdet_units x a b (seq 0 N) (seq 0 N)) as (d & E); auto.
    { intros i j Hi Hj. apply in_seq in Hi, Hj. apply (@index_unit N); auto; lia. }
    rewrite E. eexists. split; [reflexivity|]. unfold of_unit. cbn. rewrite !prod_seq. reflexivity.
  Qed.
  (** Element (i, j) of the inverse has the inverse of the unit of element (j, i). *)
  Theorem C114_consistent_inv : forall N a b x d, (forall v w, o_is_zero o w = false -> exists z, o_div o v w = Ok z) ->
    rect N N x -> (forall i j q, elt x i j = Some q -> of_unit (a i ** b j) q) -> m_det so N x = Ok d -> o_is_zero o (fst d) = false ->
    exists p, m_inv so N x = Ok p /\ rect N N p /\ forall i j q, elt p i j = Some q -> of_unit (inv (a j ** b i)) q.
  Proof.
    intros N a b x d Hd R H Ed Zd.
    assert (Ix : forall i j, i < N -> j < N -> exists z, m_index x (i, j) = Ok (z, Some (a i ** b j))) by (intros; apply (@index_unit N); auto).
    destruct (@rdet_units x a b (seq 0 N) (seq 0 N)) as (D & ED); auto.
    { intros i j Hi Hj. apply in_seq in Hi, Hj. apply Ix; lia. }
    rewrite <- m_det_spec, Ed in ED. apply Ok_inj in ED. subst d. cbn [fst] in Zd. set (t := prod_of a (seq 0 N) ** prod_of b (seq 0 N)) in *.
    unfold m_inv, m_adj. rewrite m_indices_mk. cbn [bind].
    destruct (@m_map_exists _ (fun i j q => exists s, of_unit s q /\ s ** (a j ** b i) = t) (fun '(i, j) => m_cofactor so N x j i) N N (fun i j => (i, j))) as (p & Ep & Rp & Hp).
    { intros i j Hi Hj. cbn. rewrite m_cofactor_spec by auto. destruct (@rdet_units x a b (remove_at j (seq 0 N)) (remove_at i (seq 0 N))) as (c & Ec).
      { intros i' j' Hi' Hj'. apply remove_at_in, in_seq in Hi', Hj'. apply Ix; lia. }
      { rewrite !remove_at_length; rewrite ?seq_length; auto. }
      rewrite Ec. cbn [bind]. destruct (@rneg_unit (j + i) c (Some (prod_of a (remove_at j (seq 0 N)) ** prod_of b (remove_at i (seq 0 N))))) as (c' & Rc). eexists. split; [exact Rc|]. eexists. split; [reflexivity|].
      unfold t. rewrite (@prod_remove a (seq 0 N) j), (@prod_remove b (seq 0 N) i) by (rewrite seq_length; auto). rewrite !seq_nth by auto. cbn [Nat.add]. rewrite swap4. f_equal; apply (ab_comm A). }
    match goal with |- context [m_map ?F ?M] => replace (m_map F M) with (Ok p) end. cbn [bind]. rewrite Ed. cbn [bind]. unfold m_sdiv.
    destruct (mk_ex so Rp) as (f & ->). apply (@m_map_exists _ (fun i j q => of_unit (inv (a j ** b i)) q)). intros i j Hi Hj.
    destruct (Hp i j (f i j)) as (s & Es & Et). { rewrite elt_mk. apply Nat.ltb_lt in Hi, Hj. rewrite Hi, Hj. reflexivity. }
    apply unit_eq in Es. rewrite Es. cbn [o_div unit_ops fst snd]. rewrite Zd. destruct (Hd (fst (f i j)) D Zd) as (z & Ez). exists (z, times u (Some s) (Some (inv t))). cbn [fst]. rewrite Ez. split; [reflexivity|].
    unfold of_unit. cbn. f_equal. rewrite <- Et, inv_mul, (ab_assoc A), inv_r. apply (ab_one A).
  Qed.

  Ltac step := repeat first [rewrite mul_any | rewrite add_unit | rewrite sub_unit | rewrite add_none | rewrite sub_none | rewrite neg_unit | progress cbv beta iota | progress cbn [times]].
  Ltac units := repeat match goal with
    | H : c_of_unit _ ?z |- _ => let r := fresh "r" in let i := fresh "i" in destruct z as [r i]; destruct H as (? & ?); cbn [re im] in *
    | H : q_of_unit _ ?z |- _ => let w := fresh "w" in let x := fresh "x" in let y := fresh "y" in let t := fresh "z" in destruct z as [w x y t]; destruct H as (? & ? & ? & ?); cbn [qw qx qy qz] in *
    | H : of_unit _ ?q |- _ => let x := fresh "x" in let h := fresh "h" in destruct q as (x & h); unfold of_unit in H; cbn [snd] in H; subst h
    end.
  Ltac calc := lazy -[o_add o_sub o_mul o_neg o_div o_zero o_one unit_ops times u_mul u_inv u_one of_unit]; step.
  Ltac found := repeat eexists; unfold of_unit; cbn [snd re im qw qx qy qz]; try reflexivity.
  Theorem C114_consistent_cross : forall g h a0 a1 a2 b0 b1 b2, of_unit g a0 -> of_unit g a1 -> of_unit g a2 -> of_unit h b0 -> of_unit h b1 -> of_unit h b2 ->
    exists x y z, v_cross3 so [a0; a1; a2] [b0; b1; b2] = Ok [x; y; z] /\ of_unit (g ** h) x /\ of_unit (g ** h) y /\ of_unit (g ** h) z.
  Proof. intros. units. calc. found. Qed.
  Theorem C114_consistent_complex_product : forall g h a b, c_of_unit g a -> c_of_unit h b -> exists r, c_mul so a b = Ok r /\ c_of_unit (g ** h) r.
  Proof. intros. units. calc. found. Qed.
  Theorem C114_consistent_complex_norm : forall g a, c_of_unit g a -> exists r, c_norm_sqr so a = Ok r /\ of_unit (g ** g) r.
  Proof. intros. units. calc. found. Qed.
  Lemma cancel : forall g, g ** inv (g ** g) = inv g.
  Proof. intros. rewrite inv_mul, (ab_assoc A), inv_r. apply (ab_one A). Qed.
  Definition divides : Prop := forall v w, o_is_zero o w = false -> exists z, o_div o v w = Ok z.
  Lemma div_unit : forall (D : divides) x y g h, o_is_zero o y = false -> exists z, o_div so (x, Some g) (y, Some h) = Ok (z, Some (g ** inv h)).
  Proof. intros D x y g h Z. destruct (D x y Z) as (z & E). exists z. cbn. rewrite Z, E. reflexivity. Qed.
  Ltac dcase D := repeat match goal with |- context [o_div ?O (?x, Some ?g) (?y, Some ?h)] => let z := fresh "z" in let E := fresh "E" in
    destruct (@div_unit D x y g h) as (z & E); [assumption|]; match goal with |- context [?X] => match X with o_div O (x, Some g) (y, Some h) => replace X with (Ok (z, Some (g ** inv h)) : res Q) by (symmetry; exact E) end end; clear E; cbv beta iota end.
  Theorem C114_consistent_complex_inverse : forall g a n, divides -> c_of_unit g a -> c_norm_sqr so a = Ok n -> o_is_zero o (fst n) = false ->
    exists r, c_inv so a = Ok r /\ c_of_unit (inv g) r.
  Proof.
    intros g a n D Ha En Zn. destruct (C114_consistent_complex_norm Ha) as (n' & En' & Un). rewrite En in En'. apply Ok_inj in En'. subst n'.
    unfold c_inv. rewrite En. units. cbn [fst] in Zn. calc. dcase D. eexists. split; [reflexivity|]. split; unfold of_unit; cbn [snd re im]; rewrite cancel; reflexivity.
  Qed.
  Theorem C114_consistent_complex_quotient : forall g h a b n, divides -> c_of_unit g a -> c_of_unit h b -> c_norm_sqr so b = Ok n -> o_is_zero o (fst n) = false ->
    exists r, c_div so a b = Ok r /\ c_of_unit (g ** inv h) r.
  Proof.
    intros g h a b n D Ha Hb En Zn. destruct (@C114_consistent_complex_inverse h b n D Hb En Zn) as (i & Ei & Hi). unfold c_div. rewrite Ei. cbn [bind]. apply C114_consistent_complex_product; auto.
  Qed.
  Theorem C114_consistent_quaternion_product : forall g h a b, q_of_unit g a -> q_of_unit h b -> exists r, q_mul so a b = Ok r /\ q_of_unit (g ** h) r.
  Proof. intros. units. calc. found. Qed.
  Theorem C114_consistent_quaternion_norm : forall g a, q_of_unit g a -> exists r, q_norm_sqr so a = Ok r /\ of_unit (g ** g) r.
  Proof. intros. units. calc. found. Qed.
  Theorem C114_consistent_quaternion_inverse : forall g a n, divides -> q_of_unit g a -> q_norm_sqr so a = Ok n -> o_is_zero o (fst n) = false ->
    exists r, q_inv so a = Ok r /\ q_of_unit (inv g) r.
  Proof.
    intros g a n D Ha En Zn. destruct (C114_consistent_quaternion_norm Ha) as (n' & En' & Un). rewrite En in En'. apply Ok_inj in En'. subst n'.
    unfold q_inv. rewrite En. units. cbn [fst] in Zn. calc. dcase D. eexists. split; [reflexivity|]. repeat split; unfold of_unit; cbn [snd qw qx qy qz]; rewrite cancel; reflexivity.
  Qed.
  Theorem C114_consistent_quaternion_quotient : forall g h a b n, divides -> q_of_unit g a -> q_of_unit h b -> q_norm_sqr so b = Ok n -> o_is_zero o (fst n) = false ->
    exists r, q_div so a b = Ok r /\ q_of_unit (g ** inv h) r.
  Proof.
    intros g h a b n D Ha Hb En Zn. destruct (@C114_consistent_quaternion_inverse h b n D Hb En Zn) as (i & Ei & Hi). unfold q_div. rewrite Ei. cbn [bind]. apply C114_consistent_quaternion_product; auto.
  Qed.
  (** Applying a rotation whose components are pure numbers keeps the unit of the position. *)
  Theorem C114_consistent_rotation2 : forall h r p0 p1, c_of_unit (u_one u) r -> of_unit h p0 -> of_unit h p1 ->
    exists x y, rot2_apply so r [p0; p1] = Ok [x; y] /\ of_unit h x /\ of_unit h y.
  Proof. intros. units. calc. do 2 eexists. split; [reflexivity|]. split; unfold of_unit; cbn [snd]; rewrite one_r; reflexivity. Qed.
  Lemma mul_zero_r : forall x g, o_mul so (x, g) (o_zero so) = Ok (mul x (o_zero o), None).
  Proof. intros. cbn. rewrite (proj1 (proj2 (proj2 Ht))). destruct g; reflexivity. Qed.
  Lemma sub_none_r : forall x y g, o_sub so (x, g) (y, None) = Ok (sub x y, g).
  Proof. intros. cbn. rewrite (proj1 (proj2 Ht)). destruct g; reflexivity. Qed.
  Lemma add_none_r : forall x y g, o_add so (x, g) (y, None) = Ok (add x y, g).
  Proof. intros. cbn. rewrite (proj1 Ht). destruct g; reflexivity. Qed.
  Theorem C114_consistent_rotation3 : forall h r p0 p1 p2, q_of_unit (u_one u) r -> of_unit h p0 -> of_unit h p1 -> of_unit h p2 ->
    exists x y z, rot3_apply so r [p0; p1; p2] = Ok [x; y; z] /\ of_unit h x /\ of_unit h y /\ of_unit h z.
  Proof.
    intros. units. lazy -[o_add o_sub o_mul o_neg o_div o_zero o_one unit_ops times u_mul u_inv u_one of_unit].
    repeat first [rewrite mul_zero_r | rewrite mul_any | rewrite add_unit | rewrite sub_unit | rewrite add_none | rewrite sub_none | rewrite add_none_r | rewrite sub_none_r | rewrite neg_unit | progress cbv beta iota | progress cbn [times]].
    do 3 eexists. split; [reflexivity|]. repeat split; unfold of_unit; cbn [snd]; rewrite one_r, (ab_one A); reflexivity.
  Qed.
End Dim.

(** * Examples *)
(** Units of length and time, by their exponents. *)
Definition lt_units : units (Z * Z) :=
  {| u_one := (0, 0)%Z; u_mul := fun a b => (fst a + fst b, snd a + snd b)%Z; u_inv := fun a => (- fst a, - snd a)%Z; u_same := fun a b => (Z.eqb (fst a) (fst b) && Z.eqb (snd a) (snd b))%bool |}.
Lemma lt_abelian : abelian lt_units.
Proof.
  split; intros; repeat match goal with p : (Z * Z)%type |- _ => destruct p end; cbn; rewrite ?Z.eqb_refl; try reflexivity; f_equal; lia.
Qed.
Definition z_total : PropEval.total z_ops Z.add Z.sub Z.mul Z.opp.
Proof. repeat split. Qed.
(** Positions and speeds in the plane: the components along the axes may even have units of their own. *)
Example C114_ex_consistent : exists r, m_det (unit_ops z_ops lt_units) 2 [[(3, Some (1, 0)); (5, Some (1, 0))]; [(7, Some (1, -1)); (2, Some (1, -1))]]%Z = Ok r /\ of_unit (2, -1)%Z r.
Proof.
  destruct (@C114_consistent_det Z (Z * Z)%type z_ops _ _ _ _ z_total lt_units lt_abelian 2 (fun i => (1, - Z.of_nat i)%Z) (fun _ => (0, 0)%Z)
    [[(3, Some (1, 0)); (5, Some (1, 0))]; [(7, Some (1, -1)); (2, Some (1, -1))]]%Z) as (r & E & U); [repeat constructor| |exists r; split; [exact E|exact U]].
  intros [|[|i]] [|[|j]] q; cbn; try (destruct i; discriminate); try (destruct j; discriminate); intros E; injection E as <-; reflexivity.
Qed.

Print Assumptions C114_consistent_sum.
Print Assumptions C114_consistent_dot.
Print Assumptions C114_consistent_product.
Print Assumptions C114_consistent_det.
Print Assumptions C114_consistent_inv.
Print Assumptions C114_consistent_cross.
Print Assumptions C114_consistent_complex_product.
Print Assumptions C114_consistent_complex_norm.
Print Assumptions C114_consistent_complex_inverse.
Print Assumptions C114_consistent_complex_quotient.
Print Assumptions C114_consistent_quaternion_product.
Print Assumptions C114_consistent_quaternion_norm.
Print Assumptions C114_consistent_quaternion_inverse.
Print Assumptions C114_consistent_quaternion_quotient.
Print Assumptions C114_consistent_rotation2.
Print Assumptions C114_consistent_rotation3.
