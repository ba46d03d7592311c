(* ------------------------------------------------------------------------- *)
(** * Closed forms                                                              *)
Section Closed.
  Context (prec emax : Z) (rem : spec_float -> spec_float -> spec_float).
  Local Notation fo := (sf_ops prec emax rem).
  Local Notation so := (unit_ops fo sign_units).
  Local Notation Q := (quantity spec_float bool).

  (** Squares, so lengths and directions: bit for bit, signs of zeros included. *)
  Lemma square_opp : forall x, SFmul prec emax (SFopp x) (SFopp x) = SFmul prec emax x x.
  Proof. intros x. exact (@mul_mirror prec emax true true x x). Qed.
  Theorem C115_length : forall sqrt v,
    (let! n := v_neg fo v in v_square_length fo n) = v_square_length fo v /\
    (let! n := v_neg fo v in v_length fo sqrt n) = v_length fo sqrt v /\
    (let! n := v_neg fo v in v_normalize fo sqrt n) = (let! n := v_normalize fo sqrt v in v_neg fo n).
  Proof.
    intros sqrt v. assert (N : v_neg fo v = Ok (map SFopp v)) by (apply v_map_pure). rewrite N. cbn [bind].
    assert (E : v_square_length fo (map SFopp v) = v_square_length fo v).
    { unfold v_square_length. f_equal. rewrite !(@v_map_pure _ _ (fun x => SFmul prec emax x x)). f_equal. rewrite map_map. apply map_ext. apply square_opp. }
    assert (L : v_length fo sqrt (map SFopp v) = v_length fo sqrt v) by (unfold v_length; rewrite E; reflexivity).
    split; auto. split; auto. unfold v_normalize. rewrite L. destruct (v_length fo sqrt v) as [l| | |]; cbn [bind]; auto.
    assert (D : forall v, v_sdiv fo v l = Ok (map (fun x => SFdiv prec emax x l) v)) by (intros; apply (@v_map_pure _ _ (fun x => SFdiv prec emax x l))).
    rewrite !D. cbn [bind]. assert (M : forall v, v_neg fo v = Ok (map SFopp v)) by (intros; apply v_map_pure). rewrite M. f_equal. rewrite !map_map. apply map_ext. intros x. exact (@div_mirror prec emax true false x l).
  Qed.

  Lemma sum_unit : forall (l : list Q) c, l <> [] -> Forall (fun q => snd q = Some c) l -> exists d, v_sum so l = Ok (d, Some c).
  Proof.
    intros [|(x & g) l] c N H; [contradiction|]. inversion H as [|? ? G H']; subst. cbn [snd] in G. subst g. unfold v_sum. rewrite v_fold_first_cons. clear N H. revert x.
    induction H' as [|(y & g) l E H IH]; intros x; cbn [fold_res]; [eexists; reflexivity|]. cbn [snd] in E. subst g.
    cbn [o_add unit_ops fst snd common u_same sign_units]. rewrite Bool.eqb_reflx. cbn. apply IH.
  Qed.
  Lemma bare_vk : forall N (x : nat -> spec_float) (s : nat -> bool), v_bare (vk N (fun i => (x i, Some (s i)))) (vk N x).
  Proof. intros. apply Forall2_vk. reflexivity. Qed.
  Lemma bare_mk : forall M N (x : nat -> nat -> spec_float) (s : nat -> nat -> bool), m_bare (mk M N (fun i j => (x i j, Some (s i j)))) (mk M N x).
  Proof. intros. apply Forall2_mk. reflexivity. Qed.
  Lemma signed_vk : forall N (s : nat -> bool) x y, (forall i, i < N -> alike (mirror (s i) (vget fo (vk N x) i)) (vget fo (vk N y) i)) -> v_signed (vk N (fun i => (x i, Some (s i)))) (vk N y).
  Proof. intros N s x y H. apply Forall2_vk. intros i Hi. specialize (H i Hi). rewrite !vget_vk in H by auto. exact H. Qed.
  Lemma signed_mk : forall M N (s : nat -> nat -> bool) x y, (forall i j, i < M -> j < N -> alike (mirror (s i j) (mget fo (mk M N x) i j)) (mget fo (mk M N y) i j)) ->
    m_signed (mk M N (fun i j => (x i j, Some (s i j)))) (mk M N y).
  Proof. intros M N s x y H. apply Forall2_mk. intros i j Hi Hj. specialize (H i j Hi Hj). rewrite !mget_mk in H by auto. exact H. Qed.
  Lemma Forall2_rect : forall A B (P : A -> B -> Prop) M N m m', Forall2 (Forall2 P) m m' -> rect M N m -> rect M N m'.
  Proof.
    intros A B P M N m m' F (L & Fr). split. { rewrite <- (Forall2_length F). auto. }
    clear L. induction F as [|u v l s Huv F IH]; constructor.
    - inversion Fr; subst. symmetry. apply (Forall2_length Huv).
    - apply IH. inversion Fr; auto.
  Qed.
  Definition fd (N : nat) (x y : nat -> spec_float) : spec_float := match v_dot fo N (vk N x) (vk N y) with Ok d => d | _ => S754_nan end.
  Lemma dot_unit : forall N x y (s t : nat -> bool) c, 0 < N -> (forall i, i < N -> xorb (s i) (t i) = c) ->
    v_dot so N (vk N (fun i => (x i, Some (s i)))) (vk N (fun i => (y i, Some (t i)))) = Ok (fd N x y, Some c).
  Proof.
    intros N x y s t c HN H. set (u := vk N (fun i => (x i, Some (s i)))). set (v := vk N (fun i => (y i, Some (t i)))).
    assert (E : exists d, v_dot so N u v = Ok (d, Some c)).
    { unfold v_dot. rewrite v_zip_map_res by (apply vk_length). unfold u, v. rewrite (@map2_res_vk _ _ _ _ N _ _ (fun i => (SFmul prec emax (x i) (y i), Some c))).
      2:{ intros i Hi. cbn. rewrite (H i Hi). reflexivity. }
      cbn [bind]. apply sum_unit. { destruct N; [lia|discriminate]. } apply Forall_forall. intros q Hq. apply in_map_iff in Hq as (i & <- & _). reflexivity. }
    destruct E as (d & E). destruct (@C115_signs_v_dot prec emax rem N u v (vk N x) (vk N y) (vk N (fun i => mirror (s i) (x i))) (vk N (fun i => mirror (t i) (y i))) (d, Some c)) as ((b & Eb & B) & _);
      try apply vk_length; auto; try (apply Forall2_vk; intros; reflexivity); try (apply Forall2_vk; intros; apply alike_refl).
    rewrite E. unfold fd. rewrite Eb. unfold bare in B. cbn in B. subst b. reflexivity.
  Qed.
  (** Changing the sign of some coordinates in both vectors keeps the dot product; changing them all in one vector changes its sign. *)
  Theorem C115_dot : forall N s t c u v u' v', 0 < N -> length u = N -> length v = N -> length u' = N -> length v' = N ->
    (forall i, i < N -> alike (mirror (s i) (vget fo u i)) (vget fo u' i)) -> (forall i, i < N -> alike (mirror (t i) (vget fo v i)) (vget fo v' i)) ->
    (forall i, i < N -> xorb (s i) (t i) = c) ->
    exists d d', v_dot fo N u v = Ok d /\ v_dot fo N u' v' = Ok d' /\ alike (mirror c d) d'.
  Proof.
    intros N s t c u v u' v' HN Lu Lv Lu' Lv' Hu Hv Hc. destruct (vk_ex fo u Lu) as (x & ->), (vk_ex fo v Lv) as (y & ->), (vk_ex fo u' Lu') as (x' & ->), (vk_ex fo v' Lv') as (y' & ->).
    destruct (@C115_signs_v_dot prec emax rem N _ _ (vk N x) (vk N y) (vk N x') (vk N y') _ (vk_length N _) (vk_length N _) (bare_vk N x s) (bare_vk N y t) (@signed_vk N s _ _ Hu) (@signed_vk N t _ _ Hv) (@dot_unit N x y s t c HN Hc)) as ((d & E & B) & d' & E' & S).
    exists d, d'. split; auto. split; auto. unfold signed in S. cbn in S. unfold bare in B. cbn in B. subst d. auto.
  Qed.

  (** Changing the signs of rows and columns. *)
  Theorem C115_product : forall L M N a b c x y x' y', 0 < M -> rect L M x -> rect M N y -> rect L M x' -> rect M N y' ->
    (forall i j, i < L -> j < M -> alike (mirror (xorb (a i) (b j)) (mget fo x i j)) (mget fo x' i j)) ->
    (forall j k, j < M -> k < N -> alike (mirror (xorb (b j) (c k)) (mget fo y j k)) (mget fo y' j k)) ->
    exists p p', m_dot fo L M N x y = Ok p /\ m_dot fo L M N x' y' = Ok p' /\ rect L N p /\ rect L N p' /\
      forall i k, i < L -> k < N -> alike (mirror (xorb (a i) (c k)) (mget fo p i k)) (mget fo p' i k).
  Proof.
    intros L M N a b c x y x' y' HM Rx Ry Rx' Ry' Hx Hy. destruct (mk_ex fo Rx) as (f & ->), (mk_ex fo Ry) as (g & ->), (mk_ex fo Rx') as (f' & ->), (mk_ex fo Ry') as (g' & ->).
    pose (h := fun i k => (fd M (f i) (fun j => g j k), Some (xorb (a i) (c k))) : Q).
    assert (E : m_dot so L M N (mk L M (fun i j => (f i j, Some (xorb (a i) (b j))))) (mk M N (fun j k => (g j k, Some (xorb (b j) (c k))))) = Ok (mk L N h)).
    { unfold m_dot. rewrite m_indices_mk. cbn [bind]. apply m_map_mk. intros i k Hi Hk. rewrite m_row_mk by auto. cbn [bind]. rewrite m_col_mk by auto. cbn [bind]. apply dot_unit; auto.
      intros j _. destruct (a i), (b j), (c k); reflexivity. }
    destruct (@C115_signs_m_dot prec emax rem L M N _ _ _ _ _ _ _ (rect_mk L M _) (rect_mk M N _) (bare_mk L M f _) (bare_mk M N g _) (@signed_mk L M _ _ _ Hx) (@signed_mk M N _ _ _ Hy) E) as ((p & Ep & B) & p' & Ep' & S).
    exists p, p'. split; auto. split; auto.
    assert (Rp : rect L N p) by (eapply Forall2_rect; [exact B|apply rect_mk]). assert (Rp' : rect L N p') by (eapply Forall2_rect; [exact S|apply rect_mk]). split; auto. split; auto.
    destruct (mk_ex fo Rp) as (u & ->), (mk_ex fo Rp') as (v & ->). intros i k Hi Hk. rewrite !mget_mk by auto.
    pose proof (proj1 (Forall2_mk _ _ _ _ _) B i k Hi Hk) as B1. pose proof (proj1 (Forall2_mk _ _ _ _ _) S i k Hi Hk) as S1. unfold bare in B1. cbn in B1. unfold signed in S1. cbn in S1. rewrite <- B1. exact S1.
  Qed.
  Theorem C115_matrix_vector : forall M N a b c x y x' y', 0 < N -> rect M N x -> length y = N -> rect M N x' -> length y' = N ->
    (forall i j, i < M -> j < N -> alike (mirror (xorb (a i) (b j)) (mget fo x i j)) (mget fo x' i j)) ->
    (forall j, j < N -> alike (mirror (xorb (b j) c) (vget fo y j)) (vget fo y' j)) ->
    exists p p', m_dot_v fo M N x y = Ok p /\ m_dot_v fo M N x' y' = Ok p' /\ length p = M /\ length p' = M /\
      forall i, i < M -> alike (mirror (xorb (a i) c) (vget fo p i)) (vget fo p' i).
  Proof.
    intros M N a b c x y x' y' HN Rx Ly Rx' Ly' Hx Hy. destruct (mk_ex fo Rx) as (f & ->), (vk_ex fo y Ly) as (g & ->), (mk_ex fo Rx') as (f' & ->), (vk_ex fo y' Ly') as (g' & ->).
    pose (h := fun i => (fd N (f i) g, Some (xorb (a i) c)) : Q).
    assert (E : m_dot_v so M N (mk M N (fun i j => (f i j, Some (xorb (a i) (b j))))) (vk N (fun j => (g j, Some (xorb (b j) c)))) = Ok (vk M h)).
    { unfold m_dot_v. rewrite v_indices_seq. cbn [bind]. rewrite <- vk_seq. apply v_map_vk. intros i Hi. rewrite m_row_mk by auto. cbn [bind]. apply dot_unit; auto.
      intros j _. destruct (a i), (b j), c; reflexivity. }
    destruct (@C115_signs_m_dot_v prec emax rem M N _ _ _ _ _ _ _ (rect_mk M N _) (vk_length N _) (bare_mk M N f _) (bare_vk N g _) (@signed_mk M N _ _ _ Hx) (@signed_vk N _ _ _ Hy) E) as ((p & Ep & B) & p' & Ep' & S).
    exists p, p'. split; auto. split; auto. pose proof (Forall2_length B) as L1. pose proof (Forall2_length S) as L2. rewrite vk_length in L1, L2. split; auto. split; auto.
    destruct (vk_ex fo p (eq_sym L1)) as (u & ->), (vk_ex fo p' (eq_sym L2)) as (v & ->). intros i Hi. rewrite !vget_vk by auto.
    pose proof (proj1 (Forall2_vk _ _ _ _) B i Hi) as B1. pose proof (proj1 (Forall2_vk _ _ _ _) S i Hi) as S1. unfold bare in B1. cbn in B1. unfold signed in S1. cbn in S1. rewrite <- B1. exact S1.
  Qed.

  Definition parity (a : nat -> bool) (l : list nat) : bool := fold_right (fun i s => xorb (a i) s) false l.
  Lemma parity_remove : forall a l k, k < length l -> parity a l = xorb (a (nth k l 0)) (parity a (remove_at k l)).
  Proof.
    intros a. induction l as [|h t IH]; intros [|k] H; cbn [length] in H; try lia; [reflexivity|]. cbn [nth remove_at].
    change (parity a (h :: t)) with (xorb (a h) (parity a t)). change (parity a (h :: remove_at k t)) with (xorb (a h) (parity a (remove_at k t))). rewrite (IH k) by lia.
    destruct (a h), (a (nth k t 0)), (parity a (remove_at k t)); reflexivity.
  Qed.
  Lemma fold_add : forall (body : nat -> res Q) t (l : list nat) acc,
    (forall k, In k l -> exists d, body k = Ok (d, Some t)) -> (snd acc = None \/ snd acc = Some t) -> (l = [] -> snd acc = Some t) ->
    exists d, fold_res (fun a k => let! p := body k in o_add so a p) acc l = Ok (d, Some t).
  Proof.
    intros body t. induction l as [|k l IH]; intros (x & g) H A N; cbn [fold_res].
    - cbn [snd] in N. rewrite (N eq_refl). eexists. reflexivity.
    - destruct (H k) as (d & E); [left; auto|]. rewrite E. cbn [bind]. cbn [snd] in A.
      assert (E' : exists z, o_add so (x, g) (d, Some t) = Ok (z, Some t)).
      { destruct A as [-> | ->]; cbn [o_add unit_ops fst snd common u_same sign_units]; [|rewrite Bool.eqb_reflx]; cbn; eexists; reflexivity. }
      destruct E' as (z & ->). cbn [bind]. apply IH; auto. intros. apply H. right. auto.
  Qed.
  Lemma rdet_unit : forall (q : list (list Q)) (a b : nat -> bool) rows cols,
    (forall i j, In i rows -> In j cols -> exists x, m_index q (i, j) = Ok (x, Some (xorb (a i) (b j)))) -> length rows = length cols ->
    exists d, rdet so q rows cols = Ok (d, Some (xorb (parity a rows) (parity b cols))).
  Proof.
    intros q a b. induction rows as [|i rows IH]; intros cols H L.
    - destruct cols; [|discriminate]. cbn. eexists. reflexivity.
    - cbn [rdet]. set (body := fun k => let! x := m_index q (i, nth k cols 0) in let! c := rdet so q rows (remove_at k cols) in let! c1 := rneg so k c in o_mul so x c1).
      destruct (@fold_add body (xorb (parity a (i :: rows)) (parity b cols)) (seq 0 (length cols)) (o_zero so)) as (d & E).
      + intros k Hk. apply in_seq in Hk. cbn [length] in L. unfold body. destruct (H i (nth k cols 0)) as (x & Ex); [left; auto|apply nth_In; lia|]. rewrite Ex. cbn [bind].
        destruct (IH (remove_at k cols)) as (c & Ec).
        { intros i' j' Hi Hj. apply H; [right; auto|]. eapply remove_at_in; eauto. }
        { rewrite remove_at_length by lia. lia. }
        rewrite Ec. cbn [bind]. assert (R : exists c', rneg so k (c, Some (xorb (parity a rows) (parity b (remove_at k cols)))) = Ok (c', Some (xorb (parity a rows) (parity b (remove_at k cols))))).
        { unfold rneg. destruct (_ =? _); [eexists; reflexivity|]. cbn. eexists. reflexivity. }
        destruct R as (c' & ->). cbn [bind]. cbn. eexists. f_equal. f_equal. f_equal. rewrite (@parity_remove b cols k) by lia. fold (parity a rows).
        destruct (a i), (b (nth k cols 0)), (parity a rows), (parity b (remove_at k cols)); reflexivity.
      + left. reflexivity.
      + intros C. destruct cols; [discriminate L|]. discriminate C.
      + exists d. rewrite <- E. apply fold_res_ext. intros acc k _. unfold body. rewrite !bind_assoc'. apply bind_ext. intros ? _. rewrite !bind_assoc'. apply bind_ext. intros ? _. rewrite !bind_assoc'. apply bind_ext. reflexivity.
  Qed.
  Lemma tagged_index : forall N (a b : nat -> bool) f i j, i < N -> j < N -> exists x : spec_float, m_index (mk N N (fun i j => (f i j, Some (xorb (a i) (b j))))) (i, j) = Ok (x, Some (xorb (a i) (b j))).
  Proof. intros. eexists. rewrite m_index_mk by auto. reflexivity. Qed.
  (** Changing the signs of some rows and columns changes the sign of det once for each of them. *)
  Theorem C115_det : forall N a b x x', rect N N x -> rect N N x' ->
    (forall i j, i < N -> j < N -> alike (mirror (xorb (a i) (b j)) (mget fo x i j)) (mget fo x' i j)) ->
    exists d d', m_det fo N x = Ok d /\ m_det fo N x' = Ok d' /\ alike (mirror (xorb (parity a (seq 0 N)) (parity b (seq 0 N))) d) d'.
  Proof.
    intros N a b x x' Rx Rx' H. destruct (mk_ex fo Rx) as (f & ->), (mk_ex fo Rx') as (f' & ->).
    destruct (@rdet_unit (mk N N (fun i j => (f i j, Some (xorb (a i) (b j))))) a b (seq 0 N) (seq 0 N)) as (d & E); auto.
    { intros i j Hi Hj. apply in_seq in Hi, Hj. apply tagged_index; lia. }
    rewrite <- m_det_spec in E.
    destruct (@C115_signs_m_det prec emax rem N _ _ _ _ (rect_mk N N _) (bare_mk N N f _) (@signed_mk N N _ _ _ H) E) as ((p & Ep & B) & p' & Ep' & S).
    exists p, p'. split; auto. split; auto. unfold bare in B. cbn in B. subst p. exact S.
  Qed.
  (** ... and the sign of element (i, j) of the inverse with the signs of column i and row j, unless det is zero. *)
  Theorem C115_inv : forall N a b x x' d, rect N N x -> rect N N x' ->
    (forall i j, i < N -> j < N -> alike (mirror (xorb (a i) (b j)) (mget fo x i j)) (mget fo x' i j)) ->
    m_det fo N x = Ok d -> zero_float d = false ->
    exists c c', m_inv fo N x = Ok c /\ m_inv fo N x' = Ok c' /\ rect N N c /\ rect N N c' /\
      forall i j, i < N -> j < N -> alike (mirror (xorb (a j) (b i)) (mget fo c i j)) (mget fo c' i j).
  Proof.
    intros N a b x x' d Rx Rx' H Ed Zd. destruct (mk_ex fo Rx) as (f & ->), (mk_ex fo Rx') as (f' & ->). set (q := mk N N (fun i j => (f i j, Some (xorb (a i) (b j))))).
    assert (Iq : forall i j, i < N -> j < N -> exists z, m_index q (i, j) = Ok (z, Some (xorb (a i) (b j)))) by (intros; apply tagged_index; auto).
    destruct (@rdet_unit q a b (seq 0 N) (seq 0 N)) as (D & ED); auto.
    { intros i j Hi Hj. apply in_seq in Hi, Hj. apply Iq; lia. }
    rewrite <- m_det_spec in ED.
    assert (ED' : D = d).
    { destruct (@C115_signs_m_det prec emax rem N _ _ _ _ (rect_mk N N _) (bare_mk N N f _) (@signed_mk N N _ _ _ H) ED) as ((p & Ep & B) & _). rewrite Ed in Ep. apply Ok_inj in Ep. subst p. unfold bare in B. cbn in B. auto. }
    subst D. set (t := xorb (parity a (seq 0 N)) (parity b (seq 0 N))) in *.
    assert (CF : forall i j, i < N -> j < N -> exists c, m_cofactor so N q i j = Ok (c, Some (xorb (xorb (a i) (b j)) t))).
    { intros i j Hi Hj. rewrite m_cofactor_spec by auto. destruct (@rdet_unit q a b (remove_at i (seq 0 N)) (remove_at j (seq 0 N))) as (c & Ec).
      { intros i' j' Hi' Hj'. apply remove_at_in, in_seq in Hi', Hj'. apply Iq; lia. }
      { rewrite !remove_at_length; rewrite ?seq_length; auto. }
      rewrite Ec. cbn [bind]. unfold t. rewrite (@parity_remove a (seq 0 N) i), (@parity_remove b (seq 0 N) j) by (rewrite seq_length; auto). rewrite !seq_nth by auto. cbn [Nat.add].
      replace (xorb (xorb (a i) (b j)) _) with (xorb (parity a (remove_at i (seq 0 N))) (parity b (remove_at j (seq 0 N)))).
      2:{ destruct (a i), (b j), (parity a (remove_at i (seq 0 N))), (parity b (remove_at j (seq 0 N))); reflexivity. }
      unfold rneg. destruct (_ =? _); [eexists; reflexivity|]. cbn. eexists. reflexivity. }
    pose (val := fun r : res Q => match r with Ok p => fst p | _ => S754_nan end).
    assert (E : m_inv so N q = Ok (mk N N (fun i j => (SFdiv prec emax (val (m_cofactor so N q j i)) d, Some (xorb (a j) (b i)))))).
    { unfold m_inv, m_adj. rewrite m_indices_mk. cbn [bind]. rewrite (@m_map_mk _ _ _ (fun i j => (val (m_cofactor so N q j i), Some (xorb (xorb (a j) (b i)) t)))).
      2:{ intros i j Hi Hj. destruct (CF j i Hj Hi) as (c & ->). reflexivity. }
      cbn [bind]. rewrite ED. cbn [bind]. unfold m_sdiv. apply m_map_mk. intros i j Hi Hj. cbn [o_div unit_ops fst snd]. rewrite is_zero_float, Zd. cbn. f_equal. f_equal. f_equal.
      destruct (a j), (b i), t; reflexivity. }
    destruct (@C115_signs_m_inv prec emax rem N _ _ _ _ (rect_mk N N _) (bare_mk N N f _) (@signed_mk N N _ _ _ H) E) as ((p & Ep & B) & p' & Ep' & S).
    exists p, p'. split; auto. split; auto.
    assert (Rp : rect N N p) by (eapply Forall2_rect; [exact B|apply rect_mk]). assert (Rp' : rect N N p') by (eapply Forall2_rect; [exact S|apply rect_mk]). split; auto. split; auto.
    destruct (mk_ex fo Rp) as (u & ->), (mk_ex fo Rp') as (v & ->). intros i k Hi Hk. rewrite !mget_mk by auto.
    pose proof (proj1 (Forall2_mk _ _ _ _ _) B i k Hi Hk) as B1. pose proof (proj1 (Forall2_mk _ _ _ _ _) S i k Hi Hk) as S1. unfold bare in B1. cbn in B1. unfold signed in S1. cbn in S1. rewrite <- B1. exact S1.
  Qed.

  (** ** Complex numbers and quaternions *)
  Local Notation tag := (fun (b : bool) (x : spec_float) => (x, Some b) : Q).
  Definition c_tag (s t : bool) (z : complex spec_float) : complex Q := Cx (tag s (re z)) (tag t (im z)).
  Definition c_flip (s t : bool) (z : complex spec_float) : complex spec_float := Cx (mirror s (re z)) (mirror t (im z)).
  Definition q_tag (r s t u : bool) (z : quat spec_float) : quat Q := Qt (tag r (qw z)) (tag s (qx z)) (tag t (qy z)) (tag u (qz z)).
  Definition q_flip (r s t u : bool) (z : quat spec_float) : quat spec_float := Qt (mirror r (qw z)) (mirror s (qx z)) (mirror t (qy z)) (mirror u (qz z)).
  Lemma c_tag_bare : forall s t z, c_bare (c_tag s t z) z.
  Proof. intros. split; reflexivity. Qed.
  Lemma c_tag_signed : forall s t z, c_signed (c_tag s t z) (c_flip s t z).
  Proof. intros. split; apply alike_refl. Qed.
  Lemma q_tag_bare : forall r s t u z, q_bare (q_tag r s t u z) z.
  Proof. intros. repeat split; reflexivity. Qed.
  Lemma q_tag_signed : forall r s t u z, q_signed (q_tag r s t u z) (q_flip r s t u z).
  Proof. intros. repeat split; apply alike_refl. Qed.
  (** If the signs of the imaginary parts (s), or of whole factors (a, b), change then so do those of the result. *)
  Theorem C115_complex_mul : forall a b s x y, exists p p',
    c_mul fo x y = Ok p /\ c_mul fo (c_flip a (xorb a s) x) (c_flip b (xorb b s) y) = Ok p' /\ c_alike (c_flip (xorb a b) (xorb (xorb a b) s) p) p'.
  Proof.
    intros a b s x y.
    assert (E : exists u v, c_mul so (c_tag a (xorb a s) x) (c_tag b (xorb b s) y) = Ok (c_tag (xorb a b) (xorb (xorb a b) s) (Cx u v))).
    { destruct a, b, s; do 2 eexists; reflexivity. }
    destruct E as (u & v & E).
    destruct (@C115_signs_c_mul prec emax rem _ _ _ _ _ _ _ (c_tag_bare _ _ _) (c_tag_bare _ _ _) (c_tag_signed _ _ _) (c_tag_signed _ _ _) E) as ((p & Ep & B) & p' & Ep' & S).
    exists p, p'. split; auto. split; auto. destruct p, B as (B1 & B2). unfold bare in B1, B2. cbn in B1, B2. subst. exact S.
  Qed.
  Lemma eqb_zero : forall x, SFeqb x (S754_zero false) = zero_float x.
  Proof. exact (is_zero_float prec emax rem). Qed.
  Theorem C115_complex_div : forall a b s x y n, c_norm_sqr fo y = Ok n -> zero_float n = false -> exists p p',
    c_div fo x y = Ok p /\ c_div fo (c_flip a (xorb a s) x) (c_flip b (xorb b s) y) = Ok p' /\ c_alike (c_flip (xorb a b) (xorb (xorb a b) s) p) p'.
  Proof.
    intros a b s [xr xi] [yr yi] n En Z. rewrite <- eqb_zero in Z. lazy -[SFadd SFmul SFeqb] in En. apply Ok_inj in En. subst n.
    assert (E : exists u v, c_div so (c_tag a (xorb a s) (Cx xr xi)) (c_tag b (xorb b s) (Cx yr yi)) = Ok (c_tag (xorb a b) (xorb (xorb a b) s) (Cx u v))).
    { destruct a, b, s; lazy -[SFadd SFsub SFmul SFdiv SFopp SFeqb]; rewrite Z; do 2 eexists; reflexivity. }
    destruct E as (u & v & E).
    destruct (@C115_signs_c_div prec emax rem _ _ _ _ _ _ _ (c_tag_bare _ _ _) (c_tag_bare _ _ _) (c_tag_signed _ _ _) (c_tag_signed _ _ _) E) as ((p & Ep & B) & p' & Ep' & S).
    exists p, p'. split; auto. split; auto. destruct p, B as (B1 & B2). unfold bare in B1, B2. cbn in B1, B2. subst. exact S.
  Qed.
  (** For quaternions: the signs of two of the three imaginary parts. *)
  Theorem C115_quaternion_mul : forall a b s t x y, exists p p',
    q_mul fo x y = Ok p /\ q_mul fo (q_flip a (xorb a s) (xorb a t) (xorb a (xorb s t)) x) (q_flip b (xorb b s) (xorb b t) (xorb b (xorb s t)) y) = Ok p' /\
    q_alike (q_flip (xorb a b) (xorb (xorb a b) s) (xorb (xorb a b) t) (xorb (xorb a b) (xorb s t)) p) p'.
  Proof.
    intros a b s t x y.
    assert (E : exists w u v z, q_mul so (q_tag a (xorb a s) (xorb a t) (xorb a (xorb s t)) x) (q_tag b (xorb b s) (xorb b t) (xorb b (xorb s t)) y) =
      Ok (q_tag (xorb a b) (xorb (xorb a b) s) (xorb (xorb a b) t) (xorb (xorb a b) (xorb s t)) (Qt w u v z))).
    { destruct a, b, s, t; do 4 eexists; reflexivity. }
    destruct E as (w & u & v & z & E).
    destruct (@C115_signs_q_mul prec emax rem _ _ _ _ _ _ _ (q_tag_bare _ _ _ _ _) (q_tag_bare _ _ _ _ _) (q_tag_signed _ _ _ _ _) (q_tag_signed _ _ _ _ _) E) as ((p & Ep & B) & p' & Ep' & S).
    exists p, p'. split; auto. split; auto. destruct p, B as (B1 & B2 & B3 & B4). unfold bare in B1, B2, B3, B4. cbn in B1, B2, B3, B4. subst. exact S.
  Qed.
  Theorem C115_quaternion_div : forall a b s t x y n, q_norm_sqr fo y = Ok n -> zero_float n = false -> exists p p',
    q_div fo x y = Ok p /\ q_div fo (q_flip a (xorb a s) (xorb a t) (xorb a (xorb s t)) x) (q_flip b (xorb b s) (xorb b t) (xorb b (xorb s t)) y) = Ok p' /\
    q_alike (q_flip (xorb a b) (xorb (xorb a b) s) (xorb (xorb a b) t) (xorb (xorb a b) (xorb s t)) p) p'.
  Proof.
    intros a b s t [xw xx xy xz] [yw yx yy yz] n En Z. rewrite <- eqb_zero in Z. lazy -[SFadd SFmul SFeqb] in En. apply Ok_inj in En. subst n.
    assert (E : exists w u v z, q_div so (q_tag a (xorb a s) (xorb a t) (xorb a (xorb s t)) (Qt xw xx xy xz)) (q_tag b (xorb b s) (xorb b t) (xorb b (xorb s t)) (Qt yw yx yy yz)) =
      Ok (q_tag (xorb a b) (xorb (xorb a b) s) (xorb (xorb a b) t) (xorb (xorb a b) (xorb s t)) (Qt w u v z))).
    { destruct a, b, s, t; lazy -[SFadd SFsub SFmul SFdiv SFopp SFeqb]; rewrite Z; do 4 eexists; reflexivity. }
    destruct E as (w & u & v & z & E).
    destruct (@C115_signs_q_div prec emax rem _ _ _ _ _ _ _ (q_tag_bare _ _ _ _ _) (q_tag_bare _ _ _ _ _) (q_tag_signed _ _ _ _ _) (q_tag_signed _ _ _ _ _) E) as ((p & Ep & B) & p' & Ep' & S).
    exists p, p'. split; auto. split; auto. destruct p, B as (B1 & B2 & B3 & B4). unfold bare in B1, B2, B3, B4. cbn in B1, B2, B3, B4. subst. exact S.
  Qed.
  (** A mirror image of plane, rotation and point: the mirror image of the result. *)
  Theorem C115_rotation2 : forall a b s r x y, exists p q p' q',
    rot2_apply fo r [x; y] = Ok [p; q] /\ rot2_apply fo (c_flip a (xorb a s) r) [mirror b x; mirror (xorb b s) y] = Ok [p'; q'] /\
    alike (mirror (xorb a b) p) p' /\ alike (mirror (xorb (xorb a b) s) q) q'.
  Proof.
    intros a b s r x y. destruct (@C115_complex_mul b a s (Cx x y) r) as ((p & q) & (p' & q') & E & E' & A1 & A2). exists p, q, p', q'.
    unfold rot2_apply. cbn [c_from_vector bind]. change (c_from_vector [x; y]) with (Ok (Cx x y)). change (c_from_vector [mirror b x; mirror (xorb b s) y]) with (Ok (Cx (mirror b x) (mirror (xorb b s) y))). cbn [bind].
    rewrite E. change (Cx (mirror b x) (mirror (xorb b s) y)) with (c_flip b (xorb b s) (Cx x y)). rewrite E'. cbn [bind]. split; [reflexivity|]. split; [reflexivity|].
    cbn in A1, A2. rewrite (Bool.xorb_comm a b). auto.
  Qed.
  (** A half turn of the coordinate frame (s, t), the opposite quaternion (a: the result is the same), the opposite point (b). *)
  Theorem C115_rotation3 : forall a b s t r x y z, exists p q u p' q' u',
    rot3_apply fo r [x; y; z] = Ok [p; q; u] /\
    rot3_apply fo (q_flip a (xorb a s) (xorb a t) (xorb a (xorb s t)) r) [mirror (xorb b s) x; mirror (xorb b t) y; mirror (xorb b (xorb s t)) z] = Ok [p'; q'; u'] /\
    alike (mirror (xorb b s) p) p' /\ alike (mirror (xorb b t) q) q' /\ alike (mirror (xorb b (xorb s t)) u) u'.
  Proof.
    intros a b s t r x y z.
    assert (E : exists p q u, rot3_apply so (q_tag a (xorb a s) (xorb a t) (xorb a (xorb s t)) r) [tag (xorb b s) x; tag (xorb b t) y; tag (xorb b (xorb s t)) z] =
      Ok [tag (xorb b s) p; tag (xorb b t) q; tag (xorb b (xorb s t)) u]).
    { destruct r as [rw rx ry rz], a, b, s, t; lazy -[SFadd SFsub SFmul SFdiv SFopp]; do 3 eexists; reflexivity. }
    destruct E as (p & q & u & E).
    set (l1 := [tag (xorb b s) x; tag (xorb b t) y; tag (xorb b (xorb s t)) z]) in E.
    assert (Bv : v_bare l1 [x; y; z]) by (repeat constructor).
    assert (Sv : v_signed l1 [mirror (xorb b s) x; mirror (xorb b t) y; mirror (xorb b (xorb s t)) z]).
    { apply Forall2_cons; [apply alike_refl|]. apply Forall2_cons; [apply alike_refl|]. apply Forall2_cons; [apply alike_refl|]. apply Forall2_nil. }
    destruct (@C115_signs_rot3_apply prec emax rem _ l1 _ _ _ _ _ eq_refl (q_tag_bare _ _ _ _ r) Bv (q_tag_signed _ _ _ _ r) Sv E) as ((l & El & B) & l' & El' & S).
    inversion B as [|? x1 ? ? B1 Br1]; subst. inversion Br1 as [|? x2 ? ? B2 Br2]; subst. inversion Br2 as [|? x3 ? ? B3 Br3]; subst. inversion Br3; subst.
    inversion S as [|? y1 ? ? S1 Sr1]; subst. inversion Sr1 as [|? y2 ? ? S2 Sr2]; subst. inversion Sr2 as [|? y3 ? ? S3 Sr3]; subst. inversion Sr3; subst.
    unfold bare in B1, B2, B3. cbn in B1, B2, B3. subst. exists x1, x2, x3, y1, y2, y3. split; auto.
  Qed.
  (** Signs of zeros can change: -(x + y) is not -x + -y when the sum is zero. *)
  Theorem C115_zero_refuted : exists x y : spec_float, SFopp (SFadd 53 1024 x y) <> SFadd 53 1024 (SFopp x) (SFopp y).
  Proof. exists f64_3, (SFopp f64_3). vm_compute. discriminate. Qed.
End Closed.

(* ------------------------------------------------------------------------- *)
(** * Examples                                                                  *)
Section Ex115.
  Local Notation o64 := (sf_ops 53 1024 (fun x _ => x)).
  (** det of [[3,5],[7,-2]] and of [[-3,5],[-7,-2]] (column 0 negated). *)
  Example C115_ex_det : exists d d', m_det o64 2 [[f64_3; f64_5]; [f64_7; f64_m2]] = Ok d /\
    m_det o64 2 [[SFopp f64_3; f64_5]; [SFopp f64_7; f64_m2]] = Ok d' /\ alike (SFopp d) d' /\ zero_float d = false.
  Proof.
    destruct (@C115_det 53 1024 (fun x _ => x) 2 (fun _ => false) (fun j => j =? 0) [[f64_3; f64_5]; [f64_7; f64_m2]] [[SFopp f64_3; f64_5]; [SFopp f64_7; f64_m2]]) as (d & d' & E & E' & S).
    - split; [reflexivity|repeat constructor].
    - split; [reflexivity|repeat constructor].
    - intros [|[|i]] [|[|j]] Hi Hj; try lia; apply alike_refl.
    - exists d, d'. split; auto. split; auto. split; auto. vm_compute in E. apply Ok_inj in E. subst d. reflexivity.
  Qed.
End Ex115.
