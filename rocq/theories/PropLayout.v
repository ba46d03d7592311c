(** C89: the raw memory of vectors and matrices. *)
From Coq Require Import List Arith Lia Bool.
From Verif Require Import Spec VFacts MFacts MatProofs LayoutModel.
Import ListNotations.
Set Implicit Arguments.

(** * Specification *)
(** A layout of an element type: every value has [size] bytes, and reading them back gives the value. *)
Definition valid_layout {B T : Type} (l : layout B T) : Prop :=
  (forall x, length (bytes_of l x) = size l) /\ (forall x, of_bytes l (bytes_of l x) = Some x).
(** Uninitialised bytes are not a value of the type. *)
Definition rejects_undef {B T : Type} (undef : B) (l : layout B T) : Prop := of_bytes l (repeat undef (size l)) = None.
(** The bytes of a cell that holds [x], and of one that holds nothing. *)
Definition cell_bytes {B T : Type} (undef : B) (l : layout B T) (c : option T) : list B :=
  match c with Some x => bytes_of l x | None => repeat undef (size l) end.

(** * Facts *)
Section Facts.
  Context {B : Type}.
  Lemma firstn_exact : forall A (a b : list A) n, length a = n -> firstn n (a ++ b) = a.
  Proof. intros A a b n <-. rewrite firstn_app, Nat.sub_diag, firstn_all, firstn_O, app_nil_r. reflexivity. Qed.
  Lemma skipn_exact : forall A (a b : list A) n, length a = n -> skipn n (a ++ b) = b.
  Proof. intros A a b n <-. rewrite skipn_app, Nat.sub_diag, skipn_all. reflexivity. Qed.
  Lemma array_bytes_length : forall T (l : layout B T) v, Forall (fun x => length (bytes_of l x) = size l) v -> length (array_bytes l v) = length v * size l.
  Proof. intros T l v H. unfold array_bytes. induction H as [|x t E _ IH]; cbn; auto. now rewrite app_length, E, IH. Qed.
  Lemma array_parse_bytes : forall T (l : layout B T) v, Forall (fun x => length (bytes_of l x) = size l /\ of_bytes l (bytes_of l x) = Some x) v ->
    array_parse l (length v) (array_bytes l v) = Some v.
  Proof.
    intros T l v H. unfold array_bytes. induction H as [|x t (E1 & E2) _ IH]; cbn [length array_parse flat_map]; auto.
    now rewrite firstn_exact, skipn_exact, E2, IH by auto.
  Qed.
  Lemma array_parse_some : forall T (l : layout B T) n b v, array_parse l n b = Some v -> length v = n.
  Proof.
    intros T l. induction n; intros b v E; cbn [array_parse] in E.
    - destruct b; inversion E. reflexivity.
    - destruct (of_bytes l _); [|discriminate]. destruct (array_parse l n _) eqn:P; [|discriminate]. inversion E. cbn. f_equal. eauto.
  Qed.
  Lemma valid_all : forall T (l : layout B T), valid_layout l -> forall v, Forall (fun x => length (bytes_of l x) = size l /\ of_bytes l (bytes_of l x) = Some x) v.
  Proof. intros T l (H1 & H2) v. apply Forall_forall. auto. Qed.
  Lemma valid_len : forall T (l : layout B T), valid_layout l -> forall v, length (array_bytes l v) = length v * size l.
  Proof. intros T l (H1 & H2) v. apply array_bytes_length. apply Forall_forall. auto. Qed.
  Lemma ptr_read_whole : forall T (l : layout B T) mem x, length mem = size l -> of_bytes l mem = Some x -> ptr_read l mem 0 = Ok x.
  Proof. intros T l mem x L E. unfold ptr_read. cbn [Nat.add skipn]. rewrite L, Nat.leb_refl, <- L, firstn_all, E. reflexivity. Qed.
  Lemma rows_bytes : forall T N (l : layout B T) m, bytes_of (vector_layout (length m) (vector_layout N l)) m = array_bytes l (concat m).
  Proof.
    intros. cbn. unfold array_bytes at 1. cbn. induction m; cbn; auto. unfold array_bytes in *. now rewrite flat_map_app, IHm.
  Qed.
  Lemma matrix_bytes : forall T M N (l : layout B T) m, bytes_of (matrix_layout M N l) m = array_bytes l (concat m).
  Proof. intros. exact (rows_bytes N l m). Qed.
  Lemma rect_valid : forall T M N (l : layout B T) m, valid_layout l -> rect M N m ->
    Forall (fun r => length (bytes_of (vector_layout N l) r) = size (vector_layout N l) /\ of_bytes (vector_layout N l) (bytes_of (vector_layout N l) r) = Some r) m.
  Proof.
    intros T M N l m H (_ & F). apply Forall_forall. intros r Hr. rewrite Forall_forall in F. specialize (F r Hr). cbn. split.
    - rewrite valid_len by auto. now rewrite F.
    - rewrite <- F. apply array_parse_bytes, valid_all, H.
  Qed.
  Lemma matrix_bytes_length : forall T M N (l : layout B T) m, valid_layout l -> rect M N m -> length (bytes_of (matrix_layout M N l) m) = M * N * size l.
  Proof. intros T M N l m H R. rewrite matrix_bytes, valid_len, (rect_concat_length R) by auto. reflexivity. Qed.
  Lemma matrix_parse : forall T M N (l : layout B T) m, valid_layout l -> rect M N m -> of_bytes (matrix_layout M N l) (bytes_of (matrix_layout M N l) m) = Some m.
  Proof. intros T M N l m H R. destruct R as (L & F) eqn:ER. rewrite <- L at 1. cbn. apply array_parse_bytes. exact (rect_valid H R). Qed.
  Lemma slot : forall T (l : layout B T) v k x, valid_layout l -> nth_error v k = Some x -> firstn (size l) (skipn (k * size l) (array_bytes l v)) = bytes_of l x.
  Proof.
    intros T l v k x H. pose proof (proj1 H) as H1. revert k. induction v as [|y v IH]; intros [|k] E; cbn in E; try discriminate.
    - inversion E; subst. cbn. now apply firstn_exact.
    - cbn [Nat.mul]. unfold array_bytes. cbn [flat_map]. rewrite <- (IH k E). f_equal. rewrite skipn_app, skipn_all2 by (rewrite H1; lia). cbn [List.app].
      rewrite H1. f_equal. lia.
  Qed.
  Lemma slot_set : forall T (l : layout B T) v k x, valid_layout l -> k < length v ->
    firstn (k * size l) (array_bytes l v) ++ bytes_of l x ++ skipn (k * size l + size l) (array_bytes l v) = array_bytes l (list_set v k x).
  Proof.
    intros T l v k x H. pose proof (proj1 H) as H1. revert k. induction v as [|y v IH]; intros [|k] E; cbn in E; try lia.
    - cbn. f_equal. now apply skipn_exact.
    - cbn [list_set]. unfold array_bytes. cbn [flat_map Nat.mul]. fold (array_bytes l v). fold (array_bytes l (list_set v k x)). rewrite <- (IH k) by lia.
      rewrite firstn_app, firstn_all2 by (rewrite H1; lia). rewrite skipn_app, (skipn_all2 (bytes_of l y)) by (rewrite H1; lia). rewrite H1. cbn [List.app].
      rewrite <- app_assoc. do 2 f_equal; [f_equal; lia|]. f_equal. f_equal. lia.
  Qed.
End Facts.

(** * C89 *)
Section Layout.
  Context {B : Type}.

  (** Reading element [k] through [v.as_ptr()]; beyond the end it is undefined behaviour. *)
  Theorem C89_vector_ptr : forall T N (l : layout B T) v k, valid_layout l -> length v = N ->
    let mem := bytes_of (vector_layout N l) v in
    (forall x, nth_error v k = Some x -> ptr_read l mem (ptr_add l v_as_ptr k) = Ok x) /\
    (forall x, k < N -> exists mem', ptr_write l mem (ptr_add l v_as_ptr k) x = Ok mem' /\ ptr_read (vector_layout N l) mem' 0 = Ok (list_set v k x)) /\
    (N <= k -> 0 < size l -> ptr_read l mem (ptr_add l v_as_ptr k) = UB /\ forall x, ptr_write l mem (ptr_add l v_as_ptr k) x = UB).
  Proof.
    intros T N l v k H L mem. assert (Lm : length mem = N * size l) by (unfold mem; cbn; now rewrite valid_len, L).
    assert (In : k < N -> k * size l + size l <= N * size l) by (intros; nia).
    unfold ptr_read, ptr_write, ptr_add, v_as_ptr. cbn [Nat.add]. split; [|split].
    - intros x E. assert (k < N) by (subst N; apply nth_error_Some; congruence). rewrite Lm. apply In in H0. apply Nat.leb_le in H0. rewrite H0.
      unfold mem. cbn [vector_layout transparent array_layout bytes_of]. rewrite (slot v k H E). now rewrite (proj2 H).
    - intros x Hk. rewrite Lm. pose proof (In Hk) as I. apply Nat.leb_le in I. rewrite I. eexists. split; [reflexivity|].
      unfold mem. cbn [vector_layout transparent array_layout bytes_of]. rewrite slot_set by (auto; lia).
      apply (@ptr_read_whole B (list T) (vector_layout N l)); cbn.
      + rewrite valid_len, list_set_length, L by auto. reflexivity.
      + rewrite <- L, <- (list_set_length v k x). apply array_parse_bytes, valid_all, H.
    - intros Hk Hs. rewrite Lm. replace (k * size l + size l <=? N * size l) with false by (symmetry; apply Nat.leb_gt; nia). auto.
  Qed.
  (** Element [(i, j)] of a matrix is number [i * N + j] from [m.as_ptr()]. *)
  Theorem C89_matrix_ptr_read : forall T M N (l : layout B T) m i j x, valid_layout l -> rect M N m -> j < N -> elt m i j = Some x ->
    ptr_read l (bytes_of (matrix_layout M N l) m) (ptr_add l m_as_ptr (i * N + j)) = Ok x.
  Proof.
    intros T M N l m i j x H R Hj E. rewrite matrix_bytes.
    destruct (@C89_vector_ptr T (M * N) l (concat m) (i * N + j) H (rect_concat_length R)) as (C & _). apply C.
    rewrite (nth_error_concat i R Hj). exact E.
  Qed.
  (** Writing it changes that element and no other, as [m[(i, j)] = x] does. *)
  Theorem C89_matrix_ptr_write : forall T M N (l : layout B T) m i j x, valid_layout l -> rect M N m -> i < M -> j < N ->
    exists mem m', ptr_write l (bytes_of (matrix_layout M N l) m) (ptr_add l m_as_ptr (i * N + j)) x = Ok mem /\
      ptr_read (matrix_layout M N l) mem 0 = Ok m' /\ m_index_set m (i, j) x = Ok m' /\
      rect M N m' /\ elt m' i j = Some x /\ (forall a b, (a, b) <> (i, j) -> elt m' a b = elt m a b).
  Proof.
    intros T M N l m i j x H R Hi Hj. destruct (m_index_set_spec i j x R) as ((w & E & Rw & E1 & E2) & _); [auto|].
    assert (Hk : i * N + j < M * N) by nia.
    assert (C : concat w = list_set (concat m) (i * N + j) x).
    { apply nth_error_ext. intros q. rewrite nth_error_list_set, (rect_concat_length R).
      destruct (Nat.lt_ge_cases q (M * N)) as [Hq|Hq].
      - assert (Nz : N <> 0) by lia. pose proof (Nat.mod_upper_bound q N Nz) as Hm. pose proof (Nat.div_mod q N Nz) as Hd.
        assert (W1 : nth_error (concat w) q = elt w (q / N) (q mod N)) by (rewrite <- (nth_error_concat (q / N) Rw Hm); f_equal; lia).
        assert (W2 : nth_error (concat m) q = elt m (q / N) (q mod N)) by (rewrite <- (nth_error_concat (q / N) R Hm); f_equal; lia). rewrite W1, W2.
        destruct (Nat.eq_dec q (i * N + j)) as [Eq|Nq].
        + assert (Eqi : q / N = i) by (symmetry; apply (Nat.div_unique q N i j); lia). assert (Eqj : q mod N = j) by (symmetry; apply (Nat.mod_unique q N i j); lia).
          rewrite Eqi, Eqj, E1, <- Eq, Nat.eqb_refl. replace (q <? M * N) with true by (symmetry; apply Nat.ltb_lt; lia). reflexivity.
        + rewrite E2 by (intros K; inversion K; subst; lia). replace (i * N + j =? q) with false by (symmetry; apply Nat.eqb_neq; lia). reflexivity.
      - rewrite (proj2 (nth_error_None (concat w) q)) by (rewrite (rect_concat_length Rw); lia).
        rewrite (proj2 (nth_error_None (concat m) q)) by (rewrite (rect_concat_length R); lia).
        replace (i * N + j =? q) with false by (symmetry; apply Nat.eqb_neq; lia). reflexivity. }
    exists (bytes_of (matrix_layout M N l) w), w. split; [|split; [|auto]].
    - rewrite !matrix_bytes, C. unfold ptr_write, ptr_add, m_as_ptr, v_as_ptr. cbn [Nat.add]. rewrite valid_len, (rect_concat_length R) by auto.
      replace ((i * N + j) * size l + size l <=? M * N * size l) with true by (symmetry; apply Nat.leb_le; nia).
      rewrite slot_set; auto. now rewrite (rect_concat_length R).
    - apply ptr_read_whole; [|now apply matrix_parse]. rewrite matrix_bytes_length by auto. cbn. lia.
  Qed.
  (** Beyond the last element it is undefined behaviour. *)
  Theorem C89_matrix_ptr_bounds : forall T M N (l : layout B T) m k, valid_layout l -> rect M N m -> M * N <= k -> 0 < size l ->
    ptr_read l (bytes_of (matrix_layout M N l) m) (ptr_add l m_as_ptr k) = UB /\
    forall x, ptr_write l (bytes_of (matrix_layout M N l) m) (ptr_add l m_as_ptr k) x = UB.
  Proof.
    intros T M N l m k H R Hk Hs. rewrite matrix_bytes. destruct (@C89_vector_ptr T (M * N) l (concat m) k H (rect_concat_length R)) as (_ & _ & C). now apply C.
  Qed.
  (** The cast behind [as_array_of_arrays]: what is read through it is the matrix. *)
  Theorem C89_as_array_of_arrays : forall T M N (l : layout B T) m, valid_layout l -> rect M N m ->
    m_as_array_of_arrays_raw M N l (bytes_of (matrix_layout M N l) m) = Ok m /\ m_as_array_of_arrays m = m.
  Proof.
    intros T M N l m H R. split; [|reflexivity]. unfold m_as_array_of_arrays_raw. apply (@ptr_read_whole B _ (matrix_layout M N l)).
    - rewrite matrix_bytes_length by auto. cbn. lia.
    - now apply matrix_parse.
  Qed.

  (** [from_uninit] and [into_uninit] are inverse to each other and keep the bytes. *)
  Lemma mu_valid : forall T (l : layout B T) c, Forall (fun r => length r = size l) c ->
    Forall (fun x => length (bytes_of (maybe_uninit l) x) = size (maybe_uninit l) /\ of_bytes (maybe_uninit l) (bytes_of (maybe_uninit l) x) = Some x) c.
  Proof. intros T l c F. eapply Forall_impl; [|exact F]. cbn. intros a E. now rewrite E, Nat.eqb_refl. Qed.
  Lemma mu_bytes : forall T (l : layout B T) c, array_bytes (maybe_uninit l) c = concat c.
  Proof. intros. unfold array_bytes. rewrite flat_map_concat_map. cbn. now rewrite map_id. Qed.
  Lemma array_parse_mu : forall T (l : layout B T) n b v, length b = n * size l -> array_parse (maybe_uninit l) n b = Some v ->
    concat v = b /\ length v = n /\ Forall (fun r => length r = size l) v.
  Proof.
    intros T l. induction n; intros b v L E; cbn [array_parse] in E.
    - destruct b; inversion E. auto.
    - cbn [of_bytes maybe_uninit size] in E. destruct (length (firstn (size l) b) =? size l) eqn:E1; [|discriminate]. apply Nat.eqb_eq in E1.
      destruct (array_parse (maybe_uninit l) n (skipn (size l) b)) as [t|] eqn:E2; [|discriminate]. inversion E; subst. apply IHn in E2 as (I1 & I2 & I3).
      + cbn. rewrite I1, firstn_skipn. auto.
      + rewrite skipn_length. cbn in L. lia.
  Qed.
  Lemma array_parse_mu_ok : forall T (l : layout B T) n b, length b = n * size l -> exists v, array_parse (maybe_uninit l) n b = Some v.
  Proof.
    intros T l. induction n; intros b L; cbn [array_parse].
    - destruct b; [|cbn in L; lia]. eauto.
    - cbn [of_bytes maybe_uninit size]. rewrite firstn_length_le by (cbn in L; lia). rewrite Nat.eqb_refl.
      destruct (IHn (skipn (size l) b)) as (t & ->); [rewrite skipn_length; cbn in L; lia|]. eauto.
  Qed.
  Theorem C89_vector_uninit_casts : forall T N (l : layout B T),
    (forall u, length u = N * size l -> exists c, v_from_uninit N l u = Ok c /\ length c = N /\ Forall (fun r => length r = size l) c /\ concat c = u /\ v_into_uninit N l c = Ok u) /\
    (forall c, length c = N -> Forall (fun r => length r = size l) c -> v_into_uninit N l c = Ok (concat c) /\ v_from_uninit N l (concat c) = Ok c).
  Proof.
    intros T N l.
    assert (I : forall c, length c = N -> Forall (fun r => length r = size l) c -> v_into_uninit N l c = Ok (concat c)).
    { intros c L F. unfold v_into_uninit. cbn [bytes_of vector_layout transparent array_layout]. rewrite mu_bytes.
      assert (Lc : length (concat c) = N * size l).
      { rewrite <- L. clear L. induction F as [|r t E _ IH]; cbn; auto. now rewrite app_length, E, IH. }
      apply ptr_read_whole; cbn; [assumption|]. now rewrite Lc, Nat.eqb_refl. }
    assert (G : forall u, length u = N * size l -> exists c, v_from_uninit N l u = Ok c /\ length c = N /\ Forall (fun r => length r = size l) c /\ concat c = u).
    { intros u L. destruct (array_parse_mu_ok l N u L) as (c & E). exists c. destruct (array_parse_mu l N u L E) as (E1 & E2 & E3). split; [|auto].
      unfold v_from_uninit. cbn [bytes_of maybe_uninit]. now apply ptr_read_whole. }
    split.
    - intros u L. destruct (G u L) as (c & E1 & E2 & E3 & E4). exists c. repeat split; auto. rewrite (I c E2 E3). now rewrite E4.
    - intros c L F. split; auto. unfold v_from_uninit. cbn [bytes_of maybe_uninit]. apply ptr_read_whole; cbn.
      + rewrite <- L. clear L I G. induction F as [|r t E _ IH]; cbn; auto. now rewrite app_length, E, IH.
      + rewrite <- (mu_bytes l c), <- L. apply array_parse_bytes. now apply mu_valid.
  Qed.
  Lemma concat_length_const : forall A n (c : list (list A)), Forall (fun r => length r = n) c -> length (concat c) = length c * n.
  Proof. intros A n c F. induction F as [|r t E _ IH]; cbn; auto. now rewrite app_length, E, IH. Qed.
  Lemma map_repeat' : forall A C (f : A -> C) x n, map f (repeat x n) = repeat (f x) n.
  Proof. induction n; cbn; auto. now rewrite IHn. Qed.
  (** A matrix of cells and its bytes, both ways: all cells of [size] bytes, in row-major order. *)
  Theorem C89_matrix_uninit_casts : forall T M N (l : layout B T) c, rect M N c -> Forall (Forall (fun r => length r = size l)) c ->
    m_into_uninit M N l c = Ok (concat (concat c)) /\ m_from_uninit M N l (concat (concat c)) = Ok c.
  Proof.
    intros T M N l c R F.
    assert (F' : Forall (fun r => length r = size l) (concat c)) by (apply Forall_concat; exact F).
    assert (Lc : length (concat (concat c)) = M * N * size l) by (rewrite (concat_length_const F'), (rect_concat_length R); reflexivity).
    split.
    - unfold m_into_uninit. rewrite matrix_bytes, mu_bytes. apply ptr_read_whole; cbn.
      + rewrite Lc. lia.
      + rewrite Lc. replace (M * N * size l =? M * (N * size l)) with true by (symmetry; apply Nat.eqb_eq; lia). reflexivity.
    - unfold m_from_uninit. cbn [bytes_of maybe_uninit]. rewrite <- (mu_bytes l (concat c)), <- (matrix_bytes M N (maybe_uninit l) c).
      apply ptr_read_whole.
      + rewrite matrix_bytes, mu_bytes, Lc. cbn. lia.
      + destruct R as (L & FN). rewrite <- L. cbn. apply array_parse_bytes. apply Forall_forall. intros r Hr. rewrite Forall_forall in F, FN.
        specialize (F r Hr). specialize (FN r Hr). cbn. split.
        * rewrite mu_bytes, (concat_length_const F), FN. reflexivity.
        * rewrite <- FN. apply array_parse_bytes. now apply mu_valid.
  Qed.

  Lemma cell_length : forall T undef (l : layout B T), valid_layout l -> forall c, Forall (fun r => length r = size l) (map (cell_bytes undef l) c).
  Proof. intros T undef l H c. apply Forall_forall. intros r Hr. apply in_map_iff in Hr as ([x|] & <- & _); cbn; [apply H|apply repeat_length]. Qed.
  (** [assume_init] over the bytes does what the cells say: a cell that was never written makes it undefined behaviour, and
      otherwise the values are those of the cells. *)
  Theorem C89_assume_init : forall T undef N (l : layout B T) c, valid_layout l -> rejects_undef undef l -> length c = N ->
    v_assume_init_raw N l (map (cell_bytes undef l) c) = v_assume_init c.
  Proof.
    intros T undef N l c H U L. unfold v_assume_init_raw.
    destruct (C89_vector_uninit_casts N l) as (_ & C). destruct (C (map (cell_bytes undef l) c)) as (-> & _); [now rewrite map_length|now apply cell_length|].
    cbn [bind]. unfold mu_assume_init. cbn [of_bytes vector_layout transparent array_layout]. subst N. clear C.
    induction c as [|[x|] c IH]; cbn [length map concat array_parse v_assume_init cell_bytes]; auto.
    - rewrite firstn_exact, skipn_exact by apply H. rewrite (proj2 H x). destruct (array_parse l (length c) (concat (map (cell_bytes undef l) c))) eqn:E; rewrite <- IH; reflexivity.
    - rewrite firstn_exact by apply repeat_length. rewrite U. reflexivity.
  Qed.
  Theorem C89_uninit : forall T undef N (l : layout B T), v_uninit_raw undef N l = Ok (map (cell_bytes undef l) (v_uninit N)).
  Proof.
    intros T undef N l. unfold v_uninit_raw, v_uninit. destruct (C89_vector_uninit_casts N l) as (_ & C).
    destruct (C (map (cell_bytes undef l) (repeat None N))) as (_ & E).
    - now rewrite map_length, repeat_length.
    - apply Forall_forall. intros r Hr. apply in_map_iff in Hr as (c & <- & Hc). apply repeat_spec in Hc. subst. apply repeat_length.
    - rewrite <- E. f_equal. clear C E. cbn [size vector_layout transparent array_layout]. induction N; cbn; auto. now rewrite <- IHN, <- repeat_app.
  Qed.
  Theorem C89_matrix_assume_init : forall T undef M N (l : layout B T) c, valid_layout l -> rejects_undef undef l -> rect M N c ->
    m_assume_init_raw M N l (map (map (cell_bytes undef l)) c) = m_assume_init c.
  Proof.
    intros T undef M N l c H U R. unfold m_assume_init_raw.
    destruct (@C89_matrix_uninit_casts T M N l (map (map (cell_bytes undef l)) c)) as (-> & _).
    { destruct R as (L & F). split; [now rewrite map_length|]. apply Forall_map. eapply Forall_impl; [|exact F]. cbn. intros. now rewrite map_length. }
    { apply Forall_map. apply Forall_forall. intros. now apply cell_length. }
    cbn [bind]. unfold mu_assume_init, m_assume_init. cbn [of_bytes matrix_layout vector_layout transparent array_layout]. destruct R as (<- & F).
    induction F as [|r c E _ IH]; cbn [length map concat array_parse seq_res]; auto. rewrite concat_app.
    cbn [of_bytes size array_layout].
    assert (Lr : length (concat (map (cell_bytes undef l) r)) = N * size l) by (rewrite (concat_length_const (cell_length undef H r)), map_length; now rewrite E).
    rewrite firstn_exact, skipn_exact by exact Lr. rewrite <- IH. pose proof (@C89_assume_init T undef N l r H U E) as A. unfold v_assume_init_raw in A.
    destruct (C89_vector_uninit_casts N l) as (_ & C). destruct (C (map (cell_bytes undef l) r)) as (E2 & _); [now rewrite map_length|now apply cell_length|].
    rewrite E2 in A. cbn [bind] in A. unfold mu_assume_init in A. cbn [of_bytes vector_layout transparent array_layout] in A. rewrite <- A.
    change (of_bytes (vector_layout N l) (concat (map (cell_bytes undef l) r))) with (array_parse l N (concat (map (cell_bytes undef l) r))).
    destruct (array_parse l N (concat (map (cell_bytes undef l) r))); cbn [bind]; auto. destruct (array_parse (vector_layout N l) (length c) (concat (concat (map (map (cell_bytes undef l)) c)))); reflexivity.
  Qed.
  Theorem C89_matrix_uninit : forall T undef M N (l : layout B T), m_uninit_raw undef M N l = Ok (map (map (cell_bytes undef l)) (m_uninit M N)).
  Proof.
    intros T undef M N l. unfold m_uninit_raw, m_uninit, v_uninit.
    destruct (@C89_matrix_uninit_casts T M N l (map (map (cell_bytes undef l)) (repeat (repeat None N) M))) as (_ & E).
    - rewrite map_repeat', map_repeat'. split; [apply repeat_length|]. apply Forall_forall. intros r Hr. apply repeat_spec in Hr. subst. apply repeat_length.
    - rewrite map_repeat', map_repeat'. apply Forall_forall. intros r Hr. apply repeat_spec in Hr. subst. apply Forall_forall. intros x Hx. apply repeat_spec in Hx. subst. apply repeat_length.
    - etransitivity; [|exact E]. f_equal. clear E. rewrite !map_repeat'. cbn [cell_bytes size matrix_layout vector_layout transparent array_layout].
      assert (Q : forall n, concat (repeat (repeat undef (size l)) n) = repeat undef (n * size l)) by (clear; induction n; cbn; auto; now rewrite IHn, <- repeat_app).
      change (M * size (array_layout N l)) with (M * (N * size l)). induction M; cbn [repeat concat Nat.mul]; auto.
      rewrite concat_app, <- IHM, Q, <- repeat_app. reflexivity.
  Qed.
  (** The cast at the start of [transpose]: the cells of the source hold the elements of the matrix. *)
  Theorem C89_transpose_source : forall T undef M N (l : layout B T) m, valid_layout l -> rect M N m ->
    transpose_source M N l m = Ok (map (map (cell_bytes undef l)) (map (map (@Some T)) m)).
  Proof.
    intros T undef M N l m H R. set (c := map (map (cell_bytes undef l)) (map (map (@Some T)) m)).
    assert (Ec : concat (concat c) = bytes_of (matrix_layout M N l) m).
    { rewrite matrix_bytes. unfold c, array_bytes. clear. rewrite flat_map_concat_map. f_equal. rewrite concat_map. f_equal. rewrite map_map. apply map_ext.
      intros r. apply map_map. }
    destruct (@C89_matrix_uninit_casts T M N l c) as (_ & E).
    - destruct R as (L & F). unfold c. rewrite map_map. split; [now rewrite map_length|]. apply Forall_map. eapply Forall_impl; [|exact F]. cbn. intros. now rewrite !map_length.
    - unfold c. apply Forall_map. apply Forall_forall. intros. now apply cell_length.
    - rewrite <- E. rewrite Ec. reflexivity.
  Qed.
End Layout.

(** * Instance: two one-bit bytes, [None] being the uninitialised byte *)
Definition bits_layout : layout (option bool) (bool * bool) :=
  Layout 2 (fun x => [Some (fst x); Some (snd x)]) (fun b => match b with [Some p; Some q] => Some (p, q) | _ => None end).
Example C89_layout_instance : valid_layout bits_layout /\ rejects_undef None bits_layout.
Proof. split; [|reflexivity]. split; [reflexivity|]. intros (p, q). reflexivity. Qed.
Example C89_ptr_instance : let m := [[(true, true); (false, true); (true, true)]; [(true, true); (true, false); (true, true)]] in
  ptr_read bits_layout (bytes_of (matrix_layout 2 3 bits_layout) m) (ptr_add bits_layout m_as_ptr (1 * 3 + 1)) = Ok (true, false) /\ rect 2 3 m.
Proof. split; [reflexivity|]. split; [reflexivity|]. repeat constructor. Qed.
Example C89_assume_init_instance :
  v_assume_init_raw 2 bits_layout (map (cell_bytes None bits_layout) [Some (true, false); Some (false, false)]) = Ok [(true, false); (false, false)] /\
  v_assume_init_raw 2 bits_layout (map (cell_bytes None bits_layout) [Some (true, false); None]) = UB.
Proof. repeat split; reflexivity. Qed.

Print Assumptions C89_vector_ptr.
Print Assumptions C89_matrix_ptr_read.
Print Assumptions C89_matrix_ptr_write.
Print Assumptions C89_matrix_ptr_bounds.
Print Assumptions C89_as_array_of_arrays.
Print Assumptions C89_vector_uninit_casts.
Print Assumptions C89_matrix_uninit_casts.
Print Assumptions C89_assume_init.
Print Assumptions C89_uninit.
Print Assumptions C89_matrix_assume_init.
Print Assumptions C89_matrix_uninit.
Print Assumptions C89_transpose_source.
