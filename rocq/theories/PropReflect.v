(** C127: every orthogonal matrix is a product of at most N reflections. *)
From Coq Require Import Reals Lra Psatz Lia.
From Verif Require Import Spec SpecRing SpecDet AlgFacts MFacts DetFacts MatProofs SqProofs SquareModel RealInst RealFacts PropReal PropSquare PropLinear PropSO3 PropCond PropNearest.
Import ListNotations.
Set Implicit Arguments.
Local Open Scope R_scope.
Local Open Scope list_scope.

Local Notation ro := r_ops.
Local Notation dl i j := (if Nat.eqb i j then 1 else 0).
(** The product of the reflections along the vectors [ws]: the last one acts first. *)
Definition mirrors (N : nat) (ws : list (list R)) : res (list (list R)) :=
  fold_right (fun w acc => let! h := mirror N w in let! p := acc in m_dot ro N N N h p) (m_one ro N) ws.
Definition axes (N : nat) (ws : list (list R)) : Prop := Forall (fun w => length w = N /\ nonzero ro w) ws.

Definition orth (N : nat) (f : nat -> nat -> R) : Prop := forall j k, (j < N)%nat -> (k < N)%nat -> ip N (fun i => f i j) (fun i => f i k) = dl j k.
Lemma orth_orthogonal : forall N f, (0 < N)%nat -> (orthogonal N (mk N N f) <-> orth N f).
Proof.
  intros N f HN. unfold orthogonal. rewrite m_transpose_mk. cbn [bind]. rewrite dot_r, m_one_mk by auto. split.
  - intros (_ & E) j k Hj Hk. apply Ok_inj in E. apply (f_equal (fun m => mget ro m j k)) in E. rewrite !mget_mk in E by auto. exact E.
  - intros H. split; [apply rect_mk|]. f_equal. apply mk_ext. intros i j Hi Hj. apply (H i j Hi Hj).
Qed.
Lemma ip_delta : forall N u j, (j < N)%nat -> ip N u (fun i => dl i j) = u j.
Proof.
  intros N u j Hj. unfold ip. rewrite (rsum_ext _ (fun i => if Nat.eqb i j then u i else 0)). { apply (@bigsum_delta _ _ r_ring N j u Hj). } intros i _. destruct (Nat.eqb i j); ring.
Qed.
Lemma step : forall N k f, (k <= N)%nat -> (0 < N)%nat -> orth N f -> (forall i j, (i < N)%nat -> (k <= j < N)%nat -> f i j = dl i j) ->
  exists ws, (length ws <= k)%nat /\ axes N ws /\ mirrors N ws = Ok (mk N N f).
Proof.
  intros N k. induction k as [|k IH]; intros f Hk HN O E.
  { exists []. split; [auto|]. split; [constructor|]. cbn. rewrite m_one_mk. f_equal. apply mk_ext. intros. rewrite E by lia. reflexivity. }
  set (v := fun i => f i k). set (w := fun i => v i - dl i k). assert (Kk : (k < N)%nat) by lia.
  assert (V : ip N v v = 1). { unfold v. rewrite O by auto. rewrite Nat.eqb_refl. reflexivity. }
  assert (WW : ip N w w = 2 * (1 - v k)). { unfold w. rewrite ip_sub_l, !ip_sub_r, V, !ip_delta, (ip_comm N (fun i => dl i k) v), !ip_delta by auto. rewrite Nat.eqb_refl. ring. }
  destruct (Req_dec (ip N w w) 0) as [Z|Z].
  { (* the column is already that of one *)
    destruct (IH f) as (ws & L & A & P); auto; [lia| |exists ws; split; [lia|auto]]. intros i j Hi Hj. destruct (Nat.eq_dec j k) as [->|Nj]; [|apply E; lia]. pose proof (@ip_zero N w Z i Hi) as Q. unfold w, v in Q. lra. }
  set (h := fun i j : nat => dl i j - w i * w j * (2 / ip N w w)).
  assert (P0 : 0 < ip N w w) by (pose proof (ip_pos N w); lra).
  assert (H : forall i j, (i < N)%nat -> mm N h f i j = f i j - w i * (2 * ip N w (fun l => f l j) / ip N w w)) by (intros i j Hi; exact (mirror_mv (N:=N) w (fun l => f l j) Hi)).
  assert (WJ : forall j, (k < j < N)%nat -> ip N w (fun l => f l j) = 0).
  { intros j Hj. unfold w. rewrite ip_sub_l. unfold v. rewrite O by lia. rewrite (ip_comm N (fun i => dl i k)), ip_delta by auto. rewrite E by lia. destruct (Nat.eqb_spec k j); [lia|]. ring. }
  assert (WV : ip N w v = ip N w w / 2). { rewrite WW. unfold w. rewrite ip_sub_l, V, (ip_comm N _ v), ip_delta by auto. field. }
  destruct (IH (mm N h f)) as (ws & L & A & P); [lia|auto| | |].
  - intros a b Ha Hb. rewrite <- (O a b Ha Hb). rewrite <- (@mirror_ip N w (fun i => f i a) (fun i => f i b) P0). apply ip_ext; intros; apply H; auto.
  - intros i j Hi Hj. rewrite H by auto. destruct (Nat.eq_dec j k) as [->|Nj].
    + fold v. rewrite WV. change (f i k) with (v i). change (w i) with (v i - dl i k). field. auto.
    + rewrite WJ by lia. rewrite E by lia. field. auto.
  - exists (vk N w :: ws). split; [cbn; lia|]. split.
    + constructor; auto. split; [apply vk_length|]. apply nonzero_vk. assert (X : exists i, (i < N)%nat /\ w i <> 0); [|exact X].
      exists k. split; auto. intros Q. unfold w in Q. rewrite Nat.eqb_refl in Q. apply Z. rewrite WW. lra.
    + cbn [mirrors fold_right]. fold (mirrors N ws). rewrite P, mirror_mk by auto. cbn [bind]. fold h. rewrite dot_r by auto. f_equal. apply mk_ext. intros i j Hi Hj.
      rewrite <- mm_assoc. fold h. rewrite (@mm_ext N N N (mm N h h) (fun i j => dl i j) f f) by (auto; intros a b Ha Hb; unfold mm; change (mv N h (fun c => h c b) a = dl a b); unfold h at 1; rewrite mirror_mv by auto;
        assert (Q : ip N w (fun c => h c b) = - w b) by (unfold h; rewrite (@ip_ext N w w _ (fun c => dl c b - w c * (w b * (2 / ip N w w)))) by (auto; intros; ring); rewrite ip_sub_r, ip_mul_r, ip_delta by auto; field; auto); rewrite Q; unfold h; field; auto).
      rewrite mm_one_l by auto. reflexivity.
Qed.
(** Every orthogonal matrix is a product of at most N reflections in hyperplanes through the origin, *)
Theorem C127_reflections : forall N m, (0 < N)%nat -> orthogonal N m -> exists ws, (length ws <= N)%nat /\ axes N ws /\ mirrors N ws = Ok m.
Proof.
  intros N m HN O. pose proof (proj1 O) as Rm. destruct (mk_ex ro Rm) as (f & ->). apply orth_orthogonal in O; auto. apply step; auto. intros. lia.
Qed.
(** and every product of reflections is orthogonal, with determinant 1 or -1 as their number is even or odd. *)
Theorem C127_products : forall N ws, (0 < N)%nat -> axes N ws -> exists m, mirrors N ws = Ok m /\ orthogonal N m /\ m_det ro N m = Ok (if Nat.even (length ws) then 1 else -1).
Proof.
  intros N ws HN. induction ws as [|w ws IH]; intros A.
  - cbn. rewrite m_one_mk. eexists. split; [reflexivity|]. split.
    + apply orth_orthogonal; auto. intros j k Hj Hk. cbn. rewrite (@ip_delta N (fun i => dl i j) k Hk). rewrite (Nat.eqb_sym k j). reflexivity.
    + pose proof (C31_one r_ring N) as D. rewrite m_one_mk in D. exact D.
  - apply Forall_cons_iff in A as ((Lw & Nw) & A'). destruct (IH A') as (p & P & Op & Dp). destruct (vk_ex ro w Lw) as (g & ->). pose proof (nonzero_ip _ _ Nw) as C.
    pose proof (mirror_mk g HN) as Hm. destruct (C126_mirror_orthogonal Lw HN Nw Hm) as (_ & _ & D & _).
    pose proof (proj1 Op) as Rp. destruct (mk_ex ro Rp) as (f & ->). cbn [mirrors fold_right]. fold (mirrors N ws). rewrite P, Hm. cbn [bind].
    eexists. split; [apply dot_r; auto|]. split.
    + apply orth_orthogonal; auto. apply orth_orthogonal in Op; auto. intros j k Hj Hk. rewrite <- (Op j k Hj Hk), <- (@mirror_ip N g (fun i => f i j) (fun i => f i k) C). apply ip_ext; intros i Hi; [exact (mirror_mv (N:=N) g (fun l => f l j) Hi)|exact (mirror_mv (N:=N) g (fun l => f l k) Hi)].
    + destruct (C31_product r_ring (rect_mk N N (fun i j => dl i j - g i * g j * (2 / ip N g g))) (rect_mk N N f)) as (d & E1 & E2). rewrite dot_r in E1 by auto. cbn [bind] in E1. rewrite E1, <- E2, D, Dp. cbn [bind length]. rewrite Nat.even_succ, <- Nat.negb_even. destruct (Nat.even (length ws)); cbn [negb]; [change (@Ok R (-1 * 1) = Ok (-1))|change (@Ok R (-1 * -1) = Ok 1)]; apply f_equal; ring.
Qed.
(** So an orthogonal matrix has determinant 1 or -1, and every isometry of space is a shift after at most N reflections. *)
Corollary C127_det : forall N m, (0 < N)%nat -> orthogonal N m -> m_det ro N m = Ok 1 \/ m_det ro N m = Ok (-1).
Proof.
  intros N m HN O. destruct (C127_reflections HN O) as (ws & _ & A & E). destruct (C127_products HN A) as (m' & E' & _ & D). rewrite E in E'. apply Ok_inj in E'. subst m'. destruct (Nat.even (length ws)); auto.
Qed.
Corollary C127_isometry : forall N f, (0 < N)%nat -> isometry N f -> exists s ws m, length s = N /\ (length ws <= N)%nat /\ axes N ws /\ mirrors N ws = Ok m /\
  forall x, length x = N -> (let! y := m_dot_v ro N N m x in v_add ro N y s) = Ok (f x).
Proof.
  intros N f HN I. destruct (C102_isometry HN I) as (s & m & Ls & O & E). destruct (C127_reflections HN O) as (ws & L & A & P). exists s, ws, m. repeat (split; [auto|]). intros x Lx. exact (E x Lx).
Qed.
(* the swap of the two axes is one reflection, the quarter turn is two *)
Example C127_swap_ex : axes 2 [[1; -1]] /\ mirrors 2 [[1; -1]] = Ok [[0; 1]; [1; 0]].
Proof.
  split. { repeat constructor. exists 0%nat, 1. split; [reflexivity|]. cbn. lra. }
  cbn [mirrors fold_right]. change [1; -1] with (vk 2 (fun i => nth i [1; -1] 0)). rewrite mirror_mk by lia. rewrite m_one_mk. cbn [bind]. rewrite dot_r by lia. f_equal. change [[0; 1]; [1; 0]] with (mk 2 2 (mget ro [[0; 1]; [1; 0]])). apply mk_ext. intros i j Hi Hj.
  assert (Q : ip 2 (fun i => nth i [1; -1] 0) (fun i => nth i [1; -1] 0) = 2) by (unfold ip, rsum; cbn; ring). unfold mm, rsum. rewrite Q. destruct i as [|[|]], j as [|[|]]; try lia; cbn; field.
Qed.

Print Assumptions C127_reflections.
Print Assumptions C127_products.
Print Assumptions C127_det.
Print Assumptions C127_isometry.
