(** C119: products through another dimension, block matrices and rank-one updates: Cauchy-Binet, Sylvester, the determinant
    lemma and the Sherman-Morrison formula, over every commutative ring (field). *)
From Coq Require Import Ring Field Lia Sorted Permutation ZArith QArith Qcanon.
From Verif Require Import Spec SpecRing SpecDet SpecRank AlgFacts MFacts DetFacts SqProofs MatProofs PropSquare Instances.
Import ListNotations.
Set Implicit Arguments.
Local Open Scope nat_scope.
Local Open Scope list_scope.

Lemma increasing_sorted : forall l, increasing l = true <-> StronglySorted lt l.
Proof.
  induction l as [|a l IH]; cbn; split; intros H; auto; try solve [constructor].
  - apply andb_prop in H. destruct H as (H & H2). constructor; [apply IH; auto|]. rewrite forallb_forall in H. apply Forall_forall. intros x Hx. apply Nat.ltb_lt. apply H. auto.
  - inversion H; subst. apply andb_true_intro. split; [|apply IH; auto]. apply forallb_forall. intros x Hx. apply Nat.ltb_lt. eapply Forall_forall in H3; eauto.
Qed.
Theorem C119_choices : forall k n, NoDup (choices k n) /\ forall c, In c (choices k n) <-> length c = k /\ StronglySorted lt c /\ forall x, In x c -> x < n.
Proof.
  intros k n. split. { apply NoDup_filter, NoDup_tuples, seq_NoDup. }
  intros c. unfold choices. rewrite filter_In, in_tuples, increasing_sorted. unfold incl. split.
  - intros ((L & I) & S). repeat split; auto. intros x Hx. apply I in Hx. apply in_seq in Hx. lia.
  - intros (L & S & I). repeat split; auto. intros x Hx. apply in_seq. specialize (I x Hx). lia.
Qed.

Section Binet.
  Context {T : Type} {o : Ops T} (R : CRing o).
  Add Ring Rbinet : (CRing_theory R).
  Local Notation "0" := (o_zero o).
  Local Notation "1" := (o_one o).
  Local Infix "+" := (r_add R).
  Local Infix "*" := (r_mul R).
  Local Notation "- x" := (r_opp R x).
  Local Notation sum := (bigsum R).

  Lemma isort_sorted : forall q, NoDup q -> StronglySorted lt (isort q).
  Proof.
    induction q as [|a q IH]; intros N; cbn; [constructor|]. inversion N; subst. specialize (IH H2). assert (Na : ~ In a (isort q)). { intros I. apply H1. eapply Permutation_in; [apply isort_perm|]. auto. }
    clear H1 H2 N. induction IH as [|b s S IHs F]; cbn; [repeat constructor|]. destruct (Nat.leb_spec a b).
    - assert (a < b). { assert (a <> b) by (intros ->; apply Na; left; auto). lia. } constructor; [constructor; auto|]. constructor; auto. eapply Forall_impl; [|exact F]. cbn. intros. lia.
    - constructor. { apply IHs. intros I. apply Na. right. auto. } apply Forall_forall. intros x Hx. apply (Permutation_in _ (insert_perm a s)) in Hx. destruct Hx as [<-|Hx]; [lia|]. eapply Forall_forall in F; eauto.
  Qed.
  Lemma eqb_list : forall a b : list nat, {a = b} + {a <> b}.
  Proof. apply list_eq_dec, Nat.eq_dec. Qed.
  Lemma lsum_pick : forall (L : list (list nat)) c (x : T), NoDup L -> In c L -> lsum R (fun d => if eqb_list d c then x else 0) L = x.
  Proof.
    intros L c x N I. induction N as [|d L Nd N IH]; [destruct I|]. unfold lsum. cbn [fold_right]. fold (lsum R (fun d => if eqb_list d c then x else 0) L). destruct I as [->|I].
    - destruct (eqb_list c c); [|congruence]. rewrite (@lsum_ext _ _ R _ _ (fun _ => 0)). { rewrite lsum_zero. ring. } intros d Hd. destruct (eqb_list d c) as [->|]; auto. tauto.
    - rewrite IH by auto. destruct (eqb_list d c) as [->|]; [tauto|ring].
  Qed.
  Lemma ldet_cols : forall A c, StronglySorted lt c -> ldet R A c (seq 0 (length c)) = leibniz R (length c) (fun i j => A i (nth j c 0%nat)).
  Proof.
    intros A c S. rewrite <- pdet_ldet by (auto; apply seq_length). rewrite <- pdet_leibniz. rewrite (pdet_map_cols R A (fun j => nth j c 0%nat)). f_equal.
    apply (nth_ext _ _ 0%nat 0%nat). { rewrite map_length, seq_length. auto. } intros n Hn. rewrite (nth_indep (map _ _) _ (nth 0%nat c 0%nat)) by (rewrite map_length, seq_length; auto).
    rewrite (map_nth (fun j => nth j c 0%nat)). rewrite seq_nth by auto. reflexivity.
  Qed.
  Lemma ldet_rows' : forall A c, ldet R A (seq 0 (length c)) c = leibniz R (length c) (fun i j => A (nth i c 0%nat) j).
  Proof.
    intros A c. rewrite <- pdet_ldet by (try apply sorted_seq; symmetry; apply seq_length). rewrite <- pdet_leibniz. rewrite (pdet_map_rows R A (fun j => nth j c 0%nat)). f_equal.
    apply (nth_ext _ _ 0%nat 0%nat). { rewrite map_length, seq_length. auto. } intros n Hn. rewrite (nth_indep (map _ _) _ (nth 0%nat c 0%nat)) by (rewrite map_length, seq_length; auto).
    rewrite (map_nth (fun j => nth j c 0%nat)). rewrite seq_nth by auto. reflexivity.
  Qed.
  Lemma binet : forall M N A B,
    leibniz R M (fun i j => sum N (fun k => A i k * B k j)) =
    lsum R (fun c => leibniz R M (fun i j => A i (nth j c 0%nat)) * leibniz R M (fun i j => B (nth i c 0%nat) j)) (choices M N).
  Proof.
    intros M N A B. rewrite <- ldet_leibniz. unfold ldet at 1. rewrite seq_length.
    transitivity (lsum R (fun q => eps R q * pr R A (seq 0 M) q * ldet R B (seq 0 M) (isort q)) (tuples M (seq 0 N))).
    - transitivity (lsum R (fun l => lsum R (fun q => eps R l * (pr R A (seq 0 M) q * pr R B q l)) (tuples M (seq 0 N))) (tuples M (seq 0 M))).
      + apply lsum_ext. intros l Hl. apply in_tuples in Hl as (L & _). rewrite lsum_mul_l. f_equal.
        pose proof (pr_sum R N A B (seq 0 M) l) as P. rewrite seq_length in P. rewrite <- P by auto. unfold pr. apply lprod_ext. intros. symmetry. apply lsum_seq.
      + rewrite lsum_swap. apply lsum_ext. intros q Hq. apply in_tuples in Hq as (L & I).
        transitivity (pr R A (seq 0 M) q * ldet R B (seq 0 M) q). { unfold ldet. rewrite L, <- lsum_mul_l. apply lsum_ext. intros. ring. }
        destruct (alt_sort q [] (ldet_alt R B (seq 0 M))) as (E & _). cbn [app] in E. rewrite E. ring.
    - transitivity (lsum R (fun q => lsum R (fun c => if eqb_list c (isort q) then eps R q * pr R A (seq 0 M) q * ldet R B (seq 0 M) c else 0) (choices M N)) (tuples M (seq 0 N))).
      + apply lsum_ext. intros q Hq. destruct (NoDup_dec q) as [Nq|Nq].
        * apply in_tuples in Hq as (L & I). rewrite (@lsum_ext _ _ R _ _ (fun c => if eqb_list c (isort q) then eps R q * pr R A (seq 0 M) q * ldet R B (seq 0 M) (isort q) else 0)).
          2: { intros c _. destruct (eqb_list c (isort q)) as [->|]; auto. }
          symmetry. apply lsum_pick. { apply C119_choices. } apply C119_choices. split; [rewrite (Permutation_length (isort_perm q)); auto|]. split; [apply isort_sorted; auto|].
          intros x Hx. apply (Permutation_in _ (isort_perm q)), I, in_seq in Hx. lia.
        * rewrite (eps_not_nodup R Nq). rewrite (@lsum_ext _ _ R _ (fun c => if eqb_list c (isort q) then _ else 0) (fun _ => 0)). { rewrite lsum_zero. ring. } intros c _. destruct (eqb_list c (isort q)); ring.
      + rewrite lsum_swap. apply lsum_ext. intros c Hc. apply C119_choices in Hc as (L & S & I).
        transitivity (ldet R A c (seq 0 M) * ldet R B (seq 0 M) c).
        2: { rewrite <- L. rewrite ldet_cols, ldet_rows' by auto. reflexivity. }
        unfold ldet at 2. rewrite seq_length, <- lsum_mul_r.
        rewrite <- (lsum_filter R (fun q => nodupb q) _ (tuples M c)).
        2: { intros q _ Nq. rewrite eps_not_nodup; [ring|]. rewrite <- nodupb_NoDup. congruence. }
        rewrite <- (lsum_filter R (fun q => nodupb q && if eqb_list c (isort q) then true else false) _ (tuples M (seq 0 N))).
        2: { intros q _ Nq. apply andb_false_iff in Nq. destruct Nq as [Nq|Nq]. { rewrite eps_not_nodup. { destruct (eqb_list c (isort q)); ring. } rewrite <- nodupb_NoDup. congruence. } destruct (eqb_list c (isort q)); [discriminate|reflexivity]. }
        rewrite (lsum_perm R _ (l2 := filter (fun q => nodupb q) (tuples M c))).
        { apply lsum_ext. intros q Hq. apply filter_In in Hq as (Hq & Nq). apply in_tuples in Hq as (Lq & Iq). apply nodupb_NoDup in Nq. destruct (eqb_list c (isort q)) as [_|K]; [ring|]. destruct K.
          apply sorted_unique; auto; [apply isort_sorted; auto|]. rewrite isort_perm. symmetry. apply NoDup_Permutation_bis; auto. lia. }
        apply NoDup_Permutation; try (apply NoDup_filter, NoDup_tuples); [apply seq_NoDup|apply sorted_NoDup; auto|]. intros q. rewrite !filter_In, !in_tuples. split.
        * intros ((Lq & Iq) & Nq). apply andb_prop in Nq as (Nq & K). destruct (eqb_list c (isort q)) as [->|]; [|discriminate]. repeat split; auto. intros x Hx. eapply Permutation_in; [apply Permutation_sym, isort_perm|]. auto.
        * intros ((Lq & Iq) & Nq). repeat split; auto. { intros x Hx. apply in_seq. specialize (I x (Iq x Hx)). lia. }
          rewrite Nq. destruct (eqb_list c (isort q)) as [_|K]; auto. destruct K. apply nodupb_NoDup in Nq. apply sorted_unique; auto; [apply isort_sorted; auto|]. rewrite isort_perm. symmetry. apply NoDup_Permutation_bis; auto. lia.
  Qed.

  Lemma bigsum_split : forall M N f, sum (M + N)%nat f = sum M f + sum N (fun i => f (M + i)%nat).
  Proof.
    intros M. induction N as [|N IH]; intros f. { rewrite Nat.add_0_r. cbn. ring. }
    rewrite Nat.add_succ_r. cbn [bigsum]. rewrite IH. ring.
  Qed.
  Lemma leibniz_0 : forall P, leibniz R 0 P = 1.
  Proof. intros. unfold leibniz, perms, lsum, lprod, signed. cbn. ring. Qed.
  (* block triangular *)
  Lemma block_upper : forall M N P, (forall i j, i < N -> j < M -> P (M + i)%nat j = 0) ->
    leibniz R (M + N) P = leibniz R M P * leibniz R N (fun i j => P (M + i)%nat (M + j)%nat).
  Proof.
    induction M as [|M IH]; intros N P H. { cbn [Nat.add]. rewrite (@leibniz_0 P). transitivity (1 * leibniz R N P); [ring|reflexivity]. }
    cbn [Nat.add]. pose proof (@laplace_col _ _ R (M + N) P 0%nat 0%nat ltac:(lia) ltac:(lia)) as E. cbn [Nat.eqb] in E. rewrite <- E. clear E.
    pose proof (@laplace_col _ _ R M P 0%nat 0%nat ltac:(lia) ltac:(lia)) as E. cbn [Nat.eqb] in E. rewrite <- E. clear E.
    change (S (M + N)) with (S M + N)%nat. rewrite bigsum_split.
    rewrite (@bigsum_ext _ _ R N _ (fun _ => 0)). 2: { intros i Hi. rewrite H by lia. ring. }
    rewrite bigsum_zero, <- bigsum_mul_r. match goal with |- r_add _ ?x _ = _ => transitivity x; [ring|] end.
    apply bigsum_ext. intros k Hk. rewrite IH.
    - rewrite <- signed_mul_l. rewrite (r_mul_assoc R). f_equal. apply leibniz_ext.
      intros i j Hi Hj. unfold minor, skip. replace (M + i <? k) with false by (symmetry; apply Nat.ltb_ge; lia). change (M + j <? 0) with false. reflexivity.
    - intros i j Hi Hj. unfold minor, skip. replace (M + i <? k) with false by (symmetry; apply Nat.ltb_ge; lia). apply (H i (S j)); lia.
  Qed.
  Lemma block_lower : forall M N P, (forall i j, i < M -> j < N -> P i (M + j)%nat = 0) ->
    leibniz R (M + N) P = leibniz R M P * leibniz R N (fun i j => P (M + i)%nat (M + j)%nat).
  Proof.
    intros M N P H. rewrite <- (leibniz_transpose R (M + N)). rewrite block_upper by (intros; apply H; auto). rewrite (leibniz_transpose R M). f_equal. apply (leibniz_transpose R N (fun i j => P (M + i)%nat (M + j)%nat)).
  Qed.
  (* Sylvester *)
  Local Notation dl i j := (if i =? j then 1 else 0).
  Lemma sum_dl_l : forall n i f, i < n -> sum n (fun k => dl i k * f k) = f i.
  Proof. intros n i f H. rewrite <- (@bigsum_delta _ _ R n i f H). apply bigsum_ext. intros k _. rewrite (Nat.eqb_sym i k). destruct (k =? i); ring. Qed.
  Lemma sum_dl_r : forall n j f, j < n -> sum n (fun k => f k * dl k j) = f j.
  Proof. intros n j f H. rewrite <- (@bigsum_delta _ _ R n j f H). apply bigsum_ext. intros k _. destruct (k =? j); ring. Qed.
  Lemma leibniz_id : forall n f, (forall i j, i < n -> j < n -> f i j = dl i j) -> leibniz R n f = 1.
  Proof. intros n f H. rewrite <- (leibniz_one R n). apply leibniz_ext. auto. Qed.
  Lemma sylvester : forall M N A B,
    leibniz R M (fun i j => dl i j + sum N (fun k => A i k * B k j)) = leibniz R N (fun i j => dl i j + sum M (fun k => B i k * A k j)).
  Proof.
    intros M N A B.
    set (blk := fun (X Y Z W : nat -> nat -> T) i j => if i <? M then (if j <? M then X i j else Y i (j - M)%nat) else (if j <? M then Z (i - M)%nat j else W (i - M)%nat (j - M)%nat)).
    assert (B1 : forall X Y Z W i j, i < M -> j < M -> blk X Y Z W i j = X i j) by (intros; unfold blk; replace (i <? M) with true by lia; replace (j <? M) with true by lia; auto).
    assert (B2 : forall X Y Z W i j, i < M -> blk X Y Z W i (M + j)%nat = Y i j) by (intros; unfold blk; replace (i <? M) with true by lia; replace (M + j <? M) with false by lia; f_equal; lia).
    assert (B3 : forall X Y Z W i j, j < M -> blk X Y Z W (M + i)%nat j = Z i j) by (intros; unfold blk; replace (M + i <? M) with false by lia; replace (j <? M) with true by lia; f_equal; lia).
    assert (B4 : forall X Y Z W i j, blk X Y Z W (M + i)%nat (M + j)%nat = W i j) by (intros; unfold blk; replace (M + i <? M) with false by lia; replace (M + j <? M) with false by lia; f_equal; lia).
    set (I := fun i j : nat => dl i j). set (U := blk I A (fun _ _ => 0) I). set (P := blk I (fun i j => - A i j) B I).
    assert (DU : leibniz R (M + N) U = 1). { unfold U. rewrite block_upper by (intros; apply B3; auto). rewrite !leibniz_id; [ring| |]; intros i j Hi Hj; [apply B4|apply B1; auto]. }
    assert (E1 : leibniz R (M + N) P * 1 = leibniz R N (fun i j => dl i j + sum M (fun k => B i k * A k j))).
    { transitivity (leibniz R (M + N) P * leibniz R (M + N) U); [rewrite DU; reflexivity|]. rewrite <- leibniz_mul. rewrite block_lower.
      - rewrite leibniz_id.
        + match goal with |- r_mul _ _ ?y = _ => transitivity y; [ring|] end. apply leibniz_ext. intros i j Hi Hj. rewrite bigsum_split.
          rewrite (@bigsum_ext _ _ R M _ (fun k => B i k * A k j)) by (intros k Hk; unfold P, U; rewrite B3, B2 by auto; auto).
          rewrite (@bigsum_ext _ _ R N _ (fun k => dl i k * dl k j)) by (intros k Hk; unfold P, U; rewrite !B4; auto). rewrite sum_dl_l by auto. ring.
        + intros i j Hi Hj. rewrite bigsum_split. rewrite (@bigsum_ext _ _ R M _ (fun k => dl i k * dl k j)) by (intros k Hk; unfold P, U; rewrite !B1 by auto; auto).
          rewrite (@bigsum_ext _ _ R N _ (fun _ => 0)) by (intros k Hk; unfold P, U; rewrite B2, B3 by auto; ring). rewrite bigsum_zero, sum_dl_l by auto. ring.
      - intros i j Hi Hj. rewrite bigsum_split. rewrite (@bigsum_ext _ _ R M _ (fun k => dl i k * A k j)) by (intros k Hk; unfold P, U; rewrite B1, B2 by auto; auto).
        rewrite (@bigsum_ext _ _ R N _ (fun k => - A i k * dl k j)) by (intros k Hk; unfold P, U; rewrite B2, B4 by auto; auto). rewrite sum_dl_l, sum_dl_r by auto. ring. }
    assert (E2 : 1 * leibniz R (M + N) P = leibniz R M (fun i j => dl i j + sum N (fun k => A i k * B k j))).
    { transitivity (leibniz R (M + N) U * leibniz R (M + N) P); [rewrite DU; reflexivity|]. rewrite <- leibniz_mul. rewrite block_lower.
      - rewrite (@leibniz_id N).
        + match goal with |- r_mul _ ?y _ = _ => transitivity y; [ring|] end. apply leibniz_ext. intros i j Hi Hj. rewrite bigsum_split.
          rewrite (@bigsum_ext _ _ R M _ (fun k => dl i k * dl k j)) by (intros k Hk; unfold P, U; rewrite !B1 by auto; auto).
          rewrite (@bigsum_ext _ _ R N _ (fun k => A i k * B k j)) by (intros k Hk; unfold P, U; rewrite B2, B3 by auto; auto). rewrite sum_dl_l by auto. ring.
        + intros i j Hi Hj. rewrite bigsum_split. rewrite (@bigsum_ext _ _ R M _ (fun _ => 0)) by (intros k Hk; unfold P, U; rewrite B3, B2 by auto; ring).
          rewrite (@bigsum_ext _ _ R N _ (fun k => dl i k * dl k j)) by (intros k Hk; unfold P, U; rewrite !B4 by auto; auto). rewrite bigsum_zero, sum_dl_l by auto. ring.
      - intros i j Hi Hj. rewrite bigsum_split. rewrite (@bigsum_ext _ _ R M _ (fun k => dl i k * - A k j)) by (intros k Hk; unfold P, U; rewrite B1, B2 by auto; auto).
        rewrite (@bigsum_ext _ _ R N _ (fun k => A i k * dl k j)) by (intros k Hk; unfold P, U; rewrite B2, B4 by auto; auto). rewrite sum_dl_l, sum_dl_r by auto. ring. }
    rewrite <- E1, <- E2. ring.
  Qed.
  (* the determinant lemma *)
  Lemma det_lemma : forall n A u v,
    leibniz R (S n) (fun i j => A i j + u i * v j) =
    leibniz R (S n) A + sum (S n) (fun j => v j * sum (S n) (fun i => signed R (j + i) (leibniz R n (minor i j A)) * u i)).
  Proof.
    intros n A u v. set (m := S n).
    set (Q := fun i j => match i, j with O, O => 1 | O, S j => - v j | S i, O => u i | S i, S j => A i j end).
    set (U := fun i j : nat => match i, j with O, O => 1 | O, S j => v j | S i, O => 0 | S i, S j => dl i j end).
    assert (C0 : forall X, X 0%nat 0%nat = 1 -> (forall i, i < m -> X (S i) 0%nat = 0) -> leibniz R (S m) X = leibniz R m (fun i j => X (S i) (S j))).
    { intros X H0 H1. pose proof (@laplace_col _ _ R m X 0%nat 0%nat ltac:(lia) ltac:(lia)) as E. cbn [Nat.eqb] in E. rewrite <- E, bigsum_shift, H0. rewrite (@bigsum_ext _ _ R m _ (fun _ => 0)) by (intros i Hi; rewrite H1 by auto; ring).
      rewrite bigsum_zero. cbn [Nat.add]. unfold signed. cbn [Nat.even]. transitivity (leibniz R m (minor 0 0 X)); [ring|]. reflexivity. }
    assert (R0 : forall X, X 0%nat 0%nat = 1 -> (forall j, j < m -> X 0%nat (S j) = 0) -> leibniz R (S m) X = leibniz R m (fun i j => X (S i) (S j))).
    { intros X H0 H1. rewrite <- leibniz_transpose. rewrite C0 by auto. apply (leibniz_transpose R m (fun i j => X (S i) (S j))). }
    assert (DU : leibniz R (S m) U = 1). { rewrite C0 by reflexivity. apply leibniz_id. intros. reflexivity. }
    assert (E1 : leibniz R (S m) Q = leibniz R m (fun i j => A i j + u i * v j)).
    { transitivity (leibniz R (S m) Q * leibniz R (S m) U); [rewrite DU; ring|]. rewrite <- leibniz_mul. rewrite R0.
      - apply leibniz_ext. intros i j Hi Hj. rewrite bigsum_shift. cbn [Q U]. rewrite sum_dl_r by auto. ring.
      - rewrite bigsum_shift. cbn [Q U]. rewrite (@bigsum_ext _ _ R m _ (fun _ => 0)) by (intros; ring). rewrite bigsum_zero. ring.
      - intros j Hj. rewrite bigsum_shift. cbn [Q U]. rewrite sum_dl_r by auto. ring. }
    rewrite <- E1. clear E1 DU C0 R0. pose proof (@laplace _ _ R m Q 0%nat 0%nat ltac:(lia) ltac:(lia)) as E. cbn [Nat.eqb] in E. rewrite <- E. clear E. rewrite bigsum_shift. f_equal.
    - cbn [Q Nat.add]. unfold signed. cbn [Nat.even]. transitivity (leibniz R m (minor 0 0 Q)); [ring|]. reflexivity.
    - apply bigsum_ext. intros j Hj. cbn [Q Nat.add]. rewrite signed_S.
      pose proof (@laplace_col _ _ R n (minor 0 (S j) Q) 0%nat 0%nat ltac:(lia) ltac:(lia)) as E. cbn [Nat.eqb] in E. fold m in E. rewrite <- E. clear E.
      transitivity (v j * signed R j (sum m (fun k => minor 0 (S j) Q k 0%nat * signed R (k + 0) (leibniz R n (minor k 0 (minor 0 (S j) Q)))))); [ring|]. f_equal.
      rewrite <- lsum_seq, signed_lsum, lsum_seq. apply bigsum_ext. intros i Hi. change (minor 0 (S j) Q i 0%nat) with (u i). rewrite Nat.add_0_r, signed_add.
      assert (EM : leibniz R n (minor i 0 (minor 0 (S j) Q)) = leibniz R n (minor i j A)).
      { apply leibniz_ext. intros a b Ha Hb. unfold minor. change (skip 0 (skip i a)) with (S (skip i a)). change (skip 0 b) with (S b). assert (ES : skip (S j) (S b) = S (skip j b)) by (unfold skip; change (S b <? S j) with (b <? j); destruct (b <? j); reflexivity). rewrite ES. reflexivity. }
      rewrite EM. rewrite signed_mul_r. rewrite signed_mul_l. f_equal. rewrite signed_mul_l. f_equal. ring.
  Qed.
End Binet.

Section C119.
  Context {T : Type} {o : Ops T} (R : CRing o).
  Add Ring Rc119 : (CRing_theory R).
  Local Notation "0" := (o_zero o).
  Local Notation "1" := (o_one o).
  Local Infix "+" := (r_add R).
  Local Infix "*" := (r_mul R).
  Local Notation sum := (bigsum R).

  Lemma pick_columns_mk : forall M N (f : nat -> nat -> T) c, (forall x, In x c -> x < N) -> pick_columns 0 c (mk M N f) = mk M (length c) (fun i j => f i (nth j c 0%nat)).
  Proof.
    intros M N f c H. unfold pick_columns, mk. unfold vk at 1 3. rewrite map_map. apply map_ext. intros i. apply (nth_ext _ _ 0 0). { rewrite map_length, vk_length. auto. }
    intros k Hk. rewrite map_length in Hk. rewrite (nth_indep _ _ ((fun k => nth k (vk N (f i)) 0) 0%nat)) by (rewrite map_length; auto). rewrite (map_nth (fun k => nth k (vk N (f i)) 0)). rewrite !nth_vk by (auto; apply H, nth_In; auto). reflexivity.
  Qed.
  Lemma pick_rows_mk : forall M N (f : nat -> nat -> T) c, (forall x, In x c -> x < M) -> pick_rows c (mk M N f) = mk (length c) N (fun i j => f (nth i c 0%nat) j).
  Proof.
    intros M N f c H. unfold pick_rows; apply (nth_ext _ _ [] []). { unfold mk. rewrite map_length, vk_length. auto. }
    intros k Hk. rewrite map_length in Hk. rewrite (nth_indep _ _ ((fun k => nth k (mk M N f) []) 0%nat)) by (rewrite map_length; auto). rewrite (map_nth (fun k => nth k (mk M N f) [])). unfold mk. rewrite !nth_vk by (auto; apply H, nth_In; auto). reflexivity.
  Qed.
  (** Cauchy-Binet: the determinant of a product is the sum, over the choices of as many of the inner indices as there are
      rows, of the products of the determinants of the chosen columns on the left and the chosen rows on the right. *)
  Theorem C119_cauchy_binet : forall M N a b, rect M N a -> rect N M b -> 0 < N ->
    exists f g, (forall c, In c (choices M N) -> m_det o M (pick_columns 0 c a) = Ok (f c) /\ m_det o M (pick_rows c b) = Ok (g c)) /\
      (let! ab := m_dot o M N M a b in m_det o M ab) = Ok (lsum R (fun c => f c * g c) (choices M N)).
  Proof.
    intros M N a b Ra Rb HN. asfun o. exists (fun c => leibniz R M (fun i j => f0 i (nth j c 0%nat))), (fun c => leibniz R M (fun i j => f (nth i c 0%nat) j)). split.
    - intros c Hc. apply C119_choices in Hc as (L & _ & I). subst M. rewrite pick_columns_mk, pick_rows_mk by auto. rewrite !(m_det_mk R). auto.
    - rewrite (m_dot_mk R) by auto. cbn [bind]. rewrite (m_det_mk R), binet. reflexivity.
  Qed.
  (** A product through a smaller dimension is singular. *)
  Theorem C119_low_rank : forall M N a b, rect M N a -> rect N M b -> 0 < N -> N < M -> (let! ab := m_dot o M N M a b in m_det o M ab) = Ok 0.
  Proof.
    intros M N a b Ra Rb HN HM. asfun o. rewrite (m_dot_mk R) by auto. cbn [bind]. rewrite (m_det_mk R), binet. f_equal.
    destruct (choices M N) as [|c L] eqn:E; [reflexivity|]. exfalso. assert (I : In c (choices M N)) by (rewrite E; left; auto). apply C119_choices in I as (Lc & S & I). apply sorted_NoDup in S.
    assert (length c <= length (seq 0 N)) by (apply NoDup_incl_length; auto; intros x Hx; apply in_seq; specialize (I x Hx); lia). rewrite seq_length in *. lia.
  Qed.
  Theorem C119_outer : forall N u v, length u = N -> length v = N -> 2 <= N -> (let! m := m_outer o N N u v in m_det o N m) = Ok 0.
  Proof.
    intros N u v Lu Lv HN. asfun o. rewrite (m_outer_mk R). cbn [bind]. rewrite <- (@C119_low_rank N 1 (mk N 1 (fun i _ => f0 i)) (mk 1 N (fun _ j => f j))) by (auto using rect_mk; lia).
    rewrite (m_dot_mk R) by lia. cbn [bind]. f_equal. apply mk_ext. intros i j Hi Hj. cbn. ring.
  Qed.
  (** Block triangular matrices: the product of the determinants of the diagonal blocks. *)
  Theorem C119_block : forall M N m a d, rect (M + N) (M + N) m -> rect M M a -> rect N N d ->
    (forall i j, i < M -> j < M -> elt m i j = elt a i j) -> (forall i j, i < N -> j < N -> elt m (M + i)%nat (M + j)%nat = elt d i j) ->
    (forall i j, i < N -> j < M -> elt m (M + i)%nat j = Some 0) \/ (forall i j, i < M -> j < N -> elt m i (M + j)%nat = Some 0) ->
    m_det o (M + N) m =! (let! x := m_det o M a in let! y := m_det o N d in o_mul o x y).
  Proof.
    intros M N m a d Rm Ra Rd Ea Ed H. asfun o. rewrite !(m_det_mk R). cbn [bind]. rewrite (r_mul_ok R). same. symmetry.
    assert (G : forall k (g : nat -> nat -> T) i j, i < k -> j < k -> elt (mk k k g) i j = Some (g i j)). { intros k g i j Hi Hj. rewrite elt_mk. replace (i <? k) with true by lia. replace (j <? k) with true by lia. reflexivity. }
    transitivity (leibniz R M f1 * leibniz R N (fun i j => f1 (M + i)%nat (M + j)%nat)).
    - destruct H as [H|H]; [apply block_upper|apply block_lower]; intros i j Hi Hj; specialize (H i j Hi Hj); rewrite G in H by lia; congruence.
    - f_equal; apply leibniz_ext; intros i j Hi Hj; [specialize (Ea i j Hi Hj); rewrite !G in Ea by lia|specialize (Ed i j Hi Hj); rewrite !G in Ed by lia]; congruence.
  Qed.
  (** Sylvester: det(1 + A B) = det(1 + B A). *)
  Theorem C119_sylvester : forall M N a b, rect M N a -> rect N M b -> 0 < M -> 0 < N ->
    (let! ab := m_dot o M N M a b in let! i := m_one o M in let! s := m_add o M M i ab in m_det o M s) =!
    (let! ba := m_dot o N M N b a in let! i := m_one o N in let! s := m_add o N N i ba in m_det o N s).
  Proof.
    intros M N a b Ra Rb HM HN. asfun o. rewrite !(m_dot_mk R) by auto. rewrite !m_one_mk. cbn [bind]. rewrite !(m_add_mk R). cbn [bind]. rewrite !(m_det_mk R). rewrite (@sylvester _ _ R M N). same.
  Qed.
  (** The determinant after a rank-one update: det(A + u v^T) = det A + v . adj(A) u. *)
  Theorem C119_det_update : forall N a u v, rect N N a -> length u = N -> length v = N -> 0 < N ->
    (let! uv := m_outer o N N u v in let! s := m_add o N N a uv in m_det o N s) =!
    (let! d := m_det o N a in let! k := m_adj o N a in let! w := m_dot_v o N N k u in let! e := v_dot o N v w in o_add o d e).
  Proof.
    intros N a u v Ra Lu Lv HN. asfun o. destruct N as [|n]; [lia|]. rewrite (m_outer_mk R). cbn [bind]. rewrite (m_add_mk R). cbn [bind]. rewrite !(m_det_mk R), (m_adj_mk R). cbn [bind].
    rewrite (m_dot_v_mk R) by lia. cbn [bind]. rewrite (v_dot_vk R) by lia. cbn [bind]. rewrite (r_add_ok R), det_lemma. same. f_equal. apply bigsum_ext. intros j Hj. f_equal. apply bigsum_ext. intros i Hi. unfold adjf. rewrite Nat.sub_succ, Nat.sub_0_r. reflexivity.
  Qed.
End C119.

Section Update.
  Context {T : Type} {o : Ops T} (F : Field o).
  Add Field Fupd : (Field_theory F).
  Local Notation R := (f_ring F).
  Local Notation "0" := (o_zero o).
  Local Notation "1" := (o_one o).
  Local Infix "+" := (r_add R).
  Local Infix "*" := (r_mul R).
  Local Notation "- x" := (r_opp R x).
  Local Notation sum := (bigsum R).

  (** Sherman-Morrison: with w = A^-1 u, z = v A^-1 and s = 1 + v . w, the updated matrix has determinant s det A, and if
      s is not zero its inverse is A^-1 - w z^T / s. *)
  Theorem C119_inv_update : forall N a u v d, rect N N a -> length u = N -> length v = N -> 0 < N -> m_det o N a = Ok d -> d <> 0 ->
    exists ai w z g m, m_inv o N a = Ok ai /\ m_dot_v o N N ai u = Ok w /\ v_dot_m o N N v ai = Ok z /\ v_dot o N v w = Ok g /\
      (let! uv := m_outer o N N u v in m_add o N N a uv) = Ok m /\ m_det o N m = Ok (d * (1 + g)) /\
      (1 + g <> 0 -> m_inv o N m =! (let! p := m_outer o N N w z in let! q := m_sdiv o p (1 + g) in m_sub o N N ai q)).
  Proof.
    intros N a u v d Ra Lu Lv HN Hd Nd. destruct N as [|n]; [lia|]. destruct (C33_inverse F Ra Hd Nd) as (ai & Ei & Ri & (x1 & P1 & Q1) & _).
    asfun o. rename f2 into A, f0 into U, f into V, f1 into B. rewrite (m_det_mk R) in Hd. apply Ok_inj in Hd.
    rewrite m_one_mk in Q1. apply Ok_inj in Q1. subst x1. rewrite (m_dot_mk R) in P1 by lia. apply Ok_inj in P1.
    assert (K : forall i j, i < S n -> j < S n -> sum (S n) (fun k => A i k * B k j) = if i =? j then 1 else 0). { intros i j Hi Hj. apply (f_equal (fun m => mget o m i j)) in P1. rewrite !mget_mk in P1 by auto. exact P1. }
    set (w := fun i => sum (S n) (fun k => B i k * U k)). set (z := fun j => sum (S n) (fun k => V k * B k j)). set (g := sum (S n) (fun i => V i * w i)).
    exists (mk (S n) (S n) B), (vk (S n) w), (vk (S n) z), g, (mk (S n) (S n) (fun i j => A i j + U i * V j)). split; auto.
    rewrite (m_dot_v_mk R), (v_dot_m_mk R), (v_dot_vk R), (m_outer_mk R) by lia. cbn [bind]. rewrite (m_add_mk R). do 4 (split; [reflexivity|]).
    assert (Nl : leibniz F (S n) A <> 0) by (rewrite Hd; auto).
    rewrite (m_inv_mk F) in Ei by auto. apply Ok_inj in Ei.
    assert (Bi : forall i j, i < S n -> j < S n -> adjf F (S n) A i j = d * B i j).
    { intros i j Hi Hj. apply (f_equal (fun m => mget o m i j)) in Ei. rewrite !mget_mk in Ei by auto. rewrite <- Ei, Hd. field. auto. }
    assert (AW : forall i, i < S n -> sum (S n) (fun k => A i k * w k) = U i).
    { intros i Hi. unfold w. rewrite (@bigsum_ext _ _ R (S n) _ (fun k => sum (S n) (fun l => A i k * B k l * U l))) by (intros k Hk; rewrite <- bigsum_mul_l; apply bigsum_ext; intros; ring).
      rewrite bigsum_swap. rewrite (@bigsum_ext _ _ R (S n) _ (fun l => (if i =? l then 1 else 0) * U l)) by (intros l Hl; rewrite bigsum_mul_r, K by auto; auto). apply sum_dl_l. auto. }
    split.
    - rewrite (m_det_mk R), det_lemma, Hd. f_equal. unfold g. transitivity (d * 1 + d * sum (S n) (fun i => V i * w i)); [|ring]. f_equal; [ring|]. rewrite <- bigsum_mul_l. apply bigsum_ext. intros j Hj. unfold w.
      transitivity (V j * (d * sum (S n) (fun k => B j k * U k))); [|ring]. f_equal. rewrite <- bigsum_mul_l. apply bigsum_ext. intros i Hi. pose proof (Bi j i Hj Hi) as E. unfold adjf in E. rewrite Nat.sub_succ, Nat.sub_0_r in E. rewrite E. ring.
    - intros Ns. rewrite (m_outer_mk R). cbn [bind]. rewrite (m_sdiv_mk F) by auto. cbn [bind]. rewrite (m_sub_mk R). set (q := f_inv F (1 + g)). assert (Q : q * (1 + g) = 1) by (apply (f_inv_l F); auto).
      eexists. split; [|reflexivity]. apply (C33_unique F); try apply rect_mk. rewrite m_one_mk, (m_dot_mk R) by lia. eexists. split; [reflexivity|]. f_equal. apply mk_ext. intros i j Hi Hj.
      rewrite <- K by auto. symmetry. transitivity (sum (S n) (fun k => (A i k * B k j + U i * (V k * B k j)) + - (z j * q) * (A i k * w k + U i * (V k * w k)))).
      1: { apply bigsum_ext. intros k Hk. fold q. ring. }
      rewrite bigsum_add, bigsum_mul_l, !bigsum_add, !bigsum_mul_l. rewrite AW by auto. fold (z j). fold g.
      transitivity (sum (S n) (fun k => A i k * B k j) + U i * z j * (1 + - (q * (1 + g)))); [ring|rewrite Q; ring].
  Qed.
End Update.

(** The definition of [choices] on a small case, and the theorems on matrices with non-zero determinants. *)
Example C119_ex_choices : choices 2 4 = [[0; 1]; [0; 2]; [0; 3]; [1; 2]; [1; 3]; [2; 3]] /\ choices 3 2 = [].
Proof. vm_compute. auto. Qed.
Example C119_ex_cauchy : let a := [[1; 2; 3]; [4; 5; 7]]%Z in let b := [[2; 1]; [0; 3]; [1; 1]]%Z in
  rect 2 3 a /\ rect 3 2 b /\ (let! ab := m_dot z_ops 2 3 2 a b in m_det z_ops 2 ab) = Ok (-20)%Z /\
  map (fun c => (m_det z_ops 2 (pick_columns 0%Z c a), m_det z_ops 2 (pick_rows c b))) (choices 2 3) = [(Ok (-3), Ok 6); (Ok (-5), Ok 1); (Ok (-1), Ok (-3))]%Z /\
  (let! ba := m_dot z_ops 3 2 3 b a in m_det z_ops 3 ba) = Ok 0%Z.
Proof. vm_compute. repeat split; auto. Qed.
Example C119_ex_block : let m := [[1; 2; 5]; [3; 4; 6]; [0; 0; 7]]%Z in
  rect 3 3 m /\ (forall i j, i < 1 -> j < 2 -> elt m (2 + i) j = Some 0%Z) /\ m_det z_ops 3 m = Ok (-14)%Z /\ m_det z_ops 2 [[1; 2]; [3; 4]]%Z = Ok (-2)%Z.
Proof. cbn zeta. split; [vm_compute; auto|]. split; [|vm_compute; auto]. intros i j Hi Hj. destruct i as [|i]; [|lia]. destruct j as [|[|j]]; [vm_compute; auto..|lia]. Qed.
Example C119_ex_sylvester : let a := [[1; 2; 3]]%Z in let b := [[4]; [5]; [6]]%Z in
  (let! ab := m_dot z_ops 1 3 1 a b in let! i := m_one z_ops 1 in let! s := m_add z_ops 1 1 i ab in m_det z_ops 1 s) = Ok 33%Z /\
  (let! ba := m_dot z_ops 3 1 3 b a in let! i := m_one z_ops 3 in let! s := m_add z_ops 3 3 i ba in m_det z_ops 3 s) = Ok 33%Z.
Proof. vm_compute. auto. Qed.
Example C119_ex_update : let a := [[2; 1]; [1; 3]]%Z in let u := [1; 2]%Z in let v := [3; 1]%Z in
  (let! uv := m_outer z_ops 2 2 u v in let! s := m_add z_ops 2 2 a uv in m_det z_ops 2 s) = Ok 11%Z /\
  m_det z_ops 2 a = Ok 5%Z /\ (let! k := m_adj z_ops 2 a in let! w := m_dot_v z_ops 2 2 k u in v_dot z_ops 2 v w) = Ok 6%Z.
Proof. vm_compute. auto. Qed.
Example C119_ex_inverse : let q := fun z => Q2Qc (inject_Z z) in
  let a := [[q 2; q 1]; [q 1; q 3]]%Z in let u := [q 1; q 2]%Z in let v := [q 3; q 1]%Z in
  rmap this (m_det qc_ops 2 a) = Ok (5 # 1)%Q /\
  rmap this (let! ai := m_inv qc_ops 2 a in let! w := m_dot_v qc_ops 2 2 ai u in let! g := v_dot qc_ops 2 v w in o_add qc_ops (q 1%Z) g) = Ok (11 # 5)%Q /\
  rmap (map (map this)) (let! uv := m_outer qc_ops 2 2 u v in let! s := m_add qc_ops 2 2 a uv in m_inv qc_ops 2 s) = Ok [[5 # 11; -2 # 11]; [-7 # 11; 5 # 11]]%Q.
Proof. vm_compute. auto. Qed.

Print Assumptions C119_choices.
Print Assumptions C119_cauchy_binet.
Print Assumptions C119_low_rank.
Print Assumptions C119_outer.
Print Assumptions C119_block.
Print Assumptions C119_sylvester.
Print Assumptions C119_det_update.
Print Assumptions C119_inv_update.
