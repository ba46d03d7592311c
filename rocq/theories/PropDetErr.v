(** C100: the determinant computed in IEEE arithmetic of any precision and exponent range is within an explicit
    distance of the exact (Leibniz) determinant of the values of the elements, and so are the cofactors.  The
    hypotheses are about the floats themselves: well formed elements and a finite result. *)
From Coq Require Import ZArith Reals Lra Lia Psatz SpecFloat Permutation Sorting.Sorted.
From Flocq Require Import Core.Zaux Core.Generic_fmt Core.Round_NE.
From Verif Require Import SpecFacts VFacts VecProofs MFacts MatProofs AlgFacts SquareModel SpecDet DetFacts SqProofs
  RealInst FloatInst PropFloat SpecRound FlocqFacts PropRound PropExact.
Set Implicit Arguments.
Local Open Scope nat_scope.
Local Open Scope list_scope.

(** * Specification: the permanent, the exponent of the relative part and the weight of the underflow part *)

(** Sum over the permutations [s] of |A(0,s_0)| * ... * |A(n-1,s_{n-1})|: the Leibniz sum without its signs. *)
Definition permanent (n : nat) (A : nat -> nat -> R) : R :=
  lsum r_ring (fun s => lprod r_ring (fun i => Rabs (A i (nth i s 0))) (seq 0 n)) (perms n).
(** For n = 1, 2, 3, 4: 0, 2, 5, 9 roundings. *)
Definition det_roundings (n : nat) : nat := n * (n + 1) / 2 - 1.
(** How often, and scaled by what, an underflowing product can enter a determinant of elements at most [B]. *)
Fixpoint underflows (n : nat) (B : R) : R :=
  match n with O => 0%R | S O => 0%R | S k => (INR (S k) * (1 + B * underflows k B))%R end.

(** The distance allowed by C100, for an n by n matrix [A] of elements at most [B]. *)
Definition det_error (prec emax : Z) (n : nat) (B : R) (A : nat -> nat -> R) : R :=
  (((1 + roundoff prec) ^ det_roundings n - 1) * permanent n A +
   (1 + roundoff prec) ^ det_roundings n * half_tiny prec emax * underflows n B)%R.

Section Per.
  Local Open Scope R_scope.
  Context (A : nat -> nat -> R).
  Local Notation pdet := (pdet r_ring A).
  Fixpoint pper (rows cols : list nat) : R :=
    match rows with
    | [] => 1
    | i :: rows' => rsum (length cols) (fun k => Rabs (A i (nth k cols 0%nat)) * pper rows' (remove_at k cols))
    end.
  Lemma lsum_rsum : forall n f, lsum r_ring f (seq 0 n) = rsum n f.
  Proof.
    intros n f. rewrite lsum_seq. induction n as [|n IH]; [reflexivity|]. cbn [bigsum rsum]. rewrite IH. reflexivity.
  Qed.
  Lemma pper_0 : forall rows cols, 0 <= pper rows cols.
  Proof.
    induction rows as [|i rows IH]; intros cols; cbn [pper]; [lra|]. apply rsum_0. intros. apply Rmult_le_pos; [apply Rabs_pos|auto].
  Qed.
  Lemma signed_abs : forall k x, Rabs (signed r_ring k x) = Rabs x.
  Proof. intros k x. unfold signed. destruct (Nat.even k); [reflexivity|]. apply (Rabs_Ropp x). Qed.
  Lemma pdet_S : forall i rows cols, pdet (i :: rows) cols = rsum (length cols) (fun k => A i (nth k cols 0%nat) * signed r_ring k (pdet rows (remove_at k cols))).
  Proof. intros. cbn [DetFacts.pdet]. rewrite lsum_rsum. reflexivity. Qed.
  Lemma pdet_pper : forall rows cols, Rabs (pdet rows cols) <= pper rows cols.
  Proof.
    induction rows as [|i rows IH]; intros cols.
    - cbn [pper]. change (pdet [] cols) with 1. rewrite Rabs_R1. lra.
    - rewrite pdet_S. cbn [pper]. eapply Rle_trans; [apply rsum_abs|]. apply rsum_le. intros k Hk.
      rewrite Rabs_mult, signed_abs. apply Rmult_le_compat_l; [apply Rabs_pos|auto].
  Qed.

  (* the permanent of the first rows and the listed columns is the sum over tuples without repetition *)
  Definition apr (rows l : list nat) : R := lprod r_ring (fun p => Rabs (A (fst p) (snd p))) (combine rows l).
  Definition ind (l : list nat) (x : R) : R := if nodupb l then x else 0.
  Lemma pper_tuples : forall rows cols, NoDup cols -> length rows = length cols ->
    pper rows cols = lsum r_ring (fun l => ind l (apr rows l)) (tuples (length rows) cols).
  Proof.
    induction rows as [|i rows IH]; intros cols ND L.
    - cbn [pper length tuples]. unfold lsum, ind, apr. cbn. ring.
    - cbn [pper]. simpl length. rewrite lsum_tuples_S. rewrite <- lsum_rsum.
      assert (X : forall c2 c1, cols = c1 ++ c2 ->
        lsum r_ring (fun k => Rabs (A i (nth k cols 0%nat)) * pper rows (remove_at k cols)) (seq (length c1) (length c2)) =
        lsum r_ring (fun j => lsum r_ring (fun l => ind (j :: l) (apr (i :: rows) (j :: l))) (tuples (length rows) cols)) c2).
      { induction c2 as [|j c2 IHc]; intros c1 E; auto. cbn [length seq]. unfold lsum at 1 2. cbn [fold_right].
        f_equal.
        - rewrite E, remove_at_app, app_nth2 by lia. rewrite Nat.sub_diag. cbn [nth].
          rewrite E in ND. pose proof (NoDup_remove_1 _ _ _ ND) as N1. pose proof (NoDup_remove_2 _ _ _ ND) as N2.
          rewrite (lsum_tuples_restrict r_ring j).
          2: { intros l Hl. unfold ind. cbn [nodupb]. replace (existsb (Nat.eqb j) l) with true; [reflexivity|].
               symmetry. apply existsb_exists. exists j. split; auto. apply Nat.eqb_refl. }
          rewrite IH; auto.
          2: { subst cols. rewrite app_length in *. simpl in L. lia. }
          rewrite <- (lsum_mul_l r_ring). apply lsum_ext. intros l Hl. apply in_tuples in Hl as (Ll & Il).
          unfold ind. cbn [nodupb]. replace (existsb (Nat.eqb j) l) with false.
          2: { symmetry. apply not_true_iff_false. rewrite existsb_exists. intros (x & Hx & Ex). apply Nat.eqb_eq in Ex. subst x. apply N2, Il, Hx. }
          cbn [negb andb]. unfold apr. cbn [combine lprod fold_right fst snd]. destruct (nodupb l).
          + reflexivity.
          + change (Rabs (A i j) * 0 = 0). ring.
        - change (fold_right (fun x s => r_add r_ring (Rabs (A i (nth x cols 0%nat)) * pper rows (remove_at x cols)) s) (o_zero r_ops)
                    (seq (S (length c1)) (length c2)))
            with (lsum r_ring (fun k => Rabs (A i (nth k cols 0%nat)) * pper rows (remove_at k cols))
                    (seq (S (length c1)) (length c2))).
          replace (S (length c1)) with (length (c1 ++ [j])) by (rewrite app_length; simpl; lia).
          apply IHc. rewrite <- app_assoc. auto. }
      apply (X cols []). auto.
  Qed.
  Lemma pper_permanent : forall n, pper (seq 0 n) (seq 0 n) = permanent n A.
  Proof.
    intros n. rewrite pper_tuples; auto using seq_NoDup. unfold permanent, perms. rewrite seq_length.
    rewrite <- (lsum_filter r_ring nodupb).
    - apply lsum_ext. intros l Hl. apply filter_In in Hl as (Hl & N). unfold ind. rewrite N. apply in_tuples in Hl as (L & _).
      apply (pr_seq r_ring (fun i j => Rabs (A i j))). auto.
    - intros l _ N. unfold ind. rewrite N. reflexivity.
  Qed.
End Per.
Lemma pper_map : forall A f g rows cols, pper (fun a b => A (f a) (g b)) rows cols = pper A (map f rows) (map g cols).
Proof.
  intros A f g. induction rows as [|i rows IH]; intros cols; [reflexivity|]. cbn [pper map]. rewrite map_length.
  apply rsum_ext. intros k Hk. rewrite IH. f_equal.
  - rewrite (nth_indep (map g cols) 0 (g 0)) by (rewrite map_length; auto). rewrite map_nth. reflexivity.
  - f_equal. clear. revert k. induction cols as [|c cols IHc]; intros [|k]; cbn; auto. f_equal. auto.
Qed.

Section C100.
  Local Open Scope R_scope.
  Context (prec emax : Z) (rem : spec_float -> spec_float -> spec_float) (Hp : (0 < prec)%Z) (He : (prec < emax)%Z).
  Local Notation fo := (sf_ops prec emax rem).
  Local Notation valid x := (valid_binary prec emax x = true).
  Local Notation u := (roundoff prec).
  Local Notation eta := (half_tiny prec emax).
  Local Notation mul := (SFmul prec emax).
  Local Notation add := (SFadd prec emax).
  Local Notation z0 := (S754_zero false).

  Lemma one_ok : valid (SFone prec emax) /\ value (SFone prec emax) = 1.
  Proof. destruct (one_den Hp He) as (V & _ & E). auto. Qed.
  Lemma rnd_fmt : forall x, valid x -> Generic_fmt.round Zaux.radix2 (SpecFloat.fexp prec emax) Round_NE.ZnearestE (value x) = value x.
  Proof. intros x V. apply Generic_fmt.round_generic; [apply Generic_fmt.valid_rnd_N|]. apply fmt; auto. Qed.
  Lemma zero_valid : valid z0. Proof. reflexivity. Qed.
  Lemma add0 : forall x, valid x -> finite (add z0 x) = true -> value (add z0 x) = value x.
  Proof.
    intros x V F. rewrite (add_round Hp He z0 x zero_valid V F). change (value z0) with 0. rewrite Rplus_0_l. apply rnd_fmt. auto.
  Qed.
  Lemma mul1 : forall x, valid x -> finite (mul x (SFone prec emax)) = true -> value (mul x (SFone prec emax)) = value x.
  Proof.
    intros x V F. destruct one_ok as (V1 & E1). rewrite (mul_round Hp He x _ V V1 F), E1, Rmult_1_r. apply rnd_fmt. auto.
  Qed.

  (* the sum of the code: starting from zero *)
  Definition zsum0 (k : nat) (g : nat -> spec_float) : spec_float := fold_left (fun a i => add a (g i)) (seq 0 k) z0.
  Lemma zsum0_fs : forall k g, zsum0 (S k) g = fs prec emax k (fun i => match i with O => add z0 (g O) | _ => g i end).
  Proof.
    intros k g. unfold zsum0. induction k as [|k IH]; [reflexivity|]. rewrite seq_S, fold_left_app, IH. reflexivity.
  Qed.
  Lemma zsum0_valid : forall k g, (forall i, (i < k)%nat -> valid (g i)) -> valid (zsum0 k g).
  Proof.
    intros [|k] g H; [reflexivity|]. rewrite zsum0_fs. apply fs_valid; auto. intros [|i] Hi.
    - apply add_valid; auto. apply H. lia.
    - apply H. lia.
  Qed.
  Lemma zsum0_fin : forall k g, finite (zsum0 k g) = true -> forall i, (i < k)%nat -> finite (g i) = true.
  Proof.
    intros [|k] g F i Hi; [lia|]. rewrite zsum0_fs in F. pose proof (@fs_fin prec emax k _ F i ltac:(lia)) as Q. cbn beta in Q.
    destruct i; auto. apply add_fin in Q. tauto.
  Qed.
  Lemma zsum0_err : forall k g, (forall i, (i < S k)%nat -> valid (g i)) -> finite (zsum0 (S k) g) = true ->
    Rabs (value (zsum0 (S k) g) - rsum (S k) (fun i => value (g i))) <= ((1 + u) ^ k - 1) * rsum (S k) (fun i => Rabs (value (g i))).
  Proof.
    intros k g V F. set (h := fun i => match i with O => add z0 (g O) | _ => g i end).
    assert (Q : forall i, (i < S k)%nat -> value (h i) = value (g i)).
    { intros [|i] Hi; auto. apply add0; [apply V; lia|]. rewrite zsum0_fs in F. apply (@fs_fin prec emax k _ F 0%nat). lia. }
    rewrite zsum0_fs in *. fold h in F |- *.
    rewrite (@rsum_ext (S k) (fun i => value (g i)) (fun i => value (h i))) by (intros; symmetry; auto).
    rewrite (@rsum_ext (S k) (fun i => Rabs (value (g i))) (fun i => Rabs (value (h i)))) by (intros; rewrite Q; auto).
    apply fs_err; auto. intros [|i] Hi; unfold h; [apply add_valid; auto|]; apply V; lia.
  Qed.

  Definition fneg (k : nat) (c : spec_float) : spec_float := if Nat.even k then c else SFopp c.
  Lemma fneg_ok : forall k c, rneg fo k c = Ok (fneg k c).
  Proof.
    intros. unfold rneg, fneg. rewrite <- Nat.bit0_mod, Nat.bit0_odd, <- Nat.negb_even. destruct (Nat.even k); reflexivity.
  Qed.
  Lemma fneg_value : forall k c, value (fneg k c) = signed r_ring k (value c) /\ finite (fneg k c) = finite c.
  Proof.
    intros k c. unfold fneg, signed. destruct (Nat.even k); auto. destruct (opp_value c) as (E & F). rewrite E. auto.
  Qed.
  Lemma fneg_valid : forall k c, valid c -> valid (fneg k c).
  Proof. intros k c V. unfold fneg. destruct (Nat.even k); auto. apply opp_valid; auto. Qed.

  Section Mat.
    Context (N : nat) (m : list (list spec_float)) (Rm : rect N N m) (Vm : Forall (Forall (fun x => valid x)) m).
    Local Notation el i j := (nth j (nth i m []) z0).
    Fixpoint fdet (rows cols : list nat) : spec_float :=
      match rows with
      | [] => SFone prec emax
      | i :: rows' => zsum0 (length cols) (fun k => mul (el i (nth k cols 0%nat)) (fneg k (fdet rows' (remove_at k cols))))
      end.
    Lemma el_valid : forall i j, (i < N)%nat -> (j < N)%nat -> valid (el i j).
    Proof.
      intros i j Hi Hj. destruct Rm as (L & F). rewrite Forall_forall in Vm, F.
      assert (I : In (nth i m []) m) by (apply nth_In; lia). specialize (Vm _ I). specialize (F _ I). rewrite Forall_forall in Vm.
      apply Vm, nth_In. lia.
    Qed.
    Lemma in_remove_at : forall k (l : list nat) x, In x (remove_at k l) -> In x l.
    Proof.
      intros k l x. revert k. induction l as [|a l IH]; intros [|k] H; cbn in *; auto. destruct H as [H|H]; auto. right. eapply IH; eauto.
    Qed.
    Definition rows_ok (l : list nat) : Prop := forall x, In x l -> (x < N)%nat.
    Lemma fdet_ok : forall rows cols, length rows = length cols -> rows_ok rows -> rows_ok cols ->
      rdet fo m rows cols = Ok (fdet rows cols).
    Proof.
      induction rows as [|i rows IH]; intros cols L Hr Hc; auto. cbn [rdet fdet]. unfold zsum0.
      assert (G : forall l a, (forall k, In k l -> (k < length cols)%nat) ->
        fold_res (fun a k =>
          let! x := m_index m (i, nth k cols 0%nat) in
          let! c := rdet fo m rows (remove_at k cols) in
          let! c1 := rneg fo k c in
          let! p := o_mul fo x c1 in
          o_add fo a p) a l = Ok (fold_left (fun a k => add a (mul (el i (nth k cols 0%nat)) (fneg k (fdet rows (remove_at k cols))))) l a)).
      { induction l as [|k l IHl]; intros a Hl; auto. cbn [fold_res fold_left].
        assert (Hk : (k < length cols)%nat) by (apply Hl; left; auto).
        assert (Hn : (nth k cols 0 < N)%nat) by (apply Hc; apply nth_In; auto).
        destruct (m_index_spec i (nth k cols 0%nat) Rm) as (X & _).
        destruct X as (x & El & Ex & _); [split; [apply Hr; left; auto|auto]|].
        rewrite Ex. cbn [bind]. rewrite IH.
        - cbn [bind]. rewrite fneg_ok. cbn [bind]. change (o_mul fo) with (ok2 mul). unfold ok2. cbn [bind]. change (o_add fo) with (ok2 add). unfold ok2 at 1. cbn [bind].
          rewrite IHl by (intros; apply Hl; right; auto). do 3 f_equal. f_equal.
          unfold elt in El. destruct (nth_error m i) as [r|] eqn:Er; [|discriminate]. rewrite (nth_error_nth _ _ _ Er).
          rewrite (nth_error_nth _ _ _ El). reflexivity.
        - rewrite remove_at_length by lia. simpl in L. lia.
        - intros y Hy. apply Hr. right. auto.
        - intros y Hy. apply Hc. eapply in_remove_at; eauto. }
      apply G. intros k Hk. apply in_seq in Hk. lia.
    Qed.
    Lemma fdet_valid : forall rows cols, length rows = length cols -> rows_ok rows -> rows_ok cols -> valid (fdet rows cols).
    Proof.
      induction rows as [|i rows IH]; intros cols L Hr Hc; cbn [fdet]. { apply one_ok. }
      apply zsum0_valid. intros k Hk. apply mul_valid; auto.
      - apply el_valid. { apply Hr. left. auto. } apply Hc, nth_In. auto.
      - apply fneg_valid, IH.
        + rewrite remove_at_length by lia. simpl in L. lia.
        + intros y Hy. apply Hr. right. auto.
        + intros y Hy. apply Hc. eapply in_remove_at; eauto.
    Qed.

    Context (B : R) (HB : forall i j, (i < N)%nat -> (j < N)%nat -> Rabs (mval m i j) <= B).
    (* roundings accumulated on the way up, by recursion *)
    Fixpoint dr (n : nat) : nat := match n with O => 0 | S O => 0 | S k => S k + dr k end.
    Local Notation det := (pdet r_ring (mval m)).
    Local Notation per := (pper (mval m)).
    Lemma underflows_0 : forall n, 0 <= B -> 0 <= underflows n B.
    Proof.
      induction n as [|[|n] IH]; intros H; [cbn; lra|cbn; lra|]. change (underflows (S (S n)) B) with (INR (S (S n)) * (1 + B * underflows (S n) B)).
      apply Rmult_le_pos; [apply pos_INR|]. specialize (IH H). assert (0 <= B * underflows (S n) B) by (apply Rmult_le_pos; auto). lra.
    Qed.
    Lemma fdet_err : forall rows cols, length rows = length cols -> rows_ok rows -> rows_ok cols -> finite (fdet rows cols) = true ->
      Rabs (value (fdet rows cols) - det rows cols) <=
        ((1 + u) ^ dr (length rows) - 1) * per rows cols + (1 + u) ^ dr (length rows) * eta * underflows (length rows) B.
    Proof.
      induction rows as [|i rows IH]; intros cols L Hr Hc F.
      - cbn [fdet length dr underflows pow]. rewrite (proj2 one_ok). change (det [] cols) with 1. cbn [pper].
        replace (1 - 1) with 0 by ring. rewrite Rabs_R0. lra.
      - destruct rows as [|i2 rows2].
        + destruct cols as [|c [|c2 cols]]; try discriminate L.
          change (fdet [i] [c]) with (add z0 (mul (el i c) (SFone prec emax))) in F |- *. cbn [length dr underflows pow].
          rewrite pdet_S. cbn [pper length rsum nth]. change (det [] (remove_at 0 [c])) with 1. change (signed r_ring 0 1) with 1.
          assert (Vi : valid (el i c)) by (apply el_valid; [apply Hr|apply Hc]; left; auto).
          destruct (add_fin _ _ _ _ F) as (_ & F1). rewrite add0, mul1; auto.
          2: { apply mul_valid; auto. apply one_ok. }
          unfold mval, vval. replace (_ - _) with 0 by ring. rewrite Rabs_R0. lra.
        + remember (i2 :: rows2) as rows eqn:Er. set (n := length rows) in *.
          assert (Hn : (0 < n)%nat) by (unfold n; subst rows; simpl; lia).
          assert (Lc : length cols = S n) by (simpl in L; unfold n; lia).
          assert (Drec : dr (S n) = (S n + dr n)%nat) by (destruct n; [lia|reflexivity]).
          assert (Urec : underflows (S n) B = INR (S n) * (1 + B * underflows n B)) by (destruct n; [lia|reflexivity]).
          change (length (i :: rows)) with (S n). rewrite Drec, Urec. rewrite pdet_S. cbn [fdet pper] in F |- *. rewrite Lc in F |- *.
          set (p := fun k => mul (el i (nth k cols 0%nat)) (fneg k (fdet rows (remove_at k cols)))) in *.
          set (x := fun k => mval m i (nth k cols 0%nat)). set (C := fun k => signed r_ring k (det rows (remove_at k cols))).
          set (P := fun k => per rows (remove_at k cols)).
          change (rsum (S n) (fun k => mval m i (nth k cols 0%nat) * signed r_ring k (det rows (remove_at k cols)))) with (rsum (S n) (fun k => x k * C k)).
          change (rsum (S n) (fun k => Rabs (mval m i (nth k cols 0%nat)) * per rows (remove_at k cols))) with (rsum (S n) (fun k => Rabs (x k) * P k)).
          assert (Hi : (i < N)%nat) by (apply Hr; left; auto).
          assert (Hnth : forall k, (k < S n)%nat -> (nth k cols 0 < N)%nat) by (intros; apply Hc, nth_In; lia).
          assert (HB0 : 0 <= B). { eapply Rle_trans; [apply Rabs_pos|]. apply (HB Hi (Hnth 0%nat ltac:(lia))). }
          assert (Rk : forall k, (k < S n)%nat -> length rows = length (remove_at k cols) /\ rows_ok rows /\ rows_ok (remove_at k cols)).
          { intros k Hk. split; [|split].
            - rewrite remove_at_length by lia. fold n. lia.
            - intros y Hy. apply Hr. right. auto.
            - intros y Hy. apply Hc. eapply in_remove_at; eauto. }
          assert (Vp : forall k, (k < S n)%nat -> valid (p k)).
          { intros k Hk. destruct (Rk k Hk) as (R1 & R2 & R3). apply mul_valid; auto; [apply el_valid; auto|]. apply fneg_valid, fdet_valid; auto. }
          pose proof (@zsum0_fin (S n) p F) as Fp.
          pose proof (@zsum0_err n p Vp F) as HS.
          set (G := (1 + u) ^ dr n). set (W := underflows n B). set (K := (1 + u) * G).
          pose proof (@pow1u u (dr n) (u_pos prec)) as HG. fold G in HG. pose proof (u_pos prec) as Hu. pose proof (eta_pos prec emax) as Heta.
          pose proof (@underflows_0 n HB0) as HW. fold W in HW.
          assert (HK : 1 <= K). { unfold K. nra. }
          assert (Each : forall k, (k < S n)%nat -> Rabs (value (p k) - x k * C k) <= (K - 1) * (Rabs (x k) * P k) + K * (eta * (1 + B * W))).
          { intros k Hk. destruct (Rk k Hk) as (R1 & R2 & R3).
            assert (Vi : valid (el i (nth k cols 0%nat))) by (apply el_valid; auto).
            assert (Vc : valid (fneg k (fdet rows (remove_at k cols)))) by (apply fneg_valid, fdet_valid; auto).
            destruct (mul_err Hp He _ _ Vi Vc (Fp k Hk)) as (d & h & Hd & Hh & E & _). fold (p k) in E. rewrite E. clear E.
            change (value (el i (nth k cols 0%nat))) with (x k).
            destruct (fneg_value k (fdet rows (remove_at k cols))) as (E1 & E2). rewrite E1.
            assert (Fc : finite (fdet rows (remove_at k cols)) = true). { rewrite <- E2. pose proof (Fp k Hk) as Q. apply mul_fin in Q. tauto. }
            pose proof (IH (remove_at k cols) R1 R2 R3 Fc) as Q. fold n in Q. fold G W in Q. change (per rows (remove_at k cols)) with (P k) in Q.
            assert (Q1 : Rabs (signed r_ring k (value (fdet rows (remove_at k cols))) - C k) <= (G - 1) * P k + G * eta * W).
            { replace (signed r_ring k (value (fdet rows (remove_at k cols))) - C k) with (signed r_ring k (value (fdet rows (remove_at k cols)) - det rows (remove_at k cols))).
              { rewrite signed_abs. exact Q. }
              unfold C, signed. destruct (Nat.even k); [reflexivity|]. cbn. ring. }
            assert (Q2 : Rabs (C k) <= P k). { unfold C. rewrite signed_abs. apply pdet_pper. }
            assert (Q3 : Rabs (x k) <= B) by (apply HB; auto).
            set (cc := signed r_ring k (value (fdet rows (remove_at k cols)))) in *. set (X := x k) in *. set (CC := C k) in *. set (PP := P k) in *.
            assert (Q4 : 0 <= PP) by apply pper_0. clearbody cc X CC PP. clearbody G W. clear - Hd Hh Q1 Q2 Q3 Q4 HG Hu Heta HW HB0 K.
            unfold K. clear K.
            replace (X * cc * (1 + d) + h - X * CC) with (X * ((cc - CC) * (1 + d) + d * CC) + h) by ring.
            eapply Rle_trans; [apply Rabs_triang|]. rewrite Rabs_mult.
            assert (E1 : Rabs ((cc - CC) * (1 + d) + d * CC) <= ((1 + u) * G - 1) * PP + (1 + u) * G * eta * W).
            { eapply Rle_trans; [apply Rabs_triang|]. rewrite !Rabs_mult.
              assert (Rabs (1 + d) <= 1 + u). { eapply Rle_trans; [apply Rabs_triang|]. rewrite Rabs_R1. lra. }
              assert (Rabs (cc - CC) * Rabs (1 + d) <= ((G - 1) * PP + G * eta * W) * (1 + u)) by (apply Rmult_le_compat; auto using Rabs_pos).
              assert (Rabs d * Rabs CC <= u * PP) by (apply Rmult_le_compat; auto using Rabs_pos). lra. }
            assert (E2 : Rabs X * Rabs ((cc - CC) * (1 + d) + d * CC) <= Rabs X * (((1 + u) * G - 1) * PP + (1 + u) * G * eta * W)) by (apply Rmult_le_compat_l; auto using Rabs_pos).
            assert (E3 : Rabs X * ((1 + u) * G * eta * W) <= B * ((1 + u) * G * eta * W)).
            { apply Rmult_le_compat_r; auto. repeat apply Rmult_le_pos; lra. }
            assert (E4 : 1 <= (1 + u) * G) by nra. assert (E5 : 1 * eta <= (1 + u) * G * eta) by (apply Rmult_le_compat_r; lra). lra. }
          set (q := eta * (1 + B * W)) in *. assert (Hq : 0 <= q). { unfold q. apply Rmult_le_pos; [lra|]. assert (0 <= B * W) by (apply Rmult_le_pos; auto). lra. }
          set (A0 := rsum (S n) (fun k => Rabs (x k) * P k)).
          assert (H1 : Rabs (rsum (S n) (fun k => value (p k)) - rsum (S n) (fun k => x k * C k)) <= (K - 1) * A0 + INR (S n) * (K * q)).
          { rewrite rsum_sub. eapply Rle_trans; [apply rsum_abs|]. unfold A0. rewrite <- rsum_lin. apply rsum_le. auto. }
          assert (H2 : rsum (S n) (fun k => Rabs (value (p k))) <= K * A0 + INR (S n) * (K * q)).
          { unfold A0. rewrite <- rsum_lin. apply rsum_le. intros k Hk. specialize (Each k Hk).
            replace (value (p k)) with (x k * C k + (value (p k) - x k * C k)) by ring. eapply Rle_trans; [apply Rabs_triang|].
            assert (Rabs (x k * C k) <= Rabs (x k) * P k).
            { rewrite Rabs_mult. apply Rmult_le_compat_l; [apply Rabs_pos|]. unfold C. rewrite signed_abs. apply pdet_pper. } lra. }
          replace (value (zsum0 (S n) p) - rsum (S n) (fun k => x k * C k)) with
            ((value (zsum0 (S n) p) - rsum (S n) (fun k => value (p k))) + (rsum (S n) (fun k => value (p k)) - rsum (S n) (fun k => x k * C k))) by ring.
          eapply Rle_trans; [apply Rabs_triang|].
          pose proof (@pow1u u n (u_pos prec)) as HH. rewrite pow_add. fold G. change ((1 + u) ^ S n) with ((1 + u) * (1 + u) ^ n).
          set (H := (1 + u) ^ n) in *. replace ((1 + u) * H * G) with (H * K) by (unfold K; ring).
          assert (H3 : (H - 1) * rsum (S n) (fun k => Rabs (value (p k))) <= (H - 1) * (K * A0 + INR (S n) * (K * q))) by (apply Rmult_le_compat_l; lra).
          replace ((H * K - 1) * A0 + H * K * eta * (INR (S n) * (1 + B * W))) with
            ((H - 1) * (K * A0 + INR (S n) * (K * q)) + ((K - 1) * A0 + INR (S n) * (K * q))) by (unfold q; ring).
          eapply Rle_trans; [apply Rplus_le_compat; [exact HS|exact H1]|]. apply Rplus_le_compat_r. exact H3.
    Qed.
  End Mat.
  Lemma dr_closed : forall n, dr n = det_roundings n.
  Proof.
    assert (Q : forall n, (0 < n)%nat -> (2 * dr n + 2 = n * (n + 1))%nat).
    { induction n as [|[|n] IH]; intros H; [lia|reflexivity|]. change (dr (S (S n))) with (S (S n) + dr (S n))%nat. lia. }
    intros [|n]; [reflexivity|]. unfold det_roundings. specialize (Q (S n) ltac:(lia)).
    rewrite <- Q. replace (2 * dr (S n) + 2)%nat with ((dr (S n) + 1) * 2)%nat by lia. rewrite Nat.div_mul by lia. lia.
  Qed.
  Lemma seq_ok : forall N, rows_ok N (seq 0 N).
  Proof. intros N x H. apply in_seq in H. lia. Qed.

  (** ** Determinants *)
  Theorem C100_det : forall N m B d, rect N N m -> Forall (Forall (fun x => valid x)) m ->
    (forall i j, (i < N)%nat -> (j < N)%nat -> Rabs (mval m i j) <= B) ->
    m_det fo N m = Ok d -> finite d = true ->
    Rabs (value d - leibniz r_ring N (mval m)) <= det_error prec emax N B (mval m).
  Proof.
    intros N m B d Rm Vm HB E F. rewrite m_det_spec, (fdet_ok Rm) in E by (auto using seq_ok). apply Ok_inj in E. subst d.
    unfold det_error. rewrite <- pper_permanent, <- pdet_leibniz, <- dr_closed.
    pose proof (@fdet_err N m Rm Vm B HB (seq 0 N) (seq 0 N) eq_refl (@seq_ok N) (@seq_ok N) F) as Q. rewrite seq_length in Q. exact Q.
  Qed.
  (** A computed determinant larger than the bound certifies that the matrix is not singular. *)
  Corollary C100_nonsingular : forall N m B d, rect N N m -> Forall (Forall (fun x => valid x)) m ->
    (forall i j, (i < N)%nat -> (j < N)%nat -> Rabs (mval m i j) <= B) ->
    m_det fo N m = Ok d -> finite d = true -> det_error prec emax N B (mval m) < Rabs (value d) ->
    leibniz r_ring N (mval m) <> 0 /\ 0 < value d * leibniz r_ring N (mval m).
  Proof.
    intros N m B d Rm Vm HB E F H. pose proof (C100_det Rm Vm HB E F) as Q. set (L := leibniz r_ring N (mval m)) in *. set (x := value d) in *.
    assert (P : 0 < x * L). { unfold Rabs in Q, H. destruct (Rcase_abs (x - L)), (Rcase_abs x); nra. }
    split; auto. intros Z. rewrite Z in P. lra.
  Qed.
  (** The bound in terms of the largest element only: the permanent is at most N! B^N. *)
  Lemma pper_le : forall A B, 0 <= B -> forall rows cols, length rows = length cols ->
    (forall i j, In i rows -> In j cols -> Rabs (A i j) <= B) -> pper A rows cols <= INR (fact (length rows)) * B ^ length rows.
  Proof.
    intros A B HB. induction rows as [|i rows IH]; intros cols L H; cbn [pper]. { cbn. lra. }
    apply Rle_trans with (rsum (length cols) (fun _ => 0 * 0 + B * (INR (fact (length rows)) * B ^ length rows))).
    - apply rsum_le. intros k Hk. rewrite Rmult_0_l, Rplus_0_l. apply Rmult_le_compat; [apply Rabs_pos|apply pper_0| |].
      + apply H; [left; auto|apply nth_In; auto].
      + apply IH. { rewrite remove_at_length by auto. simpl in L. lia. }
        intros a b Ha Hb. apply H; [right; auto|eapply in_remove_at; eauto].
    - rewrite rsum_lin, <- L. change (fact (length (i :: rows))) with (S (length rows) * fact (length rows))%nat.
      rewrite mult_INR. change (length (i :: rows)) with (S (length rows)). rewrite <- (tech_pow_Rmult B). apply Req_le. ring.
  Qed.
  Theorem C100_permanent : forall n A B, 0 <= B -> (forall i j, (i < n)%nat -> (j < n)%nat -> Rabs (A i j) <= B) ->
    Rabs (leibniz r_ring n A) <= permanent n A <= INR (fact n) * B ^ n.
  Proof.
    intros n A B HB H. rewrite <- pper_permanent, <- pdet_leibniz. split. { apply pdet_pper. }
    pose proof (@pper_le A B HB (seq 0 n) (seq 0 n) eq_refl) as Q. rewrite seq_length in Q. apply Q.
    intros i j Hi Hj. apply in_seq in Hi, Hj. apply H; lia.
  Qed.

  (** ** Cofactors *)
  Definition fcof (n : nat) (m : list (list spec_float)) (i j : nat) : spec_float :=
    fneg (i + j) (fdet m (remove_at i (seq 0 (S n))) (remove_at j (seq 0 (S n)))).
  Lemma remove_ok : forall n k, (k < S n)%nat -> rows_ok (S n) (remove_at k (seq 0 (S n))).
  Proof. intros n k Hk x H. apply in_remove_at in H. apply in_seq in H. lia. Qed.
  Lemma remove_len : forall n k, (k < S n)%nat -> length (remove_at k (seq 0 (S n))) = n.
  Proof. intros. rewrite remove_at_length; rewrite seq_length; lia. Qed.
  Lemma fcof_ok : forall n m i j, rect (S n) (S n) m -> (i < S n)%nat -> (j < S n)%nat -> m_cofactor fo (S n) m i j = Ok (fcof n m i j).
  Proof.
    intros n m i j Rm Hi Hj. rewrite m_cofactor_spec by auto. rewrite (fdet_ok Rm); auto using remove_ok.
    - cbn [bind]. apply fneg_ok.
    - rewrite !remove_len; auto.
  Qed.
  Lemma fcof_valid : forall n m i j, rect (S n) (S n) m -> Forall (Forall (fun x => valid x)) m -> (i < S n)%nat -> (j < S n)%nat -> valid (fcof n m i j).
  Proof.
    intros n m i j Rm Vm Hi Hj. apply fneg_valid. eapply fdet_valid; eauto using remove_ok. rewrite !remove_len; auto.
  Qed.
  Lemma fcof_err : forall n m B i j, rect (S n) (S n) m -> Forall (Forall (fun x => valid x)) m ->
    (forall i j, (i < S n)%nat -> (j < S n)%nat -> Rabs (mval m i j) <= B) ->
    (i < S n)%nat -> (j < S n)%nat -> finite (fcof n m i j) = true ->
    Rabs (value (fcof n m i j) - signed r_ring (i + j) (leibniz r_ring n (minor i j (mval m)))) <= det_error prec emax n B (minor i j (mval m)).
  Proof.
    intros n m B i j Rm Vm HB Hi Hj F. unfold fcof in *. destruct (fneg_value (i + j) (fdet m (remove_at i (seq 0 (S n))) (remove_at j (seq 0 (S n))))) as (E1 & E2).
    rewrite E1. rewrite E2 in F. clear E1 E2.
    pose proof (@fdet_err (S n) m Rm Vm B HB _ _ (eq_trans (remove_len Hi) (eq_sym (remove_len Hj))) (remove_ok Hi) (remove_ok Hj) F) as Q.
    rewrite remove_len in Q by auto. rewrite minor_pdet by auto. set (L := pdet _ _ _ _) in *.
    replace (signed r_ring (i + j) (value (fdet m (remove_at i (seq 0 (S n))) (remove_at j (seq 0 (S n))))) - signed r_ring (i + j) L) with
      (signed r_ring (i + j) (value (fdet m (remove_at i (seq 0 (S n))) (remove_at j (seq 0 (S n)))) - L)).
    2: { generalize (value (fdet m (remove_at i (seq 0 (S n))) (remove_at j (seq 0 (S n))))) L. clear. intros a b.
         unfold signed. destruct (Nat.even (i + j)); [reflexivity|]. change (- (a - b) = - a - - b). ring. }
    rewrite signed_abs. unfold det_error. rewrite <- dr_closed. rewrite <- pper_permanent. unfold minor at 1. rewrite pper_map, <- !remove_at_seq by auto. exact Q.
  Qed.
  Theorem C100_cofactor : forall n m B i j c, rect (S n) (S n) m -> Forall (Forall (fun x => valid x)) m ->
    (forall i j, (i < S n)%nat -> (j < S n)%nat -> Rabs (mval m i j) <= B) ->
    m_cofactor fo (S n) m i j = Ok c -> finite c = true ->
    Rabs (value c - signed r_ring (i + j) (leibniz r_ring n (minor i j (mval m)))) <= det_error prec emax n B (minor i j (mval m)).
  Proof.
    intros n m B i j c Rm Vm HB E F. destruct (Nat.ltb_spec i (S n)) as [Hi|Hi]; [destruct (Nat.ltb_spec j (S n)) as [Hj|Hj]|].
    - rewrite fcof_ok in E by auto. apply Ok_inj in E. subst c. apply fcof_err; auto.
    - rewrite m_cofactor_panic in E by lia. discriminate.
    - rewrite m_cofactor_panic in E by lia. discriminate.
  Qed.

  (** ** Adjugate and inverse *)
  Lemma fadj_ok : forall n m, rect (S n) (S n) m -> m_adj fo (S n) m = Ok (mk (S n) (S n) (fun i j => fcof n m j i)).
  Proof.
    intros n m Rm. unfold m_adj. destruct (m_indices_spec (S n) (S n)) as (ix & E & Ri & Hi). rewrite E. cbn [bind].
    apply (m_map_ok (fun '(i, j) => m_cofactor fo (S n) m j i) (mk (S n) (S n) (fun i j => fcof n m j i)) Ri). split.
    - apply rect_mk.
    - intros i j x. rewrite elt_mk. destruct ((i <? S n) && (j <? S n))%nat eqn:E1; [|discriminate]. intros Q. injection Q as <-.
      apply andb_prop in E1 as (E1 & E2). apply Nat.ltb_lt in E1, E2. unfold at1m. rewrite Hi by lia. apply fcof_ok; auto.
  Qed.
  Lemma fsdiv_ok : forall N f d, m_sdiv fo (mk N N f) d = Ok (mk N N (fun i j => SFdiv prec emax (f i j) d)).
  Proof. intros. unfold m_sdiv. apply m_map_mk. reflexivity. Qed.
  Theorem C100_adjugate : forall n m B r, rect (S n) (S n) m -> Forall (Forall (fun x => valid x)) m ->
    (forall i j, (i < S n)%nat -> (j < S n)%nat -> Rabs (mval m i j) <= B) ->
    m_adj fo (S n) m = Ok r ->
    forall i j c, elt r i j = Some c -> finite c = true ->
    Rabs (value c - signed r_ring (i + j) (leibniz r_ring n (minor j i (mval m)))) <= det_error prec emax n B (minor j i (mval m)).
  Proof.
    intros n m B r Rm Vm HB E i j c Ec F. rewrite fadj_ok in E by auto. apply Ok_inj in E. subst r. rewrite elt_mk in Ec.
    destruct ((i <? S n) && (j <? S n))%nat eqn:E1; [|discriminate]. apply andb_prop in E1 as (E1 & E2). apply Nat.ltb_lt in E1, E2. injection Ec as <-.
    rewrite Nat.add_comm. apply fcof_err; auto.
  Qed.
  Lemma div_fin_l : forall x y, finite y = true -> finite (SFdiv prec emax x y) = true -> finite x = true.
  Proof. intros [[]|[]| |[] mx ex] [[]|[]| |[] my ey]; cbn; intros; auto; discriminate. Qed.
  (** The computed inverse, for a matrix whose computed determinant [d] is larger than its error bound: element (i, j)
      is within an explicit distance of the exact one, the cofactor of (j, i) over the determinant. *)
  Theorem C100_inverse : forall n m B d r, rect (S n) (S n) m -> Forall (Forall (fun x => valid x)) m ->
    (forall i j, (i < S n)%nat -> (j < S n)%nat -> Rabs (mval m i j) <= B) ->
    m_det fo (S n) m = Ok d -> finite d = true -> det_error prec emax (S n) B (mval m) < Rabs (value d) ->
    m_inv fo (S n) m = Ok r ->
    forall i j x, elt r i j = Some x -> finite x = true ->
    let Ed := det_error prec emax (S n) B (mval m) in
    let Ec := det_error prec emax n B (minor j i (mval m)) in
    let exact := signed r_ring (i + j) (leibniz r_ring n (minor j i (mval m))) / leibniz r_ring (S n) (mval m) in
    Rabs (value x - exact) <=
      ((1 + u) * Ec + u * permanent n (minor j i (mval m)) + eta * Rabs (value d) + Rabs (value x) * Ed) / (Rabs (value d) - Ed).
  Proof.
    intros n m B d r Rm Vm HB Hd Fd Big E i j x Ex F Ed Ec exact.
    pose proof (C100_det Rm Vm HB Hd Fd) as Qd. destruct (C100_nonsingular Rm Vm HB Hd Fd Big) as (NZ & _). fold Ed in Big, Qd.
    unfold m_inv in E. rewrite fadj_ok, Hd in E by auto. cbn [bind] in E. rewrite fsdiv_ok in E. apply Ok_inj in E. subst r. rewrite elt_mk in Ex.
    destruct ((i <? S n) && (j <? S n))%nat eqn:E1; [|discriminate]. apply andb_prop in E1 as (E1 & E2). apply Nat.ltb_lt in E1, E2. injection Ex as <-.
    assert (Vd : valid d). { rewrite m_det_spec, (fdet_ok Rm) in Hd by (auto using seq_ok). apply Ok_inj in Hd. subst d. eapply fdet_valid; eauto using seq_ok. }
    pose proof (@div_fin_l _ _ Fd F) as Fc. pose proof (fcof_valid Rm Vm E2 E1) as Vc. pose proof (@fcof_err n m B j i Rm Vm HB E2 E1 Fc) as Qc.
    fold Ec in Qc. rewrite (Nat.add_comm j i) in Qc.
    assert (Dn : value d <> 0). { intros Z. rewrite Z, Rabs_R0 in Big. pose proof (Rabs_pos (value d - leibniz r_ring (S n) (mval m))). lra. }
    destruct (div_err Hp He _ _ Vc Vd Fc Fd Dn F) as (e & h & He1 & Hh & Ev & _).
    assert (HC : Rabs (signed r_ring (i + j) (leibniz r_ring n (minor j i (mval m)))) <= permanent n (minor j i (mval m))).
    { rewrite signed_abs, <- pper_permanent, <- pdet_leibniz. apply pdet_pper. }
    unfold exact. clear exact. set (D := leibniz r_ring (S n) (mval m)) in *. set (C := signed r_ring (i + j) (leibniz r_ring n (minor j i (mval m)))) in *.
    set (P := permanent n (minor j i (mval m))) in *. set (X := value (SFdiv prec emax (fcof n m j i) d)) in *. set (c := value (fcof n m j i)) in *. set (dv := value d) in *.
    clearbody D C P X c dv Ed Ec. pose proof (u_pos prec) as Hu. clear - Big Qd NZ Qc Dn He1 Hh Ev HC Hu.
    assert (Hx : X * dv = c * (1 + e) + h * dv). { rewrite Ev. field. auto. }
    assert (K1 : Rabs (X * D - C) <= (1 + u) * Ec + u * P + eta * Rabs dv + Rabs X * Ed).
    { replace (X * D - C) with (((c - C) * (1 + e) + e * C + h * dv) + X * (D - dv)) by lra.
      eapply Rle_trans; [apply Rabs_triang|]. rewrite (Rabs_mult X).
      assert (T1 : Rabs ((c - C) * (1 + e) + e * C + h * dv) <= Rabs (c - C) * Rabs (1 + e) + Rabs e * Rabs C + Rabs h * Rabs dv).
      { eapply Rle_trans; [apply Rabs_triang|]. rewrite (Rabs_mult h). apply Rplus_le_compat_r. eapply Rle_trans; [apply Rabs_triang|]. rewrite !Rabs_mult. lra. }
      assert (T2 : Rabs (1 + e) <= 1 + u). { eapply Rle_trans; [apply Rabs_triang|]. rewrite Rabs_R1. lra. }
      assert (T3 : Rabs (c - C) * Rabs (1 + e) <= Ec * (1 + u)) by (apply Rmult_le_compat; auto using Rabs_pos).
      assert (T4 : Rabs e * Rabs C <= u * P) by (apply Rmult_le_compat; auto using Rabs_pos).
      assert (T5 : Rabs h * Rabs dv <= eta * Rabs dv) by (apply Rmult_le_compat_r; auto using Rabs_pos).
      assert (T6 : Rabs X * Rabs (D - dv) <= Rabs X * Ed) by (apply Rmult_le_compat_l; [apply Rabs_pos|]; rewrite Rabs_minus_sym; auto). lra. }
    assert (K2 : Rabs dv - Ed <= Rabs D). { pose proof (Rabs_triang D (dv - D)) as T. replace (D + (dv - D)) with dv in T by ring. lra. }
    replace (X - C / D) with ((X * D - C) / D) by (field; auto). unfold Rdiv at 1. rewrite Rabs_mult, Rabs_inv.
    apply Rmult_le_compat; auto using Rabs_pos.
    - rewrite <- Rabs_inv. apply Rabs_pos.
    - apply Rinv_le_contravar; lra.
  Qed.
End C100.

(* ------------------------------------------------------------------------- *)
(** * Non-trivial cases                                                        *)
(** f64 [[0.1, 0.3], [0.7, 0.2]]: the products and the sum round; the computed determinant certifies that the
    exact one is negative. *)
Definition ex_m : list (list spec_float) :=
  [[S754_finite false 7205759403792794 (-56); S754_finite false 5404319552844595 (-54)];
   [S754_finite false 6305039478318694 (-53); S754_finite false 7205759403792794 (-55)]].
Definition ex_d : spec_float := S754_finite true 6845471433603154 (-55).
Lemma ex_det : m_det (sf_ops 53 1024 (fun x _ => x)) 2 ex_m = Ok ex_d.
Proof. vm_compute. reflexivity. Qed.
Lemma p2_small : forall k : Z, (k <= -10)%Z -> (powerRZ 2 k <= / 1000)%R.
Proof.
  intros k H. assert (E : powerRZ 2 k = Raux.bpow radix2 k) by (rewrite Raux.bpow_powerRZ; reflexivity). rewrite E.
  eapply Rle_trans; [apply Raux.bpow_le, H|]. cbn. lra.
Qed.
Lemma p2_fin : forall s m k, value (S754_finite s m k) = ((if s then -1 else 1) * IZR (Z.pos m) * powerRZ 2 k)%R.
Proof. reflexivity. Qed.
Lemma p2_scale : forall k, (0 <= k)%Z -> powerRZ 2 (- k) = (/ IZR (2 ^ k))%R.
Proof.
  intros k H. rewrite <- (Raux.bpow_powerRZ radix2). rewrite Raux.bpow_opp. f_equal. symmetry. apply (Raux.IZR_Zpower radix2). auto.
Qed.
Lemma C100_ex_le : forall i j, i < 2 -> j < 2 -> (Rabs (mval ex_m i j) <= 1)%R.
Proof.
  assert (Q : forall m k, (0 <= k)%Z -> (Z.pos m <= 2 ^ k)%Z -> (Rabs (value (S754_finite false m (- k))) <= 1)%R).
  { intros m k H L. rewrite p2_fin, p2_scale by auto. rewrite Rabs_pos_eq.
    - apply IZR_le in L. assert (P : (0 < IZR (2 ^ k))%R) by (apply IZR_lt; lia).
      rewrite Rmult_1_l. apply Rmult_le_reg_r with (IZR (2 ^ k)); auto. rewrite Rmult_assoc, Rinv_l by lra. lra.
    - assert (P : (0 < IZR (2 ^ k))%R) by (apply IZR_lt; lia). apply Rinv_0_lt_compat in P. assert (0 <= IZR (Z.pos m))%R by (apply IZR_le; lia). nra. }
  intros [|[|i]] [|[|j]] Hi Hj; try lia.
  - apply (Q _ 56%Z); lia.
  - apply (Q _ 54%Z); lia.
  - apply (Q _ 53%Z); lia.
  - apply (Q _ 55%Z); lia.
Qed.
Example C100_ex : (leibniz r_ring 2 (mval ex_m) < 0)%R.
Proof.
  assert (Rm : rect 2 2 ex_m) by (split; repeat constructor).
  assert (Vm : Forall (Forall (fun x => valid_binary 53 1024 x = true)) ex_m) by (repeat constructor).
  assert (Bd : (det_error 53 1024 2 1 (mval ex_m) < / 10)%R).
  { unfold det_error. change (det_roundings 2) with 2. change (underflows 2 1) with ((INR 2) * (1 + 1 * 0))%R.
    assert (U : (0 < roundoff 53 <= / 1000)%R) by (split; [apply u_pos|apply p2_small; lia]).
    assert (T : (0 < half_tiny 53 1024 <= / 1000)%R) by (split; [apply eta_pos|apply p2_small; lia]).
    destruct (@C100_permanent 2 (mval ex_m) 1 ltac:(lra) C100_ex_le) as (P1 & P2).
    pose proof (Rabs_pos (leibniz r_ring 2 (mval ex_m))). assert (P3 : (permanent 2 (mval ex_m) <= 2)%R) by (eapply Rle_trans; [exact P2|]; cbn; lra).
    set (P := permanent 2 (mval ex_m)) in *. set (a := roundoff 53) in *. set (t := half_tiny 53 1024) in *. clearbody P a t.
    replace ((1 + a) ^ 2 - 1)%R with (a * (2 + a))%R by ring. replace ((1 + a) ^ 2)%R with (1 + a * (2 + a))%R by ring. cbn [INR].
    assert (A1 : (0 <= a * (2 + a) <= 3 / 1000)%R) by nra. set (b := (a * (2 + a))%R) in *. clearbody b. nra. }
  destruct (@C100_nonsingular 53 1024 (fun x _ => x) eq_refl eq_refl 2 ex_m 1 ex_d Rm Vm C100_ex_le ex_det eq_refl) as (_ & Q).
  - eapply Rlt_trans; [exact Bd|]. unfold ex_d. rewrite p2_fin. change (-55)%Z with (- (55))%Z. rewrite p2_scale by lia.
    rewrite Rabs_left; [|cbn; lra]. cbn. lra.
  - assert (N : (value ex_d < 0)%R). { unfold ex_d. rewrite p2_fin. change (-55)%Z with (- (55))%Z. rewrite p2_scale by lia. cbn. lra. }
    nra.
Qed.

Print Assumptions C100_det.
Print Assumptions C100_nonsingular.
Print Assumptions C100_permanent.
Print Assumptions C100_cofactor.
Print Assumptions C100_adjugate.
Print Assumptions C100_inverse.
