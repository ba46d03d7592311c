(** Gaps, midpoints and parity of floating point numbers; what repeated addition and subtraction, or multiplication and
    division, does (after J. F. Reiser and D. E. Knuth, TAOCP 4.2.2, Theorem D). *)
From Coq Require Import ZArith Reals Lra Lia Psatz.
From Flocq Require Import Core.
Set Implicit Arguments.
Local Open Scope R_scope.

Section Gaps.
  Context (emin prec : Z) (Hp : (1 < prec)%Z).
  Local Notation fexp := (FLT_exp emin prec).
  Local Notation F := (generic_format radix2 fexp).
  Local Notation RN := (round radix2 fexp ZnearestE).
  Local Notation up := (succ radix2 fexp).
  Local Notation dn := (pred radix2 fexp).
  Local Notation bpow := (bpow radix2).
  Local Instance prec0 : Prec_gt_0 prec. Proof. red. lia. Qed.
  Local Instance vexp : Valid_exp fexp. Proof. apply FLT_exp_valid. exact prec0. Qed.
  Local Instance ene : Exists_NE radix2 fexp. Proof. apply exists_NE_FLT. right. exact Hp. Qed.
  Local Instance mexp : Monotone_exp fexp. Proof. apply FLT_exp_monotone. Qed.

  (* the significand is even *)
  Definition E (x : R) : Prop := exists g : float radix2, x = F2R g /\ canonical radix2 fexp g /\ Z.even (Fnum g) = true.

  Lemma E_opp : forall x, E x -> E (- x).
  Proof.
    intros x ([m e] & -> & C & P). exists (Float radix2 (- m) e). split; [|split].
    - unfold F2R. cbn. rewrite opp_IZR. ring.
    - apply canonical_opp. exact C.
    - cbn in *. rewrite Z.even_opp. exact P.
  Qed.
  Lemma F_opp : forall x, F x -> F (- x). Proof. intros. apply generic_format_opp. auto. Qed.
  Lemma up_opp : forall x, up (- x) = - dn x. Proof. intros. apply succ_opp. Qed.
  Lemma dn_opp : forall x, dn (- x) = - up x. Proof. intros. apply pred_opp. Qed.
  Lemma RN_opp : forall x, RN (- x) = - RN x. Proof. intros. apply round_NE_opp. Qed.
  Lemma RN_F : forall x, F (RN x). Proof. intros. apply generic_format_round; typeclasses eauto. Qed.
  Lemma RN_le : forall x y, x <= y -> RN x <= RN y. Proof. intros. apply round_le; try typeclasses eauto. auto. Qed.
  Lemma RN_id : forall x, F x -> RN x = x. Proof. intros. apply round_generic; try typeclasses eauto. auto. Qed.
  Lemma F_up : forall y, F y -> F (up y). Proof. intros. apply generic_format_succ; auto. apply vexp. Qed.
  Lemma F_dn : forall y, F y -> F (dn y). Proof. intros. apply generic_format_pred; auto. apply vexp. Qed.
  Lemma up_le : forall x y, F x -> F y -> x < y -> up x <= y. Proof. intros. apply succ_le_lt; auto. apply vexp. Qed.
  Lemma le_dn : forall x y, F x -> F y -> x < y -> x <= dn y. Proof. intros. apply pred_ge_gt; auto. apply vexp. Qed.
  Lemma dn_up : forall y, F y -> dn (up y) = y. Proof. intros. apply pred_succ; auto. apply vexp. Qed.
  Lemma up_dn : forall y, F y -> up (dn y) = y. Proof. intros. apply succ_pred; auto. apply vexp. Qed.

  (* gaps are powers of two, except that 0 < y = 2^j has the half gap below *)
  Lemma ulp_pow : forall y, exists n, (emin <= n)%Z /\ ulp radix2 fexp y = bpow n.
  Proof.
    intros y. destruct (Req_dec y 0) as [->|N].
    - exists emin. split; [lia|]. apply ulp_FLT_0. exact prec0.
    - exists (cexp radix2 fexp y). split; [unfold cexp, FLT_exp; lia|]. apply ulp_neq_0. exact N.
  Qed.
  Lemma gaps_pos : forall y, 0 < y -> F y -> (exists n, (emin <= n)%Z /\ y - dn y = bpow n) /\ (up y - y = y - dn y \/
    exists j, (emin + prec <= j)%Z /\ E y /\ y = bpow j /\ y - dn y = bpow (j - prec) /\ up y - y = 2 * bpow (j - prec)).
  Proof.
    intros y P Fy. rewrite succ_eq_pos, pred_eq_pos by lra. unfold pred_pos. destruct (Req_bool_spec y (bpow (mag radix2 y - 1))) as [Q|Q].
    - set (e := (mag radix2 y : Z)) in *. assert (U : ulp radix2 fexp y = bpow (fexp e)) by (rewrite ulp_neq_0 by lra; reflexivity). rewrite U.
      split. { exists (fexp (e - 1)). split; [unfold FLT_exp; lia|ring]. }
      destruct (Z_le_gt_dec (e - prec) emin) as [L|L].
      + left. replace (fexp (e - 1)%Z) with emin by (unfold FLT_exp; lia). replace (fexp e) with emin by (unfold FLT_exp; lia). ring.
      + right. exists (e - 1)%Z. split; [lia|]. split; [|split; [exact Q|split]].
        * exists (Float radix2 (2 ^ (prec - 1)) (e - prec)). assert (X : y = F2R (Float radix2 (2 ^ (prec - 1)) (e - prec))).
          { unfold F2R. cbn. rewrite Q. change (2 ^ (prec - 1))%Z with (radix2 ^ (prec - 1))%Z. rewrite IZR_Zpower by lia. rewrite <- bpow_plus. f_equal. lia. }
          split; auto. split.
          -- unfold canonical. rewrite <- X. cbn. unfold cexp, FLT_exp. fold e. lia.
          -- cbn. rewrite Z.even_pow by lia. reflexivity.
        * replace (fexp (e - 1)%Z) with (e - 1 - prec)%Z by (unfold FLT_exp; lia). ring.
        * replace (fexp e) with (1 + (e - 1 - prec))%Z by (unfold FLT_exp; lia). rewrite (bpow_plus _ 1). change (bpow 1) with 2. ring.
    - split; [|left; ring]. destruct (ulp_pow y) as (n & Hn & ->). exists n. split; auto. ring.
  Qed.
  Lemma up_pow : forall y, F y -> exists n, (emin <= n)%Z /\ up y - y = bpow n.
  Proof.
    intros y Fy. destruct (Rle_lt_dec 0 y) as [P|P].
    - rewrite succ_eq_pos by auto. destruct (ulp_pow y) as (n & Hn & ->). exists n. split; auto. ring.
    - pose proof (up_opp (- y)) as U. rewrite Ropp_involutive in U. rewrite U. destruct (@gaps_pos (- y) ltac:(lra) (F_opp Fy)) as ((n & Hn & G) & _). exists n. split; auto. lra.
  Qed.
  Lemma up_gt : forall y, F y -> y < up y.
  Proof. intros y Fy. destruct (up_pow Fy) as (n & _ & G). pose proof (bpow_gt_0 radix2 n). lra. Qed.
  Lemma dn_lt : forall y, F y -> dn y < y.
  Proof. intros y Fy. pose proof (up_gt (F_opp Fy)). rewrite up_opp in H. lra. Qed.
  Lemma gaps : forall y, F y -> up y - y = y - dn y \/ E y /\ exists j, (emin + prec <= j)%Z /\
    (y = bpow j /\ y - dn y = bpow (j - prec) /\ up y - y = 2 * bpow (j - prec) \/ - y = bpow j /\ up y - y = bpow (j - prec) /\ y - dn y = 2 * bpow (j - prec)).
  Proof.
    intros y Fy. destruct (total_order_T y 0) as [[P| ->]|P].
    - destruct (@gaps_pos (- y) ltac:(lra) (F_opp Fy)) as (_ & [G|(j & Hj & Ey & Q & G1 & G2)]); rewrite up_opp, dn_opp in *; [left; lra|].
      right. split. { replace y with (- - y) by ring. apply E_opp. auto. } exists j. split; auto. right. repeat split; lra.
    - left. pose proof (up_opp 0). rewrite Ropp_0 in H. lra.
    - destruct (@gaps_pos y ltac:(lra) Fy) as (_ & [G|(j & Hj & Ey & Q & G1 & G2)]); [left; lra|]. right. split; auto. exists j. split; auto.
  Qed.
  (* neighbours: exactly one is even *)
  Lemma mid_out : forall y t, F y -> y < t < up y -> ~ F t.
  Proof. intros y t Fy (A & B) Ft. pose proof (up_le Fy Ft A). lra. Qed.
  Lemma neighbours : forall y f g, F y -> y = F2R f -> up y = F2R g -> canonical radix2 fexp f -> canonical radix2 fexp g -> Z.even (Fnum g) = negb (Z.even (Fnum f)).
  Proof.
    intros y f g Fy A B Cf Cg. pose proof (up_gt Fy) as L. set (t := (y + up y) / 2). assert (T : y < t < up y) by (unfold t; lra).
    apply (@DN_UP_parity_generic radix2 fexp vexp ene t f g); auto.
    - apply (mid_out Fy T).
    - rewrite <- A. symmetry. apply round_DN_eq; [apply vexp|auto|lra].
    - rewrite <- B. symmetry. apply round_UP_eq; [apply vexp|apply F_up; auto|]. rewrite (dn_up Fy). lra.
  Qed.
  Lemma even_or : forall y, F y -> E y \/ E (up y).
  Proof.
    intros y Fy. destruct (canonical_generic_format _ _ _ Fy) as (f & A & Cf). destruct (canonical_generic_format _ _ _ (F_up Fy)) as (g & B & Cg).
    pose proof (neighbours Fy A B Cf Cg) as P. destruct (Z.even (Fnum f)) eqn:Ef; [left; exists f; auto|right; exists g; auto].
  Qed.
  Lemma even_not : forall y, F y -> E y -> E (up y) -> False.
  Proof. intros y Fy (f & A & Cf & Ef) (g & B & Cg & Eg). pose proof (neighbours Fy A B Cf Cg) as P. rewrite Ef, Eg in P. discriminate. Qed.
  (* a number that rounds above y lies at or above the midpoint of y and the next; strictly if y is even *)
  Lemma above : forall y t, F y -> y < RN t -> (y + up y) / 2 <= t /\ (E y -> (y + up y) / 2 < t).
  Proof.
    intros y t Fy H. assert (M : (y + up y) / 2 <= t). { destruct (Rle_lt_dec ((y + up y) / 2) t) as [L|L]; auto. pose proof (@round_N_le_midp radix2 fexp vexp (fun x => negb (Z.even x)) y t Fy L). lra. }
    split; auto. intros Ey. destruct (Req_dec t ((y + up y) / 2)) as [Q|Q]; [|lra]. exfalso. pose proof (up_gt Fy) as L.
    assert (R1 : RN t = up y). { apply Rle_antisym; [|apply up_le; auto; apply RN_F]. rewrite <- (RN_id (F_up Fy)). apply RN_le. lra. }
    destruct (@round_NE_pt radix2 fexp vexp ene t) as ((_ & N) & [P|U]).
    - destruct P as (g & A & Cg & Eg). rewrite R1 in A. apply (even_not Fy Ey). exists g. auto.
    - assert (X : y = RN t); [|lra]. apply U. split; auto. intros g Fg. destruct (Rle_lt_dec g y) as [G|G].
      + rewrite !Rabs_left1 by lra. lra.
      + pose proof (up_le Fy Fg G). rewrite Rabs_left1, Rabs_right by lra. lra.
  Qed.
  Lemma below : forall y t, F y -> RN t < y -> t <= (y + dn y) / 2 /\ (E y -> t < (y + dn y) / 2).
  Proof.
    intros y t Fy H. destruct (@above (- y) (- t) (F_opp Fy)) as (A & B). { rewrite RN_opp. lra. } rewrite up_opp in *. split; [lra|]. intros Ey. specialize (B (E_opp Ey)). lra.
  Qed.

  (** * Addition and subtraction *)
  Lemma add_drift_up : forall x v, F x -> let z := RN (x + v) in let y := RN (z - v) in let z' := RN (y + v) in z < z' -> RN (z' - v) = y.
  Proof.
    intros x v Fx z y z' Hz. apply Rle_antisym; [|apply RN_le; lra]. destruct (Rle_lt_dec (RN (z' - v)) y) as [|Hy]; auto. exfalso.
    assert (Fz : F z) by apply RN_F. assert (Fy : F y) by apply RN_F. assert (Fz' : F z') by apply RN_F.
    set (w := dn z'). assert (Fw : F w) by (apply F_dn; auto). assert (Uw : up w = z') by (apply up_dn; auto). assert (Zw : z <= w) by (apply le_dn; auto).
    set (py := dn y). assert (Fpy : F py) by (apply F_dn; auto). assert (Upy : up py = y) by (apply up_dn; auto).
    destruct (@above y (z' - v) Fy Hy) as (A2 & A2').
    destruct (@above w (y + v) Fw) as (A5 & A5'). { fold z'. unfold w. apply dn_lt. auto. } rewrite Uw in *.
    destruct (@above py (z - v) Fpy) as (A3 & A3'). { fold y. apply dn_lt. auto. } rewrite Upy in *.
    pose proof (up_gt Fy) as Gy. pose proof (dn_lt Fy) as Gpy. fold py in Gpy. pose proof (up_gt Fw) as Gw. rewrite Uw in Gw.
    destruct (gaps Fy) as [G|(Ey & j & Hj & [(Q & G1 & G2)|(Q & G1 & G2)])].
    - fold py in G. destruct (even_or Fpy) as [Ep|Ep]; [specialize (A3' Ep)|rewrite Upy in Ep; specialize (A2' Ep)]; lra.
    - fold py in G1. pose proof (bpow_gt_0 radix2 (j - prec)). lra.
    - fold py in G2. specialize (A2' Ey). set (g := bpow (j - prec)) in *. assert (g0 : 0 < g) by apply bpow_gt_0.
      destruct (up_pow Fw) as (n & Hn & Gn). rewrite Uw in Gn.
      assert (N : z' - w = 2 * g).
      { rewrite Gn. unfold g. assert (n = 1 + (j - prec))%Z as ->; [|rewrite bpow_plus; reflexivity].
        assert (B1 : bpow (j - prec) < bpow n) by (rewrite <- Gn; fold g; lra). apply lt_bpow in B1.
        assert (B2 : bpow n <= bpow (1 + (j - prec))). { rewrite bpow_plus, <- Gn. change (bpow 1) with 2. fold g. lra. } apply le_bpow in B2. lia. }
      assert (Zw' : z = w) by lra. rewrite <- Zw' in *.
      assert (Nz : ~ E z) by (intros X; specialize (A5' X); lra).
      assert (Xy : x <= py). { apply le_dn; auto. destruct (Rlt_le_dec x y) as [|C]; auto. exfalso. assert (RN (y + v) <= RN (x + v)) by (apply RN_le; lra). fold z z' in H. lra. }
      destruct (@above (dn z) (x + v) (F_dn Fz)) as (A4 & A4'). { fold z. apply dn_lt. auto. } rewrite (up_dn Fz) in *.
      destruct (gaps Fz) as [G|(Ez & _)]; [|contradiction]. rewrite Uw in G.
      destruct (even_or (F_dn Fz)) as [Ep|Ep]; [|rewrite (up_dn Fz) in Ep; contradiction]. specialize (A4' Ep). lra.
  Qed.
  Lemma add_drift : forall x v, F x -> let y := RN (RN (x + v) - v) in RN (RN (y + v) - v) = y.
  Proof.
    intros x v Fx y. set (z := RN (x + v)) in *. set (z' := RN (y + v)). destruct (total_order_T z z') as [[L|L]|L].
    - apply (@add_drift_up x v Fx L).
    - rewrite <- L. reflexivity.
    - pose proof (@add_drift_up (- x) (- v) (F_opp Fx)) as D. cbn zeta in D. replace (- x + - v) with (- (x + v)) in D by ring. rewrite RN_opp in D. fold z in D.
      replace (- z - - v) with (- (z - v)) in D by ring. rewrite RN_opp in D. fold y in D. replace (- y + - v) with (- (y + v)) in D by ring. rewrite RN_opp in D. fold z' in D.
      replace (- z' - - v) with (- (z' - v)) in D by ring. rewrite RN_opp in D. specialize (D ltac:(lra)). lra.
  Qed.

  (** * Scaling by a float or by the reciprocal of a float *)
  Lemma scaled_F : forall k j, F k -> bpow (emin + prec - 1) <= Rabs (bpow j * k) -> F (bpow j * k).
  Proof.
    intros k j Fk H. assert (K0 : k <> 0). { intros ->. rewrite Rmult_0_r, Rabs_R0 in H. pose proof (bpow_gt_0 radix2 (emin + prec - 1)). lra. }
    apply generic_format_FLT. apply FLT_format_generic in Fk; [|exact prec0]. destruct Fk as [f A B C].
    assert (D : F (bpow j * k)); [|apply FLT_format_generic in D; [exact D|exact prec0]].
    rewrite Rmult_comm. replace (k * bpow j) with (F2R (Float radix2 (Fnum f) (Fexp f + j))) by (rewrite A; unfold F2R; cbn; rewrite bpow_plus; ring).
    apply generic_format_F2R. intros M. unfold cexp, FLT_exp.
    assert (M1 : (mag radix2 (F2R (Float radix2 (Fnum f) (Fexp f + j))) <= prec + (Fexp f + j))%Z).
    { rewrite mag_F2R by auto. assert (mag radix2 (IZR (Fnum f)) <= prec)%Z; [|lia]. apply mag_le_bpow. { apply IZR_neq. auto. } rewrite <- abs_IZR. rewrite <- IZR_Zpower by lia. apply IZR_lt. exact B. }
    assert (M2 : (emin + prec <= mag radix2 (F2R (Float radix2 (Fnum f) (Fexp f + j))))%Z).
    { apply mag_ge_bpow. replace (F2R (Float radix2 (Fnum f) (Fexp f + j))) with (bpow j * k) by (rewrite A; unfold F2R; cbn; rewrite bpow_plus; ring). exact H. }
    cbn. lia.
  Qed.
  Lemma RN_0 : RN 0 = 0. Proof. apply RN_id. apply generic_format_0. Qed.
  Lemma RN_ge0 : forall t, 0 <= t -> 0 <= RN t. Proof. intros. rewrite <- RN_0. apply RN_le. auto. Qed.
  Lemma dn_ge0 : forall y, F y -> 0 < y -> 0 <= dn y. Proof. intros. apply le_dn; auto. apply generic_format_0. Qed.
  Lemma scale_le : forall a b c, 0 < c -> a <= b / c <-> c * a <= b.
  Proof. intros. split; intros K. - apply (Rmult_le_compat_l c) in K; [|lra]. replace (c * (b / c)) with b in K by (field; lra). auto. - apply (Rmult_le_reg_l c); auto. replace (c * (b / c)) with b by (field; lra). auto. Qed.
  Lemma scale_lt : forall a b c, 0 < c -> a < b / c <-> c * a < b.
  Proof. intros. split; intros K. - apply (Rmult_lt_compat_l c) in K; [|lra]. replace (c * (b / c)) with b in K by (field; lra). auto. - apply (Rmult_lt_reg_l c); auto. replace (c * (b / c)) with b by (field; lra). auto. Qed.
  Lemma scale_ge : forall a b c, 0 < c -> b / c <= a <-> b <= c * a.
  Proof. intros. split; intros K. - apply (Rmult_le_compat_l c) in K; [|lra]. replace (c * (b / c)) with b in K by (field; lra). auto. - apply (Rmult_le_reg_l c); auto. replace (c * (b / c)) with b by (field; lra). auto. Qed.
  Lemma scale_gt : forall a b c, 0 < c -> b / c < a <-> b < c * a.
  Proof. intros. split; intros K. - apply (Rmult_lt_compat_l c) in K; [|lra]. replace (c * (b / c)) with b in K by (field; lra). auto. - apply (Rmult_lt_reg_l c); auto. replace (c * (b / c)) with b by (field; lra). auto. Qed.

  Lemma mul_drift_up : forall x c, F x -> 0 < x -> 0 < c -> let z := RN (c * x) in let y := RN (z / c) in let z' := RN (c * y) in z < z' -> RN (z' / c) = y.
  Proof.
    intros x c Fx Px Pc z y z' Hz. assert (Dv : forall a b, a <= b -> a / c <= b / c) by (intros; apply Rmult_le_compat_r; [apply Rlt_le, Rinv_0_lt_compat; auto|auto]).
    apply Rle_antisym; [|apply RN_le; apply Dv; lra]. destruct (Rle_lt_dec (RN (z' / c)) y) as [|Hy]; auto. exfalso.
    assert (Fz : F z) by apply RN_F. assert (Fy : F y) by apply RN_F. assert (Fz' : F z') by apply RN_F.
    assert (Py : 0 < y). { destruct (Rlt_le_dec x y) as [|Q]; [lra|]. exfalso. assert (z' <= z); [|lra]. apply RN_le. apply Rmult_le_compat_l; lra. }
    set (w := dn z'). assert (Fw : F w) by (apply F_dn; auto). assert (Uw : up w = z') by (apply up_dn; auto). assert (Zw : z <= w) by (apply le_dn; auto).
    set (py := dn y). assert (Fpy : F py) by (apply F_dn; auto). assert (Upy : up py = y) by (apply up_dn; auto).
    destruct (@above y (z' / c) Fy Hy) as (A2 & A2'). rewrite scale_le in A2 by auto. rewrite scale_lt in A2' by auto.
    destruct (@above w (c * y) Fw) as (A5 & A5'). { fold z'. unfold w. apply dn_lt. auto. } rewrite Uw in *.
    destruct (@above py (z / c) Fpy) as (A3 & A3'). { fold y. apply dn_lt. auto. } rewrite Upy in *. rewrite scale_le in A3 by auto. rewrite scale_lt in A3' by auto.
    pose proof (up_gt Fy) as Gy. pose proof (dn_lt Fy) as Gpy. fold py in Gpy.
    assert (C : up y - y = y - py \/ y - py < up y - y).
    { destruct (@gaps_pos y Py Fy) as (_ & [G|(j & _ & _ & _ & G1 & G2)]); fold py in G || fold py in G1; [left; auto|right]. rewrite G1, G2. pose proof (bpow_gt_0 radix2 (j - prec)). lra. }
    destruct C as [C|C].
    - assert (C' : c * (up y - y) = c * (y - py)) by (rewrite C; auto).
      destruct (even_or Fpy) as [Ep|Ep]; [specialize (A3' Ep)|rewrite Upy in Ep; specialize (A2' Ep)]; lra.
    - assert (C' : c * (y - py) < c * (up y - y)) by (apply Rmult_lt_compat_l; auto). lra.
  Qed.

  Lemma mul_drift_down : forall x c k, F x -> 0 < x -> 0 < c -> F k -> c = k \/ c = / k -> let z := RN (c * x) in let y := RN (z / c) in let z' := RN (c * y) in z' < z -> RN (z' / c) = y.
  Proof.
    intros x c k Fx Px Pc Fk Ck z y z' Hz. assert (Dv : forall a b, a <= b -> a / c <= b / c) by (intros; apply Rmult_le_compat_r; [apply Rlt_le, Rinv_0_lt_compat; auto|auto]).
    apply Rle_antisym; [apply RN_le; apply Dv; lra|]. destruct (Rle_lt_dec y (RN (z' / c))) as [|Hy]; auto. exfalso.
    assert (Fz : F z) by apply RN_F. assert (Fy : F y) by apply RN_F. assert (Fz' : F z') by apply RN_F.
    assert (Pz : 0 <= z). { apply RN_ge0. apply Rmult_le_pos; lra. }
    assert (Py : 0 <= y). { apply RN_ge0. apply Rmult_le_pos; auto. apply Rlt_le, Rinv_0_lt_compat. auto. }
    assert (Pz' : 0 <= z'). { apply RN_ge0. apply Rmult_le_pos; lra. }
    assert (Py' : 0 <= RN (z' / c)). { apply RN_ge0. apply Rmult_le_pos; auto. apply Rlt_le, Rinv_0_lt_compat. auto. }
    set (w := up z'). assert (Fw : F w) by (apply F_up; auto). assert (Dw : dn w = z') by (apply dn_up; auto). assert (Zw : w <= z) by (apply up_le; auto).
    set (sy := up y). assert (Fsy : F sy) by (apply F_up; auto). assert (Dsy : dn sy = y) by (apply dn_up; auto).
    destruct (@below y (z' / c) Fy Hy) as (A2 & A2'). rewrite scale_ge in A2 by auto. rewrite scale_gt in A2' by auto.
    destruct (@below w (c * y) Fw) as (A5 & A5'). { fold z'. unfold w. apply up_gt. auto. } rewrite Dw in *.
    destruct (@below sy (z / c) Fsy) as (A3 & A3'). { fold y. apply up_gt. auto. } rewrite Dsy in *. rewrite scale_ge in A3 by auto. rewrite scale_gt in A3' by auto.
    pose proof (dn_lt Fy) as Gdy. pose proof (up_gt Fy) as Gsy. fold sy in Gsy. pose proof (up_gt Fz') as Gw. fold w in Gw.
    destruct (@gaps_pos y ltac:(lra) Fy) as (_ & [C|(j & Hj & Ey & Q & G1 & G2)]).
    - fold sy in C. assert (C' : c * (sy - y) = c * (y - dn y)) by (rewrite C; auto).
      destruct (even_or Fy) as [Ep|Ep]; [specialize (A2' Ep)|fold sy in Ep; specialize (A3' Ep)]; lra.
    - fold sy in G2. specialize (A2' Ey). set (g := bpow (j - prec)) in *. assert (g0 : 0 < g) by apply bpow_gt_0.
      set (cg := c * g) in *. assert (E1 : c * (y - dn y) = cg) by (rewrite G1; auto). assert (E2 : c * (sy - y) = 2 * cg) by (rewrite G2; unfold cg; ring).
      remember (w - z') as h eqn:Hh. assert (H1 : cg < h) by lra. assert (H2 : 2 * (z - w) + h <= 2 * cg) by lra.
      (* w = z *)
      assert (Zeq : z = w).
      { destruct (Req_dec z w) as [|N]; auto. exfalso. assert (Lt : w < z) by lra. pose proof (up_le Fw Fz Lt) as U.
        destruct (@gaps_pos w ltac:(lra) Fw) as (_ & [G|(j' & _ & _ & _ & G3 & G4)]); rewrite Dw in *; [lra|]. pose proof (bpow_gt_0 radix2 (j' - prec)). lra. }
      rewrite <- Zeq in *.
      assert (Xy : sy <= x). { apply up_le; auto. destruct (Rlt_le_dec y x) as [|C]; auto. exfalso. assert (z <= z'); [|lra]. apply RN_le. apply Rmult_le_compat_l; lra. }
      destruct (@below (up z) (c * x) (F_up Fz)) as (A4 & A4'). { fold z. apply up_gt. auto. } rewrite (dn_up Fz) in *.
      assert (Xc : c * sy <= c * x) by (apply Rmult_le_compat_l; lra).
      destruct (@gaps_pos z ltac:(lra) Fz) as (_ & [G|(i & Hi & Ez & Qz & G3 & G4)]); rewrite Dw in *; rewrite <- Hh in *.
      + destruct (even_or Fz) as [Ep|Ep]; [specialize (A5' Ep)|specialize (A4' Ep)]; lra.
      + specialize (A5' Ez). destruct Ck as [Ck|Ck].
        * (* c is a float: c y is a float *)
          assert (Fc : F (c * y)).
          { rewrite Q, Ck, Rmult_comm. apply scaled_F; auto. rewrite <- Ck. rewrite Rabs_right by (apply Rle_ge, Rmult_le_pos; [apply bpow_ge_0|lra]).
            assert (Y : y = bpow prec * g) by (rewrite Q; unfold g; rewrite <- bpow_plus; f_equal; lia).
            rewrite <- Q, Y. replace (bpow prec * g * c) with (bpow prec * cg) by (unfold cg; ring).
            assert (He : bpow emin <= h). { rewrite G3. apply bpow_le. lia. }
            replace (emin + prec - 1)%Z with (prec + (emin - 1))%Z by lia. rewrite bpow_plus. apply Rmult_le_compat_l; [apply bpow_ge_0|].
            replace (bpow (emin - 1)) with (bpow emin / 2); [lra|]. unfold Zminus. rewrite bpow_plus. change (bpow (-(1))) with (/ 2). field. }
          assert (Z' : z' = c * y) by (unfold z'; apply RN_id; auto). rewrite Z' in Hy. replace (c * y / c) with y in Hy by (field; lra). rewrite RN_id in Hy by auto. lra.
        * (* 1 / c is a float: z / c is a float *)
          assert (k0 : k <> 0). { intros ->. rewrite Rinv_0 in Ck. lra. } assert (Kc : z / c = z * k) by (rewrite Ck; field; auto).
          assert (Zy : y < z / c) by (rewrite scale_lt by auto; lra).
          assert (Fq : F (z / c)).
          { rewrite Kc, Qz. apply scaled_F; auto. rewrite <- Qz, <- Kc. rewrite Rabs_right by lra. apply Rle_trans with y; [|lra]. rewrite Q. apply bpow_le. lia. }
          pose proof (up_le Fy Fq Zy) as U. fold sy in U. rewrite scale_le in U by auto. lra.
  Qed.
  Lemma mul_drift_pos : forall x c k, F x -> 0 < x -> 0 < c -> F k -> c = k \/ c = / k -> let y := RN (RN (c * x) / c) in RN (RN (c * y) / c) = y.
  Proof.
    intros x c k Fx Px Pc Fk Ck y. set (z := RN (c * x)) in *. set (z' := RN (c * y)). destruct (total_order_T z z') as [[L|L]|L].
    - apply (@mul_drift_up x c Fx Px Pc L).
    - rewrite <- L. reflexivity.
    - apply (@mul_drift_down x c k Fx Px Pc Fk Ck L).
  Qed.
  Lemma mul_drift : forall x c k, F x -> c <> 0 -> F k -> c = k \/ c = / k -> let y := RN (RN (c * x) / c) in RN (RN (c * y) / c) = y.
  Proof.
    assert (P : forall x c k, F x -> 0 < c -> F k -> c = k \/ c = / k -> let y := RN (RN (c * x) / c) in RN (RN (c * y) / c) = y).
    { intros x c k Fx Pc Fk Ck. destruct (total_order_T x 0) as [[L|L]|L].
      - intros y. pose proof (@mul_drift_pos (- x) c k (F_opp Fx) ltac:(lra) Pc Fk Ck) as D. cbn zeta in D.
        assert (Dn : forall a, - a / c = - (a / c)) by (intros; field; lra). assert (Mn : forall a, c * - a = - (c * a)) by (intros; ring).
        repeat (rewrite ?Mn, ?RN_opp, ?Dn in D). fold y in D. lra.
      - subst x. intros y. assert (Y : y = 0). { unfold y. rewrite Rmult_0_r, RN_0. unfold Rdiv. rewrite Rmult_0_l. apply RN_0. } rewrite Y. rewrite Rmult_0_r, RN_0. unfold Rdiv. rewrite Rmult_0_l. apply RN_0.
      - apply (@mul_drift_pos x c k Fx L Pc Fk Ck). }
    intros x c k Fx Nc Fk Ck. destruct (Rlt_le_dec 0 c) as [L|L]. { apply (P x c k Fx L Fk Ck). }
    intros y. assert (Ck' : - c = - k \/ - c = / - k). { destruct Ck as [->| ->]; [left; auto|right]. assert (k <> 0) by (intros ->; rewrite Rinv_0 in Nc; lra). field. auto. }
    pose proof (P x (- c) (- k) Fx ltac:(lra) (F_opp Fk) Ck') as D. cbn zeta in D.
    assert (Dn : forall a, - a / - c = a / c) by (intros; field; lra). assert (Mn : forall a, - c * a = - (c * a)) by (intros; ring).
    repeat (rewrite ?Mn, ?RN_opp, ?Dn in D). fold y in D. exact D.
  Qed.
End Gaps.
