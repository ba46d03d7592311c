(** C121: the look-at constructors: which of all rotations they choose. *)
From Coq Require Import Reals Lra Psatz Field Lia.
From Verif Require Import SpecTransform SpecFacts MFacts AlgFacts CxFacts RealInst RealFacts PropReal PropAlgebra PropComplex PropSquare
  PropTransform PropToLinear PropRot PropLookAt.
Set Implicit Arguments.
Local Open Scope R_scope.
Local Open Scope list_scope.

Local Notation fl := r_float.
Local Notation t3 := (rot3_transform r_ops).
Local Notation lin := (linear_transform r_ops 3).

Lemma list3 : forall a b c a' b' c' : R, [a; b; c] = [a'; b'; c'] -> a = a' /\ b = b' /\ c = c'.
Proof. intros. inversion H; auto. Qed.

(** Rotation matrices in terms of their columns. *)
Lemma rm_columns : forall m, rotation_matrix m -> exists x p a y q b z w c, m = [[x; p; a]; [y; q; b]; [z; w; c]].
Proof.
  intros m ((L & F) & _). destruct m as [|r1 [|r2 [|r3 [|]]]]; try discriminate. inversion F as [|? ? L1 F1]; subst. inversion F1 as [|? ? L2 F2]; subst. inversion F2 as [|? ? L3 F3]; subst. clear F F1 F2 F3 L.
  destruct r1 as [|x [|p [|a [|]]]]; try discriminate. destruct r2 as [|y [|q [|b [|]]]]; try discriminate. destruct r3 as [|z [|w [|c [|]]]]; try discriminate. repeat eexists.
Qed.
Lemma rm_eqs : forall x p a y q b z w c, rotation_matrix [[x; p; a]; [y; q; b]; [z; w; c]] <->
  (x * x + y * y + z * z = 1 /\ p * p + q * q + w * w = 1 /\ a * a + b * b + c * c = 1 /\ x * p + y * q + z * w = 0 /\ x * a + y * b + z * c = 0 /\ p * a + q * b + w * c = 0) /\
  x * (q * c - b * w) - p * (y * c - b * z) + a * (y * w - q * z) = 1.
Proof.
  intros. unfold rotation_matrix. rewrite (m_det_33 r_ring). change (m_transpose 3 3 [[x; p; a]; [y; q; b]; [z; w; c]]) with (Ok [[x; y; z]; [p; q; w]; [a; b; c]]). cbn [bind]. rewrite (m_dot_33 r_ring). rc.
  change (m_one r_ops 3) with (Ok [[1; 0; 0]; [0; 1; 0]; [0; 0; 1]]). split.
  - intros (_ & E & D). apply Ok_inj in E, D. split; [|exact D]. inversion E. repeat split; assumption.
  - intros ((H1 & H2 & H3 & H4 & H5 & H6) & D). split; [|split].
    + split; [reflexivity|]. repeat constructor.
    + f_equal. listeq; lra.
    + f_equal. exact D.
Qed.
(* the first column is the cross product of the other two *)
Lemma rm_first : forall x p a y q b z w c, rotation_matrix [[x; p; a]; [y; q; b]; [z; w; c]] -> x = q * c - w * b /\ y = w * a - p * c /\ z = p * b - q * a.
Proof.
  intros x p a y q b z w c H. apply rm_eqs in H as ((H1 & H2 & H3 & H4 & H5 & H6) & D).
  assert (N : (q * c - w * b) * (q * c - w * b) + (w * a - p * c) * (w * a - p * c) + (p * b - q * a) * (p * b - q * a) = 1).
  { transitivity ((p * p + q * q + w * w) * (a * a + b * b + c * c) - (p * a + q * b + w * c) * (p * a + q * b + w * c)); [ring|]. rewrite H2, H3, H6. ring. }
  assert (E : (x - (q * c - w * b)) * (x - (q * c - w * b)) + (y - (w * a - p * c)) * (y - (w * a - p * c)) + (z - (p * b - q * a)) * (z - (p * b - q * a)) = 0).
  { transitivity ((x * x + y * y + z * z) + ((q * c - w * b) * (q * c - w * b) + (w * a - p * c) * (w * a - p * c) + (p * b - q * a) * (p * b - q * a)) - 2 * (x * (q * c - b * w) - p * (y * c - b * z) + a * (y * w - q * z))); [ring|]. rewrite H1, N, D. ring. }
  set (e := x - (q * c - w * b)) in *. set (f := y - (w * a - p * c)) in *. set (g := z - (p * b - q * a)) in *.
  assert (e = 0 /\ f = 0 /\ g = 0) as (Z1 & Z2 & Z3) by (clearbody e f g; repeat split; nra). unfold e, f, g in *. repeat split; lra.
Qed.

(** [look_at(dir, up)] is the only rotation that maps -z to dir and y into the half plane of dir and up. *)
Theorem C121_unique : forall eps dir up m k t u p, unit3 dir -> dim 3 up -> rotation_matrix m -> t_apply lin m [0; 0; -1] = Ok dir ->
  t_apply lin m [0; 1; 0] = Ok u -> 0 < k -> v_smul r_ops dir t = Ok p -> v_smul r_ops u k = v_sub r_ops 3 up p -> look_at r_ops (fl eps) dir up = Ok m.
Proof.
  intros eps dir up m k t u p U Hu Rm E1 E2 Hk E3 E4. destruct (rm_columns Rm) as (x & u1 & a & y & u2 & b & z & u3 & c & ->).
  rewrite apply33 in E1, E2. apply Ok_inj in E1, E2. subst dir u. destruct (unit3_v U) as (a' & b' & c' & Ed & Hd). rewrite Ed in *. apply list3 in Ed as (Ea & Eb & Ec).
  comps. rewrite (v_smul_3 r_ring) in E3, E4. apply Ok_inj in E3. subst p. 
  assert (SB : forall p q r s t u, v_sub r_ops 3 [p; q; r] [s; t; u] = Ok [p - s; q - t; r - u]) by reflexivity. rewrite SB in E4. apply Ok_inj in E4. apply list3 in E4 as (F1 & F2 & F3). revert F1 F2 F3. rc. intros F1 F2 F3.
  pose proof (rm_first Rm) as (X & Y & Z). apply rm_eqs in Rm as ((H1 & H2 & H3 & H4 & H5 & H6) & D).
  assert (a' = - a /\ b' = - b /\ c' = - c) as (-> & -> & ->) by lra.
  assert (V1 : x0 = k * u1 + t * - a) by lra. assert (V2 : x1 = k * u2 + t * - b) by lra. assert (V3 : x2 = k * u3 + t * - c) by lra.
  assert (K1 : - b * x2 - - c * x1 = k * x) by (rewrite V2, V3, X; ring). assert (K2 : - c * x0 - - a * x2 = k * y) by (rewrite V1, V3, Y; ring). assert (K3 : - a * x1 - - b * x0 = k * z) by (rewrite V1, V2, Z; ring).
  assert (NN : (- b * x2 - - c * x1) * (- b * x2 - - c * x1) + (- c * x0 - - a * x2) * (- c * x0 - - a * x2) + (- a * x1 - - b * x0) * (- a * x1 - - b * x0) = k * k).
  { rewrite K1, K2, K3. transitivity (k * k * (x * x + y * y + z * z)); [ring|]. rewrite H1. ring. }
  destruct (@look_at_core eps (- a) (- b) (- c) x0 x1 x2 Hd) as (x' & y' & z' & G1 & G2 & G3 & L & _ & _ & E).
  { rewrite NN. nra. }
  rewrite E. rewrite NN, sqrt_square in * by lra. rewrite K1 in G1. rewrite K2 in G2. rewrite K3 in G3.
  assert (x' = x) by nra. assert (y' = y) by nra. assert (z' = z) by nra. subst x' y' z'. f_equal.
  assert (P1 : u1 = y * - c - z * - b) by (rewrite Y, Z; transitivity (u1 * (a * a + b * b + c * c) - a * (u1 * a + u2 * b + u3 * c)); [rewrite H3, H6; ring|ring]).
  assert (P2 : u2 = z * - a - x * - c) by (rewrite X, Z; transitivity (u2 * (a * a + b * b + c * c) - b * (u1 * a + u2 * b + u3 * c)); [rewrite H3, H6; ring|ring]).
  assert (P3 : u3 = x * - b - y * - a) by (rewrite X, Y; transitivity (u3 * (a * a + b * b + c * c) - c * (u1 * a + u2 * b + u3 * c)); [rewrite H3, H6; ring|ring]).
  rewrite P1, P2, P3. clear. repeat f_equal; ring.
Qed.
(** Every rotation is a [look_at]: that of its images of -z and y; so those that map -z to dir are the [look_at(dir, up)]. *)
Theorem C121_every : forall eps m, rotation_matrix m -> exists dir up, t_apply lin m [0; 0; -1] = Ok dir /\ t_apply lin m [0; 1; 0] = Ok up /\
  unit3 dir /\ dim 3 up /\ v_cross3 r_ops dir up <> Ok [0; 0; 0] /\ look_at r_ops (fl eps) dir up = Ok m.
Proof.
  intros eps m Rm. destruct (rm_columns Rm) as (x & u1 & a & y & u2 & b & z & u3 & c & ->). rewrite !apply33. do 2 eexists. split; [reflexivity|]. split; [reflexivity|].
  pose proof (rm_first Rm) as (X & Y & Z). pose proof Rm as Rm'. apply rm_eqs in Rm' as ((H1 & H2 & H3 & H4 & H5 & H6) & D).
  assert (U : unit3 [x * 0 + u1 * 0 + a * -1; y * 0 + u2 * 0 + b * -1; z * 0 + u3 * 0 + c * -1]) by (apply unit3_i; rewrite <- H3; ring).
  split; auto. split; [reflexivity|]. split.
  - rewrite (v_cross3_v r_ring). rc. intros E. apply Ok_inj in E. apply list3 in E as (Z1 & Z2 & Z3).
    assert (x = 0) by (rewrite X; rewrite <- Z1; ring). assert (y = 0) by (rewrite Y; rewrite <- Z2; ring). assert (z = 0) by (rewrite Z; rewrite <- Z3; ring). subst. nra.
  - eapply C121_unique with (k := 1) (t := 0); [exact U|reflexivity|exact Rm|apply apply33|apply apply33|lra|apply (v_smul_3 r_ring)|].
    rewrite (v_smul_3 r_ring). assert (SB : forall p q r s t u, v_sub r_ops 3 [p; q; r] [s; t; u] = Ok [p - s; q - t; r - u]) by reflexivity. rewrite SB. rc. f_equal. listeq; ring.
Qed.
(** Only the half plane matters: adding multiples of dir to up and positive factors change nothing; *)
Theorem C121_half_plane : forall eps dir up k t, unit3 dir -> dim 3 up -> v_cross3 r_ops dir up <> Ok [0; 0; 0] -> 0 < k ->
  (let! x := v_smul r_ops up k in let! y := v_smul r_ops dir t in let! v := v_add r_ops 3 x y in look_at r_ops (fl eps) dir v) =! look_at r_ops (fl eps) dir up.
Proof.
  intros eps dir up k t U Hu NP Hk. destruct (C62_look_at eps U Hu NP) as (m & E & Rm & A & (u & k' & d & p & B1 & B2 & B3 & B4 & B5) & _). exists m. split; auto.
  destruct (unit3_v U) as (a & b & c & -> & H). comps. rewrite !(v_smul_3 r_ring). cbn [bind]. rewrite (v_add_3 r_ring). cbn [bind].
  destruct u as [|u1 [|u2 [|u3 [|]]]]. 1-3: exfalso; destruct (rm_columns Rm) as (? & ? & ? & ? & ? & ? & ? & ? & ? & ->); rewrite apply33 in B1; discriminate. 2: exfalso; destruct (rm_columns Rm) as (? & ? & ? & ? & ? & ? & ? & ? & ? & ->); rewrite apply33 in B1; discriminate.
  rewrite (v_smul_3 r_ring) in B4, B5. apply Ok_inj in B4. subst p.
  assert (SB : forall p q r s t u, v_sub r_ops 3 [p; q; r] [s; t; u] = Ok [p - s; q - t; r - u]) by reflexivity. rewrite SB in B5. apply Ok_inj in B5. apply list3 in B5 as (F1 & F2 & F3). revert F1 F2 F3. rc. intros F1 F2 F3.
  eapply C121_unique with (k := k * k') (t := t + k * d); [exact U|reflexivity|exact Rm|exact A|exact B1|nra|apply (v_smul_3 r_ring)|]. rewrite (v_smul_3 r_ring), SB. rc. f_equal. listeq; nra.
Qed.
(** Turning dir and up turns the result. *)
Theorem C121_equivariant : forall eps g dir up, rotation_matrix g -> unit3 dir -> dim 3 up -> v_cross3 r_ops dir up <> Ok [0; 0; 0] ->
  (let! d := t_apply lin g dir in let! u := t_apply lin g up in look_at r_ops (fl eps) d u) =! (let! m := look_at r_ops (fl eps) dir up in t_chain lin g m).
Proof.
  intros eps g dir up Rg U Hu NP. destruct (C62_look_at eps U Hu NP) as (m & E & Rm & A & (u & k & d & p & B1 & B2 & B3 & B4 & B5) & _). rewrite E. cbn [bind].
  destruct (unit3_v U) as (a & b & c & -> & H). comps. rename x into v1, x0 into v2, x1 into v3.
  destruct (rm_columns Rm) as (x & p1 & q1 & y & p2 & q2 & z & p3 & q3 & ->). destruct (rm_columns Rg) as (g1 & h1 & k1 & g2 & h2 & k2 & g3 & h3 & k3 & ->).
  rewrite !apply33. cbn [bind t_chain linear_transform]. rewrite (m_dot_33 r_ring). rc. rewrite apply33 in A, B1. apply Ok_inj in A, B1. subst u. apply list3 in A as (A1 & A2 & A3).
  rewrite (v_smul_3 r_ring) in B4, B5. apply Ok_inj in B4. subst p.
  assert (SB : forall p q r s t u, v_sub r_ops 3 [p; q; r] [s; t; u] = Ok [p - s; q - t; r - u]) by reflexivity. rewrite SB in B5. apply Ok_inj in B5. apply list3 in B5 as (F1 & F2 & F3). revert F1 F2 F3. rc. intros F1 F2 F3.
  assert (Dg : forall x y z x' y' z', (g1 * x + h1 * y + k1 * z) * (g1 * x' + h1 * y' + k1 * z') + (g2 * x + h2 * y + k2 * z) * (g2 * x' + h2 * y' + k2 * z') + (g3 * x + h3 * y + k3 * z) * (g3 * x' + h3 * y' + k3 * z') = x * x' + y * y' + z * z').
  { apply rm_eqs in Rg as ((H1 & H2 & H3 & H4 & H5 & H6) & _). intros x0 y0 z0 x' y' z'.
    transitivity ((g1 * g1 + g2 * g2 + g3 * g3) * (x0 * x') + (h1 * h1 + h2 * h2 + h3 * h3) * (y0 * y') + (k1 * k1 + k2 * k2 + k3 * k3) * (z0 * z') + (g1 * h1 + g2 * h2 + g3 * h3) * (x0 * y' + y0 * x') + (g1 * k1 + g2 * k2 + g3 * k3) * (x0 * z' + z0 * x') + (h1 * k1 + h2 * k2 + h3 * k3) * (y0 * z' + z0 * y')); [ring|].
    rewrite H1, H2, H3, H4, H5, H6. ring. }
  eexists. split; [|reflexivity]. eapply C121_unique with (k := k) (t := d).
  - apply unit3_i. rewrite Dg. exact H.
  - reflexivity.
  - apply rm_eqs. apply rm_eqs in Rm as ((M1 & M2 & M3 & M4 & M5 & M6) & MD). apply rm_eqs in Rg as (_ & GD). repeat split; try (rewrite Dg; assumption).
    transitivity ((g1 * (h2 * k3 - k2 * h3) - h1 * (g2 * k3 - k2 * g3) + k1 * (g2 * h3 - h2 * g3)) * (x * (p2 * q3 - q2 * p3) - p1 * (y * q3 - q2 * z) + q1 * (y * p3 - p2 * z))); [ring|]. rewrite GD, MD. ring.
  - rewrite apply33. f_equal. rewrite <- A1, <- A2, <- A3. listeq; ring.
  - apply apply33.
  - auto.
  - apply (v_smul_3 r_ring).
  - rewrite (v_smul_3 r_ring), SB. rc. f_equal.
    assert (W1 : v1 = p1 * k + a * d) by lra. assert (W2 : v2 = p2 * k + b * d) by lra. assert (W3 : v3 = p3 * k + c * d) by lra. rewrite W1, W2, W3. listeq; ring.
Qed.

(* ------------------------------------------------------------------------- *)
(** * [Rotation3::look_at_any]                                                *)

(* the quaternions that turn -z to (a, b, c) *)
Lemma z_image : forall w i j k a b c, w * w + i * i + j * j + k * k = 1 -> t_apply t3 (Qt w i j k) [0; 0; -1] = Ok [a; b; c] ->
  a = - 2 * (i * k + w * j) /\ b = - 2 * (j * k - w * i) /\ c = 2 * (i * i + j * j) - 1.
Proof.
  intros w i j k a b c U E. rewrite (rot3_apply_v r_ring) in E. apply Ok_inj in E. apply list3 in E as (E1 & E2 & E3). revert E1 E2 E3. rc. intros. subst. repeat split; nra.
Qed.
Lemma cont_value : forall eps rec a b c, a * a + b * b + c * c = 1 -> c <= 0 ->
  let s := sqrt ((1 - c) / 2) in 0 < s /\ s * s = (1 - c) / 2 /\
  rot3_look_at_any_cont r_ops (fl eps) rec [a; b; c] = Ok (Qt s (b * (1 / (2 * s))) (- a * (1 / (2 * s))) 0).
Proof.
  intros eps rec a b c H N s. pose proof (sqrt_lt_R0 ((1 - c) / 2) ltac:(lra)) as P. pose proof (sqrt_sqrt ((1 - c) / 2) ltac:(lra)) as SS. fold s in P, SS. split; auto. split; auto.
  unfold rot3_look_at_any_cont.
  change (o_neg r_ops (o_one r_ops)) with (Ok (- (1))). cbn [bind]. change (v_from_tuple3 (o_zero r_ops, o_zero r_ops, - (1))) with [0; 0; -(1)].
  rewrite (v_dot_3 r_ring), (v_cross3_v r_ring). cbn [bind]. rc. replace (0 * a + 0 * b + - (1) * c) with (- c) by ring.
  destruct (o_lt r_ops (- c) (o_zero r_ops)) eqn:E. { apply r_ltb_true in E. change (o_zero r_ops) with 0 in E. lra. } clear E.
  change (o_add r_ops (o_one r_ops) (- c)) with (Ok (1 - c)). unfold lift2. cbn [bind f_two f_sqrt r_float].
  change (o_div r_ops (1 - c) 2) with (if Req_EM_T 2 0 then Panic else Ok ((1 - c) / 2)). destruct (Req_EM_T 2 0); [lra|]. cbn [bind]. fold s. clearbody s.
  change (o_mul r_ops 2 s) with (Ok (2 * s)). cbn [bind].
  change (o_div r_ops (o_one r_ops) (2 * s)) with (if Req_EM_T (2 * s) 0 then Panic else Ok (1 / (2 * s))). destruct (Req_EM_T (2 * s) 0); [lra|]. cbn [bind].
  rewrite (v_smul_3 r_ring). cbn [bind]. rc. set (h := 1 / (2 * s)). match goal with |- _ = Ok (Qt _ ?x ?y ?z) => change (Ok (Qt s ((0 * c - - (1) * b) * h) ((- (1) * a - 0 * c) * h) ((0 * b - 0 * a) * h)) = Ok (Qt s x y z)) end.
  f_equal. f_equal; ring.
Qed.
Lemma any_value : forall eps d a b c, a * a + b * b + c * c = 1 -> exists s h, 0 < s /\ s * s = (1 + Rabs c) / 2 /\ 2 * s * h = 1 /\
  rot3_look_at_any r_ops (fl eps) (S d) [a; b; c] = Ok (if Rlt_dec c 0 then Qt s (b * h) (- a * h) 0 else Qt (b * h) s 0 (- a * h)).
Proof.
  intros eps d a b c H. cbn [rot3_look_at_any]. change (v_z [a; b; c]) with (Ok c). cbn [bind]. destruct (o_lt r_ops c (o_zero r_ops)) eqn:E.
  - apply r_ltb_true in E. change (o_zero r_ops) with 0 in E. destruct (Rlt_dec c 0); [|lra]. rewrite Rabs_left by lra.
    destruct (@cont_value eps (rot3_look_at_any r_ops (fl eps) d) a b c H ltac:(lra)) as (P & Q & V). set (s := sqrt _) in *. clearbody s.
    exists s, (1 / (2 * s)). split; auto. split; [lra|]. split; [field; lra|exact V].
  - apply r_ltb_false in E. change (o_zero r_ops) with 0 in E. destruct (Rlt_dec c 0); [lra|]. rewrite Rabs_right by lra.
    destruct (@cont_value eps (rot3_look_at_any r_ops (fl eps) d) (- a) (- b) (- c) ltac:(lra) ltac:(lra)) as (P & Q & V). set (s := sqrt _) in *. clearbody s.
    exists s, (1 / (2 * s)). split; auto. split; [lra|]. split; [field; lra|].
    rewrite (v_neg_3 r_ring). cbn [bind]. rc. rewrite V. cbn [bind].
    unfold rot3_flip. cbn [f_pi r_float]. change (v_from_tuple3 (o_one r_ops, o_zero r_ops, o_zero r_ops)) with [1; 0; 0].
    rewrite rot3_new_v, cos_PI2, sin_PI2. cbn [bind]. rewrite (q_mul_v r_ring). rc. set (h := 1 / (2 * s)). clearbody h. cbn [qw qx qy qz]. f_equal. f_equal; ring.
Qed.

(** The rotations that map -z to dir are [look_at_any(dir)] after a turn about z, by any angle. *)
Theorem C121_all_answers : forall eps depth dir r', unit3 dir -> unit_q r_ops r' -> (t_apply t3 r' [0; 0; -1] = Ok dir <->
  exists angle, (let! r := rot3_look_at_any r_ops (fl eps) (S depth) dir in let! z := rot3_new r_ops (fl eps) [0; 0; 1] angle in t_chain t3 r z) = Ok r').
Proof.
  intros eps depth dir [w' i' j' k'] U U'. destruct (C64_look_at_any eps U) as (r & Er & Ur & Ar). rewrite Er. cbn [bind]. destruct r as [w i j k].
  destruct (unit3_v U) as (a & b & c & -> & H). rewrite unit_q_r in U', Ur. split.
  - intros A. destruct (z_image Ur Ar) as (A1 & A2 & A3). destruct (z_image U' A) as (B1 & B2 & B3).
    set (p := w * w' + i * i' + j * j' + k * k'). set (q := w * k' - i * j' + j * i' - k * w').
    set (e := w * i' - i * w' - j * k' + k * j'). set (f := w * j' + i * k' - j * w' - k * i').
    assert (N : p * p + e * e + f * f + q * q = 1).
    { transitivity ((w * w + i * i + j * j + k * k) * (w' * w' + i' * i' + j' * j' + k' * k')); [unfold p, q, e, f; ring|]. rewrite Ur, U'. ring. }
    assert (Z : e * e + f * f = 0).
    { assert (G : (w' * w' + k' * k' - i' * i' - j' * j') * (w * w + k * k - i * i - j * j) + 4 * (i * k + w * j) * (i' * k' + w' * j') + 4 * (j * k - w * i) * (j' * k' - w' * i') = p * p + q * q - e * e - f * f) by (unfold p, q, e, f; ring).
      assert (M : c * c + a * a + b * b = p * p + q * q - e * e - f * f).
      { rewrite <- G. replace (w' * w' + k' * k' - i' * i' - j' * j') with (- c) by lra. replace (w * w + k * k - i * i - j * j) with (- c) by lra.
        replace (4 * (i * k + w * j) * (i' * k' + w' * j')) with ((- 2 * (i * k + w * j)) * (- 2 * (i' * k' + w' * j'))) by ring. rewrite <- A1, <- B1.
        replace (4 * (j * k - w * i) * (j' * k' - w' * i')) with ((- 2 * (j * k - w * i)) * (- 2 * (j' * k' - w' * i'))) by ring. rewrite <- A2, <- B2. ring. }
      lra. }
    assert (e = 0 /\ f = 0) as (E0 & F0) by (clearbody e f; split; nra).
    destruct (atan2_spec p q) as (X & Y). replace (p * p + q * q) with 1 in * by lra. rewrite sqrt_1, !Rmult_1_l in *.
    exists (2 * atan2 q p). rewrite rot3_new_v. cbn [bind t_chain rot3_transform]. replace (2 * atan2 q p / 2) with (atan2 q p) by field. rewrite X, Y, (q_mul_v r_ring). rc.
    assert (T : forall u, u = (w * w + i * i + j * j + k * k) * u) by (intros; rewrite Ur; ring).
    cbn [qw qx qy qz]. f_equal. f_equal.
    + rewrite (T w'). transitivity (w * p - i * e - j * f - k * q); [rewrite E0, F0; ring|unfold p, q, e, f; ring].
    + rewrite (T i'). transitivity (w * e + i * p + j * q - k * f); [rewrite E0, F0; ring|unfold p, q, e, f; ring].
    + rewrite (T j'). transitivity (w * f - i * q + j * p + k * e); [rewrite E0, F0; ring|unfold p, q, e, f; ring].
    + rewrite (T k'). transitivity (w * q + i * f - j * e + k * p); [rewrite E0, F0; ring|unfold p, q, e, f; ring].
  - intros (t & E). rewrite rot3_new_v in E. cbn [bind t_chain rot3_transform] in E. rewrite (q_mul_v r_ring) in E. apply Ok_inj in E.
    pose proof (sc1 (t / 2)) as SC. set (cc := cos (t / 2)) in *. set (ss := sin (t / 2)) in *.
    assert (E1 : w * cc - k * ss = w') by (change w' with (qw (Qt w' i' j' k')); rewrite <- E; rc; cbn [qw qx qy qz]; ring).
    assert (E2 : i * cc + j * ss = i') by (change i' with (qx (Qt w' i' j' k')); rewrite <- E; rc; cbn [qw qx qy qz]; ring).
    assert (E3 : j * cc - i * ss = j') by (change j' with (qy (Qt w' i' j' k')); rewrite <- E; rc; cbn [qw qx qy qz]; ring).
    assert (E4 : k * cc + w * ss = k') by (change k' with (qz (Qt w' i' j' k')); rewrite <- E; rc; cbn [qw qx qy qz]; ring).
    rewrite <- Ar. rewrite !(rot3_apply_v r_ring). rc. rewrite <- E1, <- E2, <- E3, <- E4. f_equal.
    assert (T : forall u, u = (cc * cc + ss * ss) * u) by (intros; rewrite SC; ring).
    listeq.
    + transitivity ((cc * cc + ss * ss) * (- 2 * (i * k + w * j))); [ring|]. rewrite SC. ring.
    + transitivity ((cc * cc + ss * ss) * (- 2 * (j * k - w * i))); [ring|]. rewrite SC. ring.
    + transitivity ((cc * cc + ss * ss) * - (w * w + k * k - i * i - j * j)); [ring|]. rewrite SC. ring.
Qed.

Lemma angle_cos : forall eps w i j k t, w * w + i * i + j * j + k * k = 1 -> rot3_angle r_ops (fl eps) (Qt w i j k) = Ok t -> cos t = 2 * (w * w) - 1.
Proof.
  intros eps w i j k t U E. destruct (rot3_parts_v eps w i j k) as (_ & E'). rewrite E in E'. apply Ok_inj in E'. subst t.
  pose proof (sqrt_sqrt (i * i + j * j + k * k) ltac:(nra)) as SS. set (l := sqrt _) in *.
  destruct (atan2_spec w l) as (A & _). replace (w * w + l * l) with 1 in A by lra. rewrite sqrt_1, Rmult_1_l in A. rewrite cos_2a_cos, A. ring.
Qed.
(** Among them it is a rotation by the smallest angle exactly if dir points to -z or has no x component. *)
Theorem C121_shortest : forall eps depth dir r t a c, unit3 dir -> v_x dir = Ok a -> v_z dir = Ok c ->
  rot3_look_at_any r_ops (fl eps) (S depth) dir = Ok r -> rot3_angle r_ops (fl eps) r = Ok t ->
  ((c < 0 \/ a = 0) <-> forall r' t', unit_q r_ops r' -> t_apply t3 r' [0; 0; -1] = Ok dir -> rot3_angle r_ops (fl eps) r' = Ok t' -> cos t' <= cos t).
Proof.
  intros eps depth dir r t a c U Ea Ec Er Et. destruct (C64_look_at_any eps U) as (r0 & Er' & Ur & _). specialize (Er' depth). rewrite Er in Er'. apply Ok_inj in Er'. subst r0.
  destruct (unit3_v U) as (a0 & b & c0 & -> & H). change (Ok a0 = Ok a) in Ea. change (Ok c0 = Ok c) in Ec. apply Ok_inj in Ea, Ec. subst a0 c0.
  destruct (@any_value eps depth a b c H) as (s & h & P & SS & SH & V). rewrite V in Er. apply Ok_inj in Er. subst r. clear V.
  assert (HH : 2 * (1 + Rabs c) * (h * h) = 1) by (transitivity ((2 * s * h) * (2 * s * h)); [replace ((1 + Rabs c)) with (2 * (s * s)) by lra; ring|rewrite SH; ring]).
  assert (Hother : forall r' t', unit_q r_ops r' -> t_apply t3 r' [0; 0; -1] = Ok [a; b; c] -> rot3_angle r_ops (fl eps) r' = Ok t' -> cos t' <= - c).
  { intros [w i j k] t' U' A' E'. rewrite unit_q_r in U'. rewrite (angle_cos U' E'). destruct (z_image U' A') as (_ & _ & Z). nra. }
  destruct (Rlt_dec c 0) as [N|N].
  - rewrite unit_q_r in Ur. pose proof (angle_cos Ur Et) as Ct. rewrite SS, Rabs_left in Ct by lra. split; [|auto]. intros _ r' t' U' A' E'. pose proof (Hother _ _ U' A' E'). lra.
  - rewrite unit_q_r in Ur. pose proof (angle_cos Ur Et) as Ct. rewrite Rabs_right in * by lra.
    assert (W : (1 + c) * (cos t + 1) = b * b) by (rewrite Ct; transitivity (2 * (1 + c) * (h * h) * (b * b)); [ring|rewrite HH; ring]).
    split.
    + intros [?|Z]; [contradiction|]. subst a. intros r' t' U' A' E'. pose proof (Hother _ _ U' A' E'). assert (cos t = - c); [|lra].
      assert (Q : (1 + c) * (cos t + c) = 0) by (replace ((1 + c) * (cos t + c)) with ((1 + c) * (cos t + 1) - (1 + c) * (1 - c)) by ring; rewrite W; lra).
      destruct (Rmult_integral _ _ Q); lra.
    + intros X. right. destruct (Req_dec c 1) as [->|C1]; [nra|]. assert (c < 1) by nra.
      pose proof (sqrt_lt_R0 ((1 - c) / 2) ltac:(lra)) as P'. pose proof (sqrt_sqrt ((1 - c) / 2) ltac:(lra)) as SS'. set (s' := sqrt ((1 - c) / 2)) in *. clearbody s'.
      set (g := 1 / (2 * s')). assert (SG : 2 * s' * g = 1) by (unfold g; field; lra). clearbody g.
      assert (GG : 2 * (1 - c) * (g * g) = 1) by (transitivity ((2 * s' * g) * (2 * s' * g)); [replace (1 - c) with (2 * (s' * s')) by lra; ring|rewrite SG; ring]).
      assert (AB : a * a + b * b = (1 - c) * (1 + c)) by lra.
      assert (AG : (a * a + b * b) * (g * g) = (1 + c) / 2) by (rewrite AB; transitivity ((2 * (1 - c) * (g * g)) * (1 + c) / 2); [field|rewrite GG; field]).
      assert (U' : s' * s' + b * g * (b * g) + - a * g * (- a * g) + 0 * 0 = 1) by (transitivity (s' * s' + (a * a + b * b) * (g * g)); [ring|]; rewrite AG; lra).
      destruct (rot3_parts_v eps s' (b * g) (- a * g) 0) as (_ & Ang). pose proof (angle_cos U' Ang) as Ct'.
      assert (Le : - c <= cos t).
      { replace (- c) with (2 * (s' * s') - 1) by lra. rewrite <- Ct'. eapply X; [apply unit_q_r; exact U'| |exact Ang].
        rewrite (rot3_apply_v r_ring). rc. f_equal. listeq.
        - transitivity (a * (2 * s' * g)); [ring|rewrite SG; ring].
        - transitivity (b * (2 * s' * g)); [ring|rewrite SG; ring].
        - transitivity ((a * a + b * b) * (g * g) - s' * s'); [ring|]. rewrite AG, SS'. lra. }
      assert ((1 + c) * (1 - c) <= b * b) by (rewrite <- W; apply Rmult_le_compat_l; lra). nra.
Qed.

(** It is not continuous (doc: "no discontinuities except" one): the images of y jump from y to -y as dir reaches x from below. *)
Theorem C121_jump : forall eps depth,
  (forall t, 0 < t < PI / 2 -> unit3 [cos t; 0; - sin t] /\ exists r, rot3_look_at_any r_ops (fl eps) (S depth) [cos t; 0; - sin t] = Ok r /\ t_apply t3 r [0; 1; 0] = Ok [0; 1; 0]) /\
  exists r, rot3_look_at_any r_ops (fl eps) (S depth) [1; 0; 0] = Ok r /\ t_apply t3 r [0; 1; 0] = Ok [0; -1; 0].
Proof.
  intros eps depth. split.
  - intros t Ht. pose proof (sc1 t) as SC. assert (SP : 0 < sin t) by (apply sin_gt_0; lra). assert (HU : cos t * cos t + 0 * 0 + - sin t * - sin t = 1) by lra. split; [apply unit3_i; exact HU|].
    destruct (@any_value eps depth (cos t) 0 (- sin t) HU) as (s & h & P & SS & SH & V). rewrite V. destruct (Rlt_dec (- sin t) 0); [|lra]. eexists. split; [reflexivity|].
    pose proof (C64_look_at_any eps (@unit3_i _ _ _ HU)) as (r0 & Er & Ur & _). specialize (Er depth). rewrite V in Er. destruct (Rlt_dec (- sin t) 0); [|lra]. apply Ok_inj in Er. subst r0. rewrite unit_q_r in Ur.
    rewrite (rot3_apply_v r_ring). rc. f_equal. listeq; [ring|nra|ring].
  - assert (H : 1 * 1 + 0 * 0 + 0 * 0 = 1) by ring. destruct (@any_value eps depth 1 0 0 H) as (s & h & P & SS & SH & V). rewrite V.
    pose proof (C64_look_at_any eps (@unit3_i _ _ _ H)) as (r0 & Er & Ur & _). specialize (Er depth). rewrite V in Er. destruct (Rlt_dec 0 0); [lra|]. apply Ok_inj in Er. subst r0. rewrite unit_q_r in Ur. eexists. split; [reflexivity|].
    rewrite (rot3_apply_v r_ring). rc. f_equal. listeq; [ring|nra|ring].
Qed.
(** The matrix version jumps where it changes the up vector: just below |dir.z| = 1/2 the image of y is orthogonal to y, from there on it is y. *)
Theorem C121_matrix_jump : forall eps a c, a * a + c * c = 1 ->
  exists m u, look_at_any r_ops (fl eps) [a; 0; c] = Ok m /\ t_apply lin m [0; 1; 0] = Ok u /\ v_y u = Ok (if Rlt_dec (Rabs c) (/ 2) then 0 else 1).
Proof.
  intros eps a c H. unfold look_at_any. change (v_z [a; 0; c]) with (Ok c). cbn [bind f_abs f_half r_float].
  destruct (o_lt r_ops (Rabs c) (/ 2)) eqn:E.
  - apply r_ltb_true in E. destruct (Rlt_dec (Rabs c) (/ 2)); [|lra]. apply Rabs_def2 in E.
    change (exists m u, look_at r_ops (fl eps) [a; 0; c] [0; 0; 1] = Ok m /\ t_apply lin m [0; 1; 0] = Ok u /\ v_y u = Ok 0).
    destruct (@look_at_core eps a 0 c 0 0 1 ltac:(lra)) as (x & y & z & G1 & G2 & G3 & L & N & O & EE). { nra. }
    rewrite EE. do 2 eexists. split; [reflexivity|]. rewrite apply33. split; [reflexivity|]. cbn [v_y index nth_error]. set (l := sqrt _) in *. clearbody l.
    assert (x = 0) by nra. assert (z = 0) by nra. subst. change (v_y ?v) with (index v 1). cbn. f_equal. ring.
  - apply r_ltb_false in E. destruct (Rlt_dec (Rabs c) (/ 2)); [lra|].
    change (exists m u, look_at r_ops (fl eps) [a; 0; c] [0; 1; 0] = Ok m /\ t_apply lin m [0; 1; 0] = Ok u /\ v_y u = Ok 1). destruct (@C62_orthogonal_up eps [a; 0; c] [0; 1; 0]) as (m & A & _ & _ & B & _).
    + apply unit3_i. lra.
    + apply unit3_i. ring.
    + rewrite (v_dot_3 r_ring). rc. f_equal. ring.
    + rewrite A. exists m, [0; 1; 0]. auto.
Qed.

(** Non-vacuity: the identity is the look_at of -z and any up vector above it, *)
Example C121_witness : forall eps, look_at r_ops (fl eps) [0; 0; -1] [0; 3; 7] = Ok [[1; 0; 0]; [0; 1; 0]; [0; 0; 1]].
Proof.
  intros eps. eapply C121_unique with (k := 3) (t := -7) (u := [0; 1; 0]).
  - apply unit3_i. ring.
  - reflexivity.
  - apply rm_eqs. repeat split; ring.
  - rewrite apply33. f_equal. listeq; ring.
  - rewrite apply33. f_equal. listeq; ring.
  - lra.
  - apply (v_smul_3 r_ring).
  - rewrite !(v_smul_3 r_ring). assert (SB : forall p q r s t u, v_sub r_ops 3 [p; q; r] [s; t; u] = Ok [p - s; q - t; r - u]) by reflexivity. rewrite SB. rc. f_equal. listeq; ring.
Qed.
(** and on the direction (3/5, 0, 4/5) [look_at_any] turns more than needed. *)
Example C121_not_shortest : forall eps depth, exists r t r' t', rot3_look_at_any r_ops (fl eps) (S depth) [3 / 5; 0; 4 / 5] = Ok r /\ rot3_angle r_ops (fl eps) r = Ok t /\
  unit_q r_ops r' /\ t_apply t3 r' [0; 0; -1] = Ok [3 / 5; 0; 4 / 5] /\ rot3_angle r_ops (fl eps) r' = Ok t' /\ cos t < cos t'.
Proof.
  intros eps depth. assert (U : unit3 [3 / 5; 0; 4 / 5]) by (apply unit3_i; field). destruct (C64_look_at_any eps U) as (r & Er & Ur & _). specialize (Er depth).
  destruct r as [w i j k]. destruct (rot3_parts_v eps w i j k) as (_ & Et). do 2 eexists.
  destruct (@any_value eps depth (3 / 5) 0 (4 / 5)) as (s & h & P & SS & SH & V); [field|]. rewrite Er in V. destruct (Rlt_dec (4 / 5) 0); [lra|]. apply Ok_inj in V.
  rewrite unit_q_r in Ur. pose proof (angle_cos Ur Et) as Ct.
  assert (W : w = 0 * h) by (change w with (qw (Qt w i j k)); rewrite V; reflexivity).
  pose proof (sqrt_sqrt (1 / 10) ltac:(lra)) as SQ. set (g := sqrt (1 / 10)) in *. clearbody g.
  assert (U' : g * g + 0 * 0 + (-3 * g) * (-3 * g) + 0 * 0 = 1) by lra.
  destruct (rot3_parts_v eps g 0 (-3 * g) 0) as (_ & Et'). exists (Qt g 0 (-3 * g) 0). eexists. split; [exact Er|]. split; [exact Et|]. split; [apply unit_q_r; exact U'|].
  split; [|split; [exact Et'|]].
  - rewrite (rot3_apply_v r_ring). rc. f_equal. listeq; lra.
  - rewrite Ct, (angle_cos U' Et'). subst w. lra.
Qed.

Print Assumptions C121_unique.
Print Assumptions C121_every.
Print Assumptions C121_half_plane.
Print Assumptions C121_equivariant.
Print Assumptions C121_all_answers.
Print Assumptions C121_shortest.
Print Assumptions C121_jump.
Print Assumptions C121_matrix_jump.
