(** Properties C62 - C64: the look-at constructors, over the real numbers. *)
From Coq Require Import Reals Lra Psatz Field Lia.
From Verif Require Import SpecTransform SpecFacts MFacts AlgFacts CxFacts RealInst RealFacts PropReal PropAlgebra PropComplex PropSquare
  PropTransform PropToLinear PropRot.
Set Implicit Arguments.
Local Open Scope R_scope.
Local Open Scope list_scope.

Local Notation fl := r_float.
Local Notation t3 := (rot3_transform r_ops).
Local Notation lin := (linear_transform r_ops 3).

(** A 3x3 rotation matrix: orthogonal, with determinant 1. *)
Definition rotation_matrix (m : list (list R)) : Prop :=
  rect 3 3 m /\ (let! t := m_transpose 3 3 m in m_dot r_ops 3 3 3 t m) = m_one r_ops 3 /\ m_det r_ops 3 m = Ok 1.

Ltac rc := cbn [r_add r_sub r_mul r_opp r_ring c_ring CRing_of_theory].

(* the matrix with the columns [r], [s], [-d], for an orthonormal triple *)
Lemma columns : forall x y z p q w a b c : R,
  m_transpose 3 3 (m_from_array_of_vectors [[x; y; z]; [p; q; w]; [a; b; c]]) = Ok [[x; p; a]; [y; q; b]; [z; w; c]].
Proof. reflexivity. Qed.
Lemma apply33 : forall x p a y q b z w c u v t,
  t_apply lin [[x; p; a]; [y; q; b]; [z; w; c]] [u; v; t] =
  Ok [x * u + p * v + a * t; y * u + q * v + b * t; z * u + w * v + c * t].
Proof. intros. cbn [t_apply linear_transform]. rewrite (m_dot_v_33 r_ring). reflexivity. Qed.

Lemma look_at_core : forall eps a b c ux uy uz, a * a + b * b + c * c = 1 ->
  let kx := b * uz - c * uy in let ky := c * ux - a * uz in let kz := a * uy - b * ux in
  let l := sqrt (kx * kx + ky * ky + kz * kz) in 0 < kx * kx + ky * ky + kz * kz ->
  exists x y z, x * l = kx /\ y * l = ky /\ z * l = kz /\ 0 < l /\ x * x + y * y + z * z = 1 /\ x * a + y * b + z * c = 0 /\
  look_at r_ops (fl eps) [a; b; c] [ux; uy; uz] =
  Ok [[x; y * c - z * b; - a]; [y; z * a - x * c; - b]; [z; x * b - y * a; - c]].
Proof.
  intros eps a b c ux uy uz U kx ky kz l P.
  assert (L : 0 < l) by (apply sqrt_lt_R0; exact P). assert (SS : l * l = kx * kx + ky * ky + kz * kz) by (apply sqrt_sqrt; lra).
  exists (kx / l), (ky / l), (kz / l). assert (N : l <> 0) by lra. repeat split; try (field; assumption); auto.
  - transitivity ((kx * kx + ky * ky + kz * kz) / (l * l)). { field. assumption. } rewrite SS. field. lra.
  - transitivity ((kx * a + ky * b + kz * c) / l). { field. assumption. }
    replace (kx * a + ky * b + kz * c) with 0 by (unfold kx, ky, kz; ring). field. assumption.
  - unfold look_at. rewrite (v_cross3_v r_ring). cbn [bind]. rc. cbn [f_sqrt r_float].
    fold kx ky kz. rewrite (@normalize3 kx ky kz l eq_refl N). cbn [bind]. rewrite (v_cross3_v r_ring). cbn [bind]. rc.
    rewrite (v_neg_3 r_ring). cbn [bind]. rc. apply columns.
Qed.

Lemma rotation_core : forall x y z a b c, a * a + b * b + c * c = 1 -> x * x + y * y + z * z = 1 -> x * a + y * b + z * c = 0 ->
  rotation_matrix [[x; y * c - z * b; - a]; [y; z * a - x * c; - b]; [z; x * b - y * a; - c]].
Proof.
  intros x y z a b c U V O. split; [|split].
  - split; [reflexivity|]. repeat constructor.
  - change (m_transpose 3 3 [[x; y * c - z * b; - a]; [y; z * a - x * c; - b]; [z; x * b - y * a; - c]])
      with (Ok [[x; y; z]; [y * c - z * b; z * a - x * c; x * b - y * a]; [- a; - b; - c]]). cbn [bind].
    rewrite (m_dot_33 r_ring). rc. change (m_one r_ops 3) with (Ok [[1; 0; 0]; [0; 1; 0]; [0; 0; 1]]). f_equal.
    assert (W : (y * c - z * b) * (y * c - z * b) + (z * a - x * c) * (z * a - x * c) + (x * b - y * a) * (x * b - y * a) = 1).
    { transitivity ((x * x + y * y + z * z) * (a * a + b * b + c * c) - (x * a + y * b + z * c) * (x * a + y * b + z * c)). { ring. }
      rewrite U, V, O. ring. }
    listeq; lra.
  - rewrite (m_det_33 r_ring). rc. f_equal.
    transitivity ((x * x + y * y + z * z) * (a * a + b * b + c * c) - (x * a + y * b + z * c) * (x * a + y * b + z * c)). { ring. }
    rewrite U, V, O. ring.
Qed.

(* ------------------------------------------------------------------------- *)
(** * C62                                                                      *)

Lemma unit3_dim : forall n, unit3 n -> dim 3 n. Proof. intros n H. apply H. Qed.

(** [dir] and [up] are parallel exactly when their cross product vanishes. *)
Theorem C62_look_at : forall eps dir up, unit3 dir -> dim 3 up -> v_cross3 r_ops dir up <> Ok [0; 0; 0] ->
  exists m, look_at r_ops (fl eps) dir up = Ok m /\ rotation_matrix m /\
    t_apply lin m [0; 0; -1] = Ok dir /\
    (exists u k d p, t_apply lin m [0; 1; 0] = Ok u /\ 0 < k /\ v_dot r_ops 3 up dir = Ok d /\ v_smul r_ops dir d = Ok p /\
       v_smul r_ops u k = v_sub r_ops 3 up p) /\
    (exists r k, t_apply lin m [1; 0; 0] = Ok r /\ 0 < k /\ v_smul r_ops r k = v_cross3 r_ops dir up).
Proof.
  intros eps dir up U Hu NP. destruct (unit3_v U) as (a & b & c & -> & H). comps. rewrite (v_cross3_v r_ring) in NP. rc.
  assert (P : 0 < (b * x1 - c * x0) * (b * x1 - c * x0) + (c * x - a * x1) * (c * x - a * x1) + (a * x0 - b * x) * (a * x0 - b * x)).
  { cbn [r_add r_sub r_mul r_ring c_ring CRing_of_theory] in NP.
    set (e := b * x1 - c * x0) in *. set (f := c * x - a * x1) in *. set (g := a * x0 - b * x) in *.
    destruct (Req_dec e 0) as [E|]; [|nra]. destruct (Req_dec f 0) as [G|]; [|nra]. destruct (Req_dec g 0) as [K|]; [|nra].
    rewrite E, G, K in NP. contradiction. }
  destruct (@look_at_core eps a b c x x0 x1 H P) as (p & q & r & E1 & E2 & E3 & L & V & O & E). rewrite E.
  set (l := sqrt _) in *. eexists. split; [reflexivity|]. split. { apply rotation_core; assumption. }
  rewrite !apply33. split; [|split].
  - f_equal. listeq; ring.
  - exists [q * c - r * b; r * a - p * c; p * b - q * a], l. eexists; eexists. split. { f_equal. listeq; ring. } split; auto.
    split. { rewrite (v_dot_3 r_ring). reflexivity. } split. { rewrite (v_smul_3 r_ring). reflexivity. }
    rewrite (v_smul_3 r_ring). rc.
    assert (SB : forall p q r s t u, v_sub r_ops 3 [p; q; r] [s; t; u] = Ok [p - s; q - t; r - u]) by reflexivity. rewrite SB. f_equal.
    assert (X : forall u, u = (a * a + b * b + c * c) * u) by (intros; rewrite H; ring).
    listeq.
    + rewrite (X x) at 1. transitivity ((q * l) * c - (r * l) * b). { ring. } rewrite E2, E3. ring.
    + rewrite (X x0) at 1. transitivity ((r * l) * a - (p * l) * c). { ring. } rewrite E1, E3. ring.
    + rewrite (X x1) at 1. transitivity ((p * l) * b - (q * l) * a). { ring. } rewrite E1, E2. ring.
  - exists [p; q; r], l. split. { f_equal. listeq; ring. } split; auto. rewrite (v_smul_3 r_ring), (v_cross3_v r_ring). rc. f_equal. listeq; assumption.
Qed.
(** If [up] is itself a unit vector orthogonal to [dir], [y] goes to [up]. *)
Theorem C62_orthogonal_up : forall eps dir up, unit3 dir -> unit3 up -> v_dot r_ops 3 up dir = Ok 0 ->
  exists m, look_at r_ops (fl eps) dir up = Ok m /\ rotation_matrix m /\ t_apply lin m [0; 0; -1] = Ok dir /\ t_apply lin m [0; 1; 0] = Ok up /\
    t_apply lin m [1; 0; 0] = v_cross3 r_ops dir up.
Proof.
  intros eps dir up U W D. destruct (unit3_v U) as (a & b & c & -> & H). destruct (unit3_v W) as (x & y & z & -> & G).
  rewrite (v_dot_3 r_ring) in D. apply Ok_inj in D. cbn [r_add r_sub r_mul r_ring c_ring CRing_of_theory] in D.
  assert (S1 : (b * z - c * y) * (b * z - c * y) + (c * x - a * z) * (c * x - a * z) + (a * y - b * x) * (a * y - b * x) = 1).
  { transitivity ((x * x + y * y + z * z) * (a * a + b * b + c * c) - (x * a + y * b + z * c) * (x * a + y * b + z * c)). { ring. }
    rewrite H, G, D. ring. }
  destruct (@look_at_core eps a b c x y z H ltac:(lra)) as (p & q & r & E1 & E2 & E3 & L & V & O & E). rewrite E.
  eexists. split; [reflexivity|]. split. { apply rotation_core; assumption. } rewrite !apply33, (v_cross3_v r_ring). rc.
  rewrite S1, sqrt_1 in *. rewrite Rmult_1_r in *. subst p q r. assert (X : forall u, u = (a * a + b * b + c * c) * u) by (intros; rewrite H; ring).
  repeat split; f_equal; listeq; try ring.
  - transitivity ((a * a + b * b + c * c) * x - (x * a + y * b + z * c) * a). { ring. } rewrite H, D. ring.
  - transitivity ((a * a + b * b + c * c) * y - (x * a + y * b + z * c) * b). { ring. } rewrite H, D. ring.
  - transitivity ((a * a + b * b + c * c) * z - (x * a + y * b + z * c) * c). { ring. } rewrite H, D. ring.
Qed.
(** Non-vacuity: a slanted direction and an up vector that is neither unit nor orthogonal to it. *)
Example C62_witness : unit3 [3 / 5; 0; 4 / 5] /\ dim 3 [1; 2; 0] /\ v_cross3 r_ops [3 / 5; 0; 4 / 5] [1; 2; 0] <> Ok [0; 0; 0].
Proof.
  split; [|split; [reflexivity|]]. { apply unit3_i. field. }
  rewrite (v_cross3_v r_ring). rc. intros E. apply Ok_inj in E. injection E. intros. lra.
Qed.
(** Over the reals the parallel case divides by the zero length of the cross product. *)
Theorem C62_parallel : forall eps dir up, dim 3 dir -> dim 3 up -> v_cross3 r_ops dir up = Ok [0; 0; 0] ->
  look_at r_ops (fl eps) dir up = Panic.
Proof.
  intros eps dir up H1 H2 E. unfold look_at. rewrite E. cbn [bind f_sqrt r_float]. unfold v_normalize. rewrite length3.
  replace (0 * 0 + 0 * 0 + 0 * 0) with 0 by ring. rewrite sqrt_0. cbn [bind].
  unfold v_sdiv, v_map. cbn. destruct (Req_EM_T 0 0); [reflexivity|congruence].
Qed.

(* ------------------------------------------------------------------------- *)
(** * C63                                                                      *)

Theorem C63_look_at_any : forall eps dir, unit3 dir ->
  exists m, look_at_any r_ops (fl eps) dir = Ok m /\ rotation_matrix m /\ t_apply lin m [0; 0; -1] = Ok dir.
Proof.
  intros eps dir U. pose proof U as U'. destruct (unit3_v U) as (a & b & c & -> & H). unfold look_at_any.
  change (v_z [a; b; c]) with (Ok c). cbn [bind f_abs f_half r_float].
  assert (K : forall up, dim 3 up -> v_cross3 r_ops [a; b; c] up <> Ok [0; 0; 0] ->
    exists m, look_at r_ops (fl eps) [a; b; c] up = Ok m /\ rotation_matrix m /\ t_apply lin m [0; 0; -1] = Ok [a; b; c]).
  { intros up Hu NP. destruct (@C62_look_at eps _ _ U' Hu NP) as (m & A & B & C & _). eauto. }
  destruct (o_lt r_ops (Rabs c) (/ 2)) eqn:E.
  - apply K; [reflexivity|]. change (v_cross3 r_ops [a; b; c] [0; 0; 1] <> Ok [0; 0; 0]). rewrite (v_cross3_v r_ring). rc. intros Z. apply Ok_inj in Z. injection Z. intros.
    apply r_ltb_true in E. pose proof (Rabs_def2 _ _ E). nra.
  - apply K; [reflexivity|]. change (v_cross3 r_ops [a; b; c] [0; 1; 0] <> Ok [0; 0; 0]). rewrite (v_cross3_v r_ring). rc. intros Z. apply Ok_inj in Z. injection Z. intros.
    apply r_ltb_false in E. assert (c = 0) by lra. subst c. rewrite Rabs_R0 in E. lra.
Qed.
(** The documentation (linear.rs:144: "Returns any of transformations that rotate `dir` to `-z`-axis") describes the
    inverse: the matrix for [dir = x] does not send [x] to [-z]. *)
Theorem C63_doc_refuted : forall eps, ~ (forall dir, unit3 dir ->
  exists m, look_at_any r_ops (fl eps) dir = Ok m /\ t_apply lin m dir = Ok [0; 0; -1]).
Proof.
  intros eps X. assert (U : unit3 [1; 0; 0]) by (apply unit3_i; ring).
  destruct (X _ U) as (m & E & A).
  unfold look_at_any in E. change (v_z [1; 0; 0]) with (Ok 0) in E. cbn [bind f_abs f_half r_float] in E. rewrite Rabs_R0 in E.
  destruct (o_lt r_ops 0 (/ 2)) eqn:B; [|apply r_ltb_false in B; lra].
  change (look_at r_ops (fl eps) [1; 0; 0] [0; 0; 1] = Ok m) in E.
  assert (W : unit3 [0; 0; 1]) by (apply unit3_i; ring).
  destruct (@C62_orthogonal_up eps [1; 0; 0] [0; 0; 1] U W) as (m' & E' & _ & _ & _ & C).
  { rewrite (v_dot_3 r_ring). rc. f_equal. ring. }
  rewrite E in E'. apply Ok_inj in E'. subst m'. rewrite A, (v_cross3_v r_ring) in C. apply Ok_inj in C. revert C. rc. intros C. injection C. intros. lra.
Qed.

(* ------------------------------------------------------------------------- *)
(** * C64                                                                      *)

(* [look_at_any_cont] on a direction with a non-positive third component, without the recursive call *)
Lemma cont_core : forall eps rec a b c, a * a + b * b + c * c = 1 -> c <= 0 -> exists r,
  rot3_look_at_any_cont r_ops (fl eps) rec [a; b; c] = Ok r /\ unit_q r_ops r /\ forall t, t_apply t3 r [0; 0; t] = Ok [- t * a; - t * b; - t * c].
Proof.
  intros eps rec a b c H N. unfold rot3_look_at_any_cont.
  change (o_neg r_ops (o_one r_ops)) with (Ok (- (1))). cbn [bind]. change (v_from_tuple3 (o_zero r_ops, o_zero r_ops, - (1))) with [0; 0; -(1)].
  rewrite (v_dot_3 r_ring), (v_cross3_v r_ring). cbn [bind]. rc. replace (0 * a + 0 * b + - (1) * c) with (- c) by ring.
  destruct (o_lt r_ops (- c) (o_zero r_ops)) eqn:E. { apply r_ltb_true in E. change (o_zero r_ops) with 0 in E. lra. } clear E.
  change (o_add r_ops (o_one r_ops) (- c)) with (Ok (1 + - c)). unfold lift2. cbn [bind f_two f_sqrt r_float].
  change (o_div r_ops (1 + - c) 2) with (if Req_EM_T 2 0 then Panic else Ok ((1 + - c) / 2)). destruct (Req_EM_T 2 0); [lra|]. cbn [bind].
  pose proof (sqrt_lt_R0 ((1 + - c) / 2) ltac:(lra)) as P. pose proof (sqrt_sqrt ((1 + - c) / 2) ltac:(lra)) as SS.
  set (s := sqrt ((1 + - c) / 2)) in *. clearbody s. change (o_mul r_ops 2 s) with (Ok (2 * s)). cbn [bind].
  change (o_div r_ops (o_one r_ops) (2 * s)) with (if Req_EM_T (2 * s) 0 then Panic else Ok (1 / (2 * s))). destruct (Req_EM_T (2 * s) 0); [lra|]. cbn [bind].
  rewrite (v_smul_3 r_ring). cbn [bind]. rc.
  set (h := 1 / (2 * s)). assert (Hh : 2 * s * h = 1) by (unfold h; field; lra). clearbody h.
  assert (C : c = 1 - 2 * (s * s)) by lra.
  assert (AB : a * a + b * b = 4 * (s * s) * (1 - s * s)) by (subst c; lra).
  eexists. split; [reflexivity|].
  assert (HH : 4 * (s * s) * (h * h) = 1). { transitivity ((2 * s * h) * (2 * s * h)). { ring. } rewrite Hh. ring. }
  assert (Q : (a * a + b * b) * (h * h) = 1 - s * s). { rewrite AB. transitivity ((4 * (s * s) * (h * h)) * (1 - s * s)). { ring. } rewrite HH. ring. }
  split.
  - apply unit_q_r. transitivity (s * s + (a * a + b * b) * (h * h)). { ring. } rewrite Q. ring.
  - intros t. rewrite (rot3_apply_v r_ring). rc. f_equal.
    listeq.
    + transitivity (- t * a * (2 * s * h)). { ring. } rewrite Hh. ring.
    + transitivity (- t * b * (2 * s * h)). { ring. } rewrite Hh. ring.
    + transitivity (t * (s * s - (a * a + b * b) * (h * h))). { ring. } rewrite Q, C. ring.
Qed.
Lemma flip_core : forall eps r, unit_q r_ops r -> exists q, rot3_flip r_ops (fl eps) r = Ok q /\ unit_q r_ops q /\
  forall t, t_apply t3 q [0; 0; t] = t_apply t3 r [0; 0; - t].
Proof.
  intros eps [w i j k] U. unfold rot3_flip. cbn [f_pi r_float]. change (v_from_tuple3 (o_one r_ops, o_zero r_ops, o_zero r_ops)) with [1; 0; 0].
  rewrite rot3_new_v, cos_PI2, sin_PI2. cbn [bind]. rewrite (q_mul_v r_ring). rc. eexists. split; [reflexivity|].
  rewrite unit_q_r in *. cbn [qw qx qy qz]. split. { transitivity (w * w + i * i + j * j + k * k); [ring|exact U]. }
  intros t. rewrite !(rot3_apply_v r_ring). rc. f_equal. listeq; ring.
Qed.

(** [depth] bounds how deep the mutual recursion may go: one level is enough, whatever the direction. *)
Theorem C64_look_at_any : forall eps dir, unit3 dir -> exists r, (forall depth, rot3_look_at_any r_ops (fl eps) (S depth) dir = Ok r) /\
  unit_q r_ops r /\ t_apply t3 r [0; 0; -1] = Ok dir.
Proof.
  intros eps dir U. destruct (unit3_v U) as (a & b & c & -> & H).
  destruct (o_lt r_ops c (o_zero r_ops)) eqn:E.
  - apply r_ltb_true in E. change (o_zero r_ops) with 0 in E.
    assert (K : forall rec rec', rot3_look_at_any_cont r_ops (fl eps) rec [a; b; c] = rot3_look_at_any_cont r_ops (fl eps) rec' [a; b; c]).
    { intros. unfold rot3_look_at_any_cont. change (o_neg r_ops (o_one r_ops)) with (Ok (- (1))). cbn [bind]. change (v_from_tuple3 (o_zero r_ops, o_zero r_ops, - (1))) with [0; 0; -(1)].
      rewrite (v_dot_3 r_ring). cbn [bind]. rc. replace (0 * a + 0 * b + - (1) * c) with (- c) by ring.
      destruct (o_lt r_ops (- c) (o_zero r_ops)) eqn:E'; [|reflexivity]. apply r_ltb_true in E'. change (o_zero r_ops) with 0 in E'. lra. }
    destruct (@cont_core eps (fun _ => Panic) a b c H ltac:(lra)) as (r & Er & Ur & A). exists r. split; [|split; auto].
    + intros d. cbn [rot3_look_at_any]. change (v_z [a; b; c]) with (Ok c). cbn [bind].
      destruct (o_lt r_ops c (o_zero r_ops)) eqn:E'; [|apply r_ltb_false in E'; change (o_zero r_ops) with 0 in E'; lra].
      rewrite (K _ (fun _ => Panic)). exact Er.
    + rewrite A. f_equal. listeq; ring.
  - apply r_ltb_false in E. change (o_zero r_ops) with 0 in E.
    assert (H' : - a * - a + - b * - b + - c * - c = 1) by lra.
    assert (K : forall rec rec', rot3_look_at_any_cont r_ops (fl eps) rec [- a; - b; - c] = rot3_look_at_any_cont r_ops (fl eps) rec' [- a; - b; - c]).
    { intros. unfold rot3_look_at_any_cont. change (o_neg r_ops (o_one r_ops)) with (Ok (- (1))). cbn [bind]. change (v_from_tuple3 (o_zero r_ops, o_zero r_ops, - (1))) with [0; 0; -(1)].
      rewrite (v_dot_3 r_ring). cbn [bind]. rc. replace (0 * - a + 0 * - b + - (1) * - c) with c by ring.
      destruct (o_lt r_ops c (o_zero r_ops)) eqn:E'; [|reflexivity]. apply r_ltb_true in E'. change (o_zero r_ops) with 0 in E'. lra. }
    destruct (@cont_core eps (fun _ => Panic) (- a) (- b) (- c) H' ltac:(lra)) as (r & Er & Ur & A).
    destruct (@flip_core eps r Ur) as (q & Eq & Uq & B). exists q. split; [|split; auto].
    + intros d. cbn [rot3_look_at_any]. change (v_z [a; b; c]) with (Ok c). cbn [bind].
      destruct (o_lt r_ops c (o_zero r_ops)) eqn:E'; [apply r_ltb_true in E'; change (o_zero r_ops) with 0 in E'; lra|].
      rewrite (v_neg_3 r_ring). cbn [bind]. rc. rewrite (K _ (fun _ => Panic)), Er. exact Eq.
    + rewrite B, A. f_equal. listeq; ring.
Qed.

Print Assumptions C62_look_at.
Print Assumptions C62_orthogonal_up.
Print Assumptions C62_parallel.
Print Assumptions C63_look_at_any.
Print Assumptions C63_doc_refuted.
Print Assumptions C64_look_at_any.
