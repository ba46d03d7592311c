(** Properties C61: rotations by angle and axis, over the real numbers. *)
From Coq Require Import Reals Lra Psatz Field Lia.
From Verif Require Import SpecTransform SpecFacts MFacts AlgFacts CxFacts RealInst RealFacts PropReal PropAlgebra PropSquare PropTransform
  PropToLinear.
Set Implicit Arguments.
Local Open Scope R_scope.
Local Open Scope list_scope.

Local Notation fl := r_float.
Local Notation t2 := (rot2_transform r_ops).
Local Notation t3 := (rot3_transform r_ops).

(* ------------------------------------------------------------------------- *)
(** * C61, two dimensions                                                      *)

Lemma sc1 : forall a, cos a * cos a + sin a * sin a = 1.
Proof. intros. pose proof (sin2_cos2 a). unfold Rsqr in H. lra. Qed.
Lemma unit_c_r : forall c s, unit_c r_ops (Cx c s) <-> c * c + s * s = 1.
Proof. intros. rewrite (unit_c_v r_ring). reflexivity. Qed.
Lemma unit_q_r : forall w i j k, unit_q r_ops (Qt w i j k) <-> w * w + i * i + j * j + k * k = 1.
Proof. intros. rewrite (unit_q_v r_ring). reflexivity. Qed.

Theorem C61_new2 : forall eps a, exists r, rot2_new (fl eps) a = Ok r /\ unit_c r_ops r /\
  forall x y, t_apply t2 r [x; y] = Ok [x * cos a - y * sin a; x * sin a + y * cos a].
Proof.
  intros. exists (Cx (cos a) (sin a)). split; [reflexivity|]. split. { apply unit_c_r. apply sc1. }
  intros. rewrite (rot2_apply_v r_ring). reflexivity.
Qed.
Theorem C61_add2 : forall eps a b,
  (let! r := rot2_new (fl eps) a in let! s := rot2_new (fl eps) b in t_chain t2 r s) = rot2_new (fl eps) (a + b) /\
  (let! r := rot2_new (fl eps) a in t_inv t2 r) = rot2_new (fl eps) (- a) /\
  rot2_new (fl eps) 0 = t_identity t2 /\ rot2_new (fl eps) (a + 2 * PI) = rot2_new (fl eps) a.
Proof.
  intros. change (rot2_new (fl eps)) with (fun a => Ok (Cx (cos a) (sin a))). cbn [bind t_chain t_inv rot2_transform].
  rewrite (c_mul_v r_ring), (c_conj_v r_ring), cos_plus, sin_plus, cos_neg, sin_neg, cos_0, sin_0.
  replace (a + 2 * PI) with (a + 2 * INR 1 * PI) by (cbn; ring). rewrite cos_period, sin_period.
  repeat split; cbn; do 2 f_equal; ring.
Qed.
Theorem C61_angle2 : forall eps,
  (forall a, - PI < a <= PI -> (let! r := rot2_new (fl eps) a in rot2_angle (fl eps) r) = Ok a) /\
  (forall r, unit_c r_ops r -> exists a, rot2_angle (fl eps) r = Ok a /\ - PI < a <= PI /\ rot2_new (fl eps) a = Ok r).
Proof.
  intros eps. change (rot2_new (fl eps)) with (fun a => Ok (Cx (cos a) (sin a))).
  change (rot2_angle (fl eps)) with (fun r => Ok (atan2 (im r) (re r))). split.
  - intros a H. cbn [bind re im]. f_equal. rewrite <- (Rmult_1_l (sin a)), <- (Rmult_1_l (cos a)). apply atan2_polar; lra.
  - intros [c s] H. rewrite unit_c_r in H. cbn [re im]. eexists. split; [reflexivity|]. split; [apply atan2_bound|].
    destruct (atan2_spec c s) as (A & B). rewrite H, sqrt_1, !Rmult_1_l in *. rewrite A, B. reflexivity.
Qed.

(* ------------------------------------------------------------------------- *)
(** * C61, three dimensions                                                    *)

(** A unit axis. *)
Definition unit3 (n : list R) : Prop := length n = 3%nat /\ v_dot r_ops 3 n n = Ok 1.
Lemma unit3_v : forall n, unit3 n -> exists x y z, n = [x; y; z] /\ x * x + y * y + z * z = 1.
Proof.
  intros n (L & D). destruct n as [|x [|y [|z [|? ?]]]]; try discriminate. exists x, y, z. split; auto.
  rewrite (v_dot_3 r_ring) in D. apply Ok_inj in D. exact D.
Qed.
Lemma unit3_i : forall x y z, x * x + y * y + z * z = 1 -> unit3 [x; y; z].
Proof. intros. split; [reflexivity|]. rewrite (v_dot_3 r_ring). f_equal. exact H. Qed.

(** Rodrigues' formula: [x] turned by the angle [a] about the unit axis [n] is
    [x cos a + (n x x) sin a + n (n . x) (1 - cos a)]. *)
Definition rodrigues (n : list R) (a : R) (x : list R) : res (list R) :=
  let! u := v_smul r_ops x (cos a) in
  let! v := lift2 (v_smul r_ops) (v_cross3 r_ops n x) (Ok (sin a)) in
  let! d := v_dot r_ops 3 n x in
  let! w := v_smul r_ops n (d * (1 - cos a)) in
  lift2 (v_add r_ops 3) (v_add r_ops 3 u v) (Ok w).

Lemma rot3_new_v : forall eps x y z a, rot3_new r_ops (fl eps) [x; y; z] a =
  Ok (Qt (cos (a / 2)) (x * sin (a / 2)) (y * sin (a / 2)) (z * sin (a / 2))).
Proof.
  intros. unfold rot3_new. cbn [f_two r_float]. change (o_div r_ops a 2) with (if Req_EM_T 2 0 then Panic else Ok (a / 2)).
  destruct (Req_EM_T 2 0); [lra|]. cbn [bind]. rewrite (v_smul_3 r_ring). reflexivity.
Qed.
Lemma half_angle : forall a, let c := cos (a / 2) in let s := sin (a / 2) in
  c * c + s * s = 1 /\ cos a = c * c - s * s /\ sin a = 2 * s * c.
Proof.
  intros a c s. split; [apply sc1|]. replace a with (2 * (a / 2)) by field. rewrite cos_2a, sin_2a. split; reflexivity.
Qed.

Theorem C61_new3 : forall eps n a, unit3 n -> exists r, rot3_new r_ops (fl eps) n a = Ok r /\ unit_q r_ops r /\
  (forall x, dim 3 x -> t_apply t3 r x =! rodrigues n a x) /\ t_apply t3 r n = Ok n.
Proof.
  intros eps n a U. destruct (unit3_v U) as (i & j & k & -> & H). rewrite rot3_new_v.
  destruct (half_angle a) as (H1 & H2 & H3). set (c := cos (a / 2)) in *. set (s := sin (a / 2)) in *.
  eexists. split; [reflexivity|]. split; [|split].
  - apply unit_q_r. transitivity (c * c + (i * i + j * j + k * k) * (s * s)). { ring. } rewrite H. lra.
  - intros x Hx. comps. rewrite (rot3_apply_v r_ring). unfold rodrigues, lift2.
    rewrite (v_smul_3 r_ring), (v_cross3_v r_ring). cbn [bind]. rewrite !(v_smul_3 r_ring), (v_dot_3 r_ring). cbn [bind].
    rewrite (v_smul_3 r_ring), (v_add_3 r_ring). cbn [bind]. rewrite (v_add_3 r_ring). eexists. split; [reflexivity|]. f_equal.
    cbn [r_add r_sub r_mul r_ring c_ring CRing_of_theory]. rewrite H2, H3.
    replace (1 - (c * c - s * s)) with (2 * (s * s)) by lra.
    assert (X : forall u, (c * c - s * s) * u = (c * c - (i * i + j * j + k * k) * (s * s)) * u) by (intros; rewrite H; ring).
    rewrite !(Rmult_comm _ (c * c - s * s)), !X. listeq; ring.
  - rewrite (rot3_apply_v r_ring). f_equal. cbn [r_add r_sub r_mul r_ring c_ring CRing_of_theory].
    assert (X : forall u, (c * c + (i * i + j * j + k * k) * (s * s)) * u = u).
    { intros. rewrite H. replace (c * c + 1 * (s * s)) with 1 by lra. ring. }
    listeq; match goal with |- _ = ?u => transitivity ((c * c + (i * i + j * j + k * k) * (s * s)) * u); [cbn; ring|apply X] end.
Qed.
Theorem C61_add3 : forall eps n a b, unit3 n ->
  (let! r := rot3_new r_ops (fl eps) n a in let! s := rot3_new r_ops (fl eps) n b in t_chain t3 r s) = rot3_new r_ops (fl eps) n (a + b) /\
  (let! r := rot3_new r_ops (fl eps) n a in t_inv t3 r) = rot3_new r_ops (fl eps) n (- a) /\
  rot3_new r_ops (fl eps) n 0 = t_identity t3.
Proof.
  intros eps n a b U. destruct (unit3_v U) as (i & j & k & -> & H). rewrite !rot3_new_v. cbn [bind t_chain t_inv t_identity rot3_transform].
  rewrite (q_mul_v r_ring), (q_conj_v r_ring). replace ((a + b) / 2) with (a / 2 + b / 2) by field. replace (- a / 2) with (- (a / 2)) by field.
  replace (0 / 2) with 0 by field. rewrite cos_plus, sin_plus, cos_neg, sin_neg, cos_0, sin_0.
  set (c := cos (a / 2)). set (s := sin (a / 2)). set (c' := cos (b / 2)). set (s' := sin (b / 2)).
  repeat split; cbn; do 2 f_equal; try ring.
  transitivity (c * c' - (i * i + j * j + k * k) * (s * s')). { ring. } rewrite H. ring.
Qed.

Lemma length3 : forall x y z, v_length r_ops sqrt [x; y; z] = Ok (sqrt (x * x + y * y + z * z)).
Proof. intros. unfold v_length. rewrite (v_square_length_3 r_ring). reflexivity. Qed.
Lemma normalize3 : forall x y z l, sqrt (x * x + y * y + z * z) = l -> l <> 0 ->
  v_normalize r_ops sqrt [x; y; z] = Ok [x / l; y / l; z / l].
Proof.
  intros x y z l E H. unfold v_normalize. rewrite length3, E. cbn [bind]. exact (@rv_sdiv 3 (fun i => nth i [x; y; z] 0) l H).
Qed.
Lemma rot3_parts_v : forall eps w i j k,
  rot3_axis r_ops (fl eps) (Qt w i j k) = v_normalize r_ops sqrt [i; j; k] /\
  rot3_angle r_ops (fl eps) (Qt w i j k) = Ok (2 * atan2 (sqrt (i * i + j * j + k * k)) w).
Proof.
  intros. split; [reflexivity|]. unfold rot3_angle. change (q_into_scalar_and_vector3 (Qt w i j k)) with (Ok (w, [i; j; k])). cbn [bind f_sqrt r_float].
  rewrite length3. reflexivity.
Qed.
(** [axis()] and [angle()] of [new(axis, a)], for angles in (0, 2 pi). *)
Theorem C61_recover3 : forall eps n a, unit3 n -> 0 < a < 2 * PI ->
  (let! r := rot3_new r_ops (fl eps) n a in rot3_axis r_ops (fl eps) r) = Ok n /\
  (let! r := rot3_new r_ops (fl eps) n a in rot3_angle r_ops (fl eps) r) = Ok a.
Proof.
  intros eps n a U Ha. destruct (unit3_v U) as (i & j & k & -> & H). rewrite rot3_new_v. cbn [bind].
  destruct (rot3_parts_v eps (cos (a / 2)) (i * sin (a / 2)) (j * sin (a / 2)) (k * sin (a / 2))) as (E1 & E2). rewrite E1, E2.
  assert (S : 0 < sin (a / 2)) by (apply sin_gt_0; lra).
  assert (L : sqrt (i * sin (a / 2) * (i * sin (a / 2)) + j * sin (a / 2) * (j * sin (a / 2)) + k * sin (a / 2) * (k * sin (a / 2))) = sin (a / 2)).
  { replace (i * sin (a / 2) * (i * sin (a / 2)) + j * sin (a / 2) * (j * sin (a / 2)) + k * sin (a / 2) * (k * sin (a / 2)))
      with ((i * i + j * j + k * k) * (sin (a / 2) * sin (a / 2))) by ring. rewrite H, Rmult_1_l. apply sqrt_square. lra. }
  split.
  - rewrite (normalize3 _ _ _ L) by lra. f_equal. listeq; field; lra.
  - rewrite L. f_equal. rewrite <- (Rmult_1_l (sin (a / 2))), <- (Rmult_1_l (cos (a / 2))). rewrite atan2_polar by lra. field.
Qed.
(** Every unit quaternion with a non-zero vector part is the rotation about its [axis()] by its [angle()]; the
    axis is a unit vector and the angle is in (0, 2 pi). *)
Theorem C61_surjective3 : forall eps r v, unit_q r_ops r -> q_xyz r = Ok v -> v_zero r_ops 3 <> Ok v ->
  exists n a, rot3_axis r_ops (fl eps) r = Ok n /\ rot3_angle r_ops (fl eps) r = Ok a /\ unit3 n /\ 0 < a < 2 * PI /\
    rot3_new r_ops (fl eps) n a = Ok r.
Proof.
  intros eps [w i j k] v U V NZ. rewrite unit_q_r in U. change (Ok [i; j; k] = Ok v) in V. apply Ok_inj in V. subst v.
  assert (P : 0 < i * i + j * j + k * k).
  { destruct (Req_dec i 0) as [->|]; [|nra]. destruct (Req_dec j 0) as [->|]; [|nra]. destruct (Req_dec k 0) as [->|]; [|nra]. contradiction NZ. reflexivity. }
  pose proof (sqrt_lt_R0 _ P) as L. destruct (rot3_parts_v eps w i j k) as (E1 & E2). rewrite E1, E2.
  pose proof (sqrt_sqrt (i * i + j * j + k * k) ltac:(lra)) as SS.
  set (l := sqrt (i * i + j * j + k * k)) in *.
  rewrite (@normalize3 i j k l eq_refl) by lra. exists [i / l; j / l; k / l], (2 * atan2 l w). split; auto. split; auto.
  destruct (atan2_spec w l) as (A & B). replace (w * w + l * l) with 1 in * by lra. rewrite sqrt_1, !Rmult_1_l in *.
  pose proof (atan2_bound w l) as Bd. pose proof PI_RGT_0.
  assert (Rg : 0 < atan2 l w < PI).
  { split.
    - destruct (Rle_dec (atan2 l w) 0) as [Q|Q]; [|lra]. exfalso. destruct (Req_dec (atan2 l w) 0) as [Z|Z]. { rewrite Z, sin_0 in B. lra. }
      pose proof (sin_gt_0 (- atan2 l w) ltac:(lra) ltac:(lra)). rewrite sin_neg in *. lra.
    - destruct (Req_dec (atan2 l w) PI) as [Z|Z]; [|lra]. rewrite Z, sin_PI in B. lra. }
  split; [|split].
  - apply unit3_i. transitivity ((i * i + j * j + k * k) / (l * l)). { field. lra. } rewrite <- SS. field. lra.
  - lra.
  - rewrite rot3_new_v. replace (2 * atan2 l w / 2) with (atan2 l w) by field. rewrite A, B. f_equal. f_equal; field; lra.
Qed.

Print Assumptions C61_new2.
Print Assumptions C61_add2.
Print Assumptions C61_angle2.
Print Assumptions C61_new3.
Print Assumptions C61_add3.
Print Assumptions C61_recover3.
Print Assumptions C61_surjective3.
