(** Model of [src/transform]. *)
From Verif Require Export MoebiusModel.
Set Implicit Arguments.

(** transform/mod.rs:20-35 [trait Transform<T>]: a transformation kind [A] acting on positions [P]. *)
Record Transform (P A : Type) : Type := mkTransform {
  t_identity : res A;
  t_inv : A -> res A;
  t_apply : A -> P -> res P;
  t_deriv : A -> P -> P -> res P;
  t_chain : A -> A -> res A
}.
(** transform/mod.rs:37-45 [trait Directional<T>]. *)
Record Directional (P A : Type) : Type := mkDirectional {
  t_apply_dir : A -> P -> P -> res P;
  t_apply_normal : A -> P -> P -> res P
}.
(** transform/chain.rs:63-66 [trait Reorder<B, T>]: [reorder(self, other) -> (B, Self)]. *)
Definition Reorder (A B : Type) : Type := A -> B -> res (B * A).

(* ------------------------------------------------------------------------- *)
(** * shift.rs: [Shift<T, N>] is its vector                                    *)
Section Shift.
  Context {T : Type} (o : Ops T) (N : nat).
  (** shift.rs:45-63 [Transform for Shift]. *)
  Definition shift_transform : Transform (list T) (list T) :=
    {| t_identity := v_zero o N;
       t_inv := fun s => v_neg o s;
       t_apply := fun s pos => v_add o N pos s;
       t_deriv := fun _ _ dir => Ok dir;
       t_chain := fun s t => v_add o N s t |}.
  (** shift.rs:70-75 [Directional for Shift]. *)
  Definition shift_directional : Directional (list T) (list T) :=
    {| t_apply_dir := fun _ _ dir => Ok dir; t_apply_normal := fun _ _ n => Ok n |}.
End Shift.

(* ------------------------------------------------------------------------- *)
(** * scale.rs: [Scale<T>] is its magnitude                                    *)
Section Scale.
  Context {T : Type} (o : Ops T) (N : nat) (inv : T -> res T).   (* [inv] is [num_traits::Inv::inv] *)
  (** scale.rs:45-59 [Transform for Scale]. *)
  Definition scale_transform : Transform (list T) T :=
    {| t_identity := Ok (o_one o);
       t_inv := inv;
       t_apply := fun s pos => v_smul o pos s;
       t_deriv := fun s _ dir => v_smul o dir s;
       t_chain := fun s t => o_mul o s t |}.
  (** scale.rs:66-71 [Directional for Scale]. *)
  Definition scale_directional : Directional (list T) T :=
    {| t_apply_dir := fun _ _ dir => Ok dir; t_apply_normal := fun _ _ n => Ok n |}.
  (** scale.rs:103-105 [Shift::reorder(Scale)]; 113-115 [Scale::reorder(Shift)]. *)
  Definition shift_scale_reorder : Reorder (list T) T :=
    fun s k => let! i := inv k in let! v := v_smul o s i in Ok (k, v).
  (** scale.rs:113-115 [Scale::reorder(Shift)]. *)
  Definition scale_shift_reorder : Reorder T (list T) :=
    fun k s => let! v := v_smul o s k in Ok (v, k).
End Scale.

(* ------------------------------------------------------------------------- *)
(** * linear.rs: [Linear<T, N>] is its matrix                                  *)
Section Linear.
  Context {T : Type} (o : Ops T) (N : nat).
  (** linear.rs:49-67 [Transform for Linear]. *)
  Definition linear_transform : Transform (list T) (list (list T)) :=
    {| t_identity := m_one o N;
       t_inv := fun m => m_inv o N m;
       t_apply := fun m pos => m_dot_v o N N m pos;
       t_deriv := fun m _ dir => m_dot_v o N N m dir;
       t_chain := fun a b => m_dot o N N N a b |}.
  (** linear.rs:75-77 [normal_transform]. *)
  Definition linear_normal_transform (m : list (list T)) : res (list (list T)) :=
    let! i := m_Inv_inv o N m in m_transpose N N i.
  (** linear.rs:87-92 [Directional for Linear]; [Normalize for Vector] is vector/dot.rs:35-42. *)
  Definition linear_directional (sqrt : T -> T) : Directional (list T) (list (list T)) :=
    {| t_apply_dir := fun m pos dir =>
         let! d := t_deriv linear_transform m pos dir in v_normalize o sqrt d;
       t_apply_normal := fun m _ n =>
         let! t := linear_normal_transform m in
         let! d := t_apply linear_transform t n in v_normalize o sqrt d |}.
  (** linear.rs:159-161 [Shift::reorder(Linear)]; 168-170 [Linear::reorder(Shift)]. *)
  Definition shift_linear_reorder : Reorder (list T) (list (list T)) :=
    fun s m => let! i := m_inv o N m in let! v := m_dot_v o N N i s in Ok (m, v).
  (** linear.rs:168-170 [Linear::reorder(Shift)]. *)
  Definition linear_shift_reorder : Reorder (list (list T)) (list T) :=
    fun m s => let! v := m_dot_v o N N m s in Ok (v, m).
End Linear.

Section LookAt.
  Context {T : Type} (o : Ops T) (F : FloatOps T).
  (** linear.rs:134-138 [look_at]. *)
  Definition look_at (dir up : list T) : res (list (list T)) :=
    let! c := v_cross3 o dir up in
    let! rgt := v_normalize o (f_sqrt F) c in
    let! strict_up := v_cross3 o rgt dir in
    let! nd := v_neg o dir in
    m_transpose 3 3 (m_from_array_of_vectors [rgt; strict_up; nd]).
  (** linear.rs:145-151 [look_at_any]. *)
  Definition look_at_any (dir : list T) : res (list (list T)) :=
    let! z := v_z dir in
    if o_lt o (f_abs F z) (f_half F) then
      look_at dir (v_from_array [o_zero o; o_zero o; o_one o])
    else
      look_at dir (v_from_array [o_zero o; o_one o; o_zero o]).
End LookAt.

(* ------------------------------------------------------------------------- *)
(** * rotation.rs, two dimensions: [Rotation2<T>] is its complex number        *)
Section Rot2.
  Context {T : Type} (o : Ops T).
  (** rotation.rs:73-75 [apply]. *)
  Definition rot2_apply (r : complex T) (pos : list T) : res (list T) :=
    let! p := c_from_vector pos in let! z := c_mul o p r in Ok (c_into_vector z).
  (** rotation.rs:63-83 [Transform for Rotation2]. *)
  Definition rot2_transform : Transform (list T) (complex T) :=
    {| t_identity := c_one o;
       t_inv := fun r => c_conj o r;
       t_apply := rot2_apply;
       t_deriv := fun r _ dir => rot2_apply r dir;
       t_chain := fun a b => c_mul o a b |}.
  (** rotation.rs:90-95 [Directional for Rotation2]. *)
  Definition rot2_directional : Directional (list T) (complex T) :=
    {| t_apply_dir := fun r pos dir => t_deriv rot2_transform r pos dir;
       t_apply_normal := fun r pos n => t_deriv rot2_transform r pos n |}.
  (** rotation.rs:102-107 [to_linear]. *)
  Definition rot2_to_linear (r : complex T) : res (list (list T)) :=
    let! a := c_re r in
    let! b := lift1 (o_neg o) (c_im r) in
    let! c := c_im r in
    let! d := c_re r in
    m_from_array_of_arrays [[a; b]; [c; d]].
  (** rotation.rs:295-297 [Shift::reorder(Rotation2)]; 304-306 [Rotation2::reorder(Shift)]. *)
  Definition shift_rot2_reorder : Reorder (list T) (complex T) :=
    fun s r => let! i := c_conj o r in let! v := rot2_apply i s in Ok (r, v).
  (** rotation.rs:304-306 [Rotation2::reorder(Shift)]. *)
  Definition rot2_shift_reorder : Reorder (complex T) (list T) :=
    fun r s => let! v := rot2_apply r s in Ok (v, r).

  Context (F : FloatOps T).
  (** rotation.rs:49-53 [new]; 54-56 [angle]. *)
  Definition rot2_new (angle : T) : res (complex T) := c_new (f_cos F angle) (f_sin F angle).
  (** rotation.rs:54-56 [angle]. *)
  Definition rot2_angle (r : complex T) : res T :=
    let! y := c_im r in let! x := c_re r in Ok (f_atan2 F y x).
End Rot2.

(* ------------------------------------------------------------------------- *)
(** * rotation.rs, three dimensions: [Rotation3<T>] is its quaternion          *)
Section Rot3.
  Context {T : Type} (o : Ops T).
  (** rotation.rs:198-203 [apply]. *)
  Definition rot3_apply (r : quat T) (pos : list T) : res (list T) :=
    let! qpos := q_from_scalar_and_vector3 (o_zero o) pos in
    let! qres := lift2 (q_mul o) (q_mul o r qpos) (q_conj o r) in
    let! (_, v) := q_into_scalar_and_vector3 qres in Ok v.
  (** rotation.rs:188-211 [Transform for Rotation3]. *)
  Definition rot3_transform : Transform (list T) (quat T) :=
    {| t_identity := q_one o;
       t_inv := fun r => q_conj o r;
       t_apply := rot3_apply;
       t_deriv := fun r _ dir => rot3_apply r dir;
       t_chain := fun a b => q_mul o a b |}.
  (** rotation.rs:218-223 [Directional for Rotation3]. *)
  Definition rot3_directional : Directional (list T) (quat T) :=
    {| t_apply_dir := fun r pos dir => t_deriv rot3_transform r pos dir;
       t_apply_normal := fun r pos n => t_deriv rot3_transform r pos n |}.
  (** rotation.rs:314-316 [Shift::reorder(Rotation3)]; 323-325 [Rotation3::reorder(Shift)]. *)
  Definition shift_rot3_reorder : Reorder (list T) (quat T) :=
    fun s r => let! i := q_conj o r in let! v := rot3_apply i s in Ok (r, v).
  (** rotation.rs:323-325 [Rotation3::reorder(Shift)]. *)
  Definition rot3_shift_reorder : Reorder (quat T) (list T) :=
    fun r s => let! v := rot3_apply r s in Ok (v, r).

  Context (F : FloatOps T).
  Local Notation "a *! b" := (lift2 (o_mul o) a b) (at level 40, left associativity).
  Local Notation "a -! b" := (lift2 (o_sub o) a b) (at level 50, left associativity).
  Local Notation "a +! b" := (lift2 (o_add o) a b) (at level 50, left associativity).

  (** rotation.rs:230-251 [to_linear]. *)
  Definition rot3_to_linear (q : quat T) : res (list (list T)) :=
    let t1 := Ok (o_one o) in
    let t2 := Ok (f_two F) in
    let! a00 := t1 -! t2 *! q_y q *! q_y q -! t2 *! q_z q *! q_z q in
    let! a01 := t2 *! q_x q *! q_y q -! t2 *! q_z q *! q_w q in
    let! a02 := t2 *! q_x q *! q_z q +! t2 *! q_y q *! q_w q in
    let! a10 := t2 *! q_x q *! q_y q +! t2 *! q_z q *! q_w q in
    let! a11 := t1 -! t2 *! q_x q *! q_x q -! t2 *! q_z q *! q_z q in
    let! a12 := t2 *! q_y q *! q_z q -! t2 *! q_x q *! q_w q in
    let! a20 := t2 *! q_x q *! q_z q -! t2 *! q_y q *! q_w q in
    let! a21 := t2 *! q_y q *! q_z q +! t2 *! q_x q *! q_w q in
    let! a22 := t1 -! t2 *! q_x q *! q_x q -! t2 *! q_y q *! q_y q in
    m_from_array_of_arrays [[a00; a01; a02]; [a10; a11; a12]; [a20; a21; a22]].

  (** rotation.rs:168-173 [new]; 174-177 [axis]; 178-181 [angle]. *)
  Definition rot3_new (axis : list T) (angle : T) : res (quat T) :=
    let! half := o_div o angle (f_two F) in
    let! v := v_smul o axis (f_sin F half) in
    q_from_scalar_and_vector3 (f_cos F half) v.
  (** rotation.rs:174-177 [axis]. *)
  Definition rot3_axis (r : quat T) : res (list T) :=
    let! (_, ax) := q_into_scalar_and_vector3 r in v_normalize o (f_sqrt F) ax.
  (** rotation.rs:178-181 [angle]. *)
  Definition rot3_angle (r : quat T) : res T :=
    let! (w, ax) := q_into_scalar_and_vector3 r in
    let! l := v_length o (f_sqrt F) ax in
    o_mul o (f_two F) (f_atan2 F l w).

  (** rotation.rs:282-285: [.chain(Self::new((1, 0, 0), PI))]. *)
  Definition rot3_flip (r : quat T) : res (quat T) :=
    let! h := rot3_new (v_from_tuple3 (o_one o, o_zero o, o_zero o)) (f_pi F) in q_mul o r h.
  (** rotation.rs:261-275 [look_at_any_cont]; [rec] is the call [Self::look_at_any(-dir)]. *)
  Definition rot3_look_at_any_cont (rec : list T -> res (quat T)) (dir : list T) : res (quat T) :=
    let! n1 := o_neg o (o_one o) in
    let z := v_from_tuple3 (o_zero o, o_zero o, n1) in
    let! dot := v_dot o 3 z dir in
    if o_lt o dot (o_zero o) then
      let! nd := v_neg o dir in
      let! r := rec nd in rot3_flip r
    else
      let! cross := v_cross3 o z dir in
      let! h := lift2 (o_div o) (o_add o (o_one o) dot) (Ok (f_two F)) in
      let cos := f_sqrt F h in
      let! sin_mult := lift2 (o_div o) (Ok (o_one o)) (o_mul o (f_two F) cos) in
      let! v := v_smul o cross sin_mult in
      q_from_scalar_and_vector3 cos v.
  (** rotation.rs:278-287 [look_at_any]; [fuel] bounds the depth of the mutual recursion. *)
  Fixpoint rot3_look_at_any (fuel : nat) (dir : list T) : res (quat T) :=
    match fuel with
    | O => Fuel
    | S k =>
        let! z := v_z dir in
        if o_lt o z (o_zero o) then rot3_look_at_any_cont (rot3_look_at_any k) dir
        else
          let! nd := v_neg o dir in
          let! r := rot3_look_at_any_cont (rot3_look_at_any k) nd in rot3_flip r
    end.
End Rot3.

(* ------------------------------------------------------------------------- *)
(** * chain.rs: [Chain<A, B, T>] is the pair (outer, inner)                    *)
Section Chain.
  Context {P A B : Type} (ta : Transform P A) (tb : Transform P B)
    (rab : Reorder A B) (rba : Reorder B A).
  (** chain.rs:18-24 [new], 27-29 [split]. *)
  Definition chain_new (a : A) (b : B) : A * B := (a, b).
  (** chain.rs:27-29 [split]. *)
  Definition chain_split (c : A * B) : A * B := (fst c, snd c).
  (** chain.rs:77-79 [inv]. *)
  Definition chain_inv (c : A * B) : res (A * B) :=
    let! i := t_inv tb (snd c) in
    let! u := t_inv ta (fst c) in
    let! (a, b) := rba i u in
    Ok (chain_new a b).
  (** chain.rs:87-90 [chain]. *)
  Definition chain_chain (s t : A * B) : res (A * B) :=
    let! (roa, rsb) := rba (snd s) (fst t) in
    let! a := t_chain ta (fst s) roa in
    let! b := t_chain tb rsb (snd t) in
    Ok (chain_new a b).
  (** chain.rs:74-91 [Transform for Chain]. *)
  Definition chain_transform : Transform P (A * B) :=
    {| t_identity := let! a := t_identity ta in let! b := t_identity tb in Ok (chain_new a b);
       t_inv := chain_inv;
       t_apply := fun c pos => let! p := t_apply tb (snd c) pos in t_apply ta (fst c) p;
       t_deriv := fun c pos dir =>
         let! p := t_apply tb (snd c) pos in
         let! d := t_deriv tb (snd c) pos dir in
         t_deriv ta (fst c) p d;
       t_chain := chain_chain |}.
  (** chain.rs:100-105 [Directional for Chain]. *)
  Definition chain_directional (da : Directional P A) (db : Directional P B)
    : Directional P (A * B) :=
    {| t_apply_dir := fun c pos dir =>
         let! p := t_apply tb (snd c) pos in
         let! d := t_apply_dir db (snd c) pos dir in t_apply_dir da (fst c) p d;
       t_apply_normal := fun c pos n =>
         let! p := t_apply tb (snd c) pos in
         let! d := t_apply_normal db (snd c) pos n in t_apply_normal da (fst c) p d |}.
End Chain.

(* ------------------------------------------------------------------------- *)
(** * affine.rs, and the other chains a user can form                          *)
(** affine.rs:8 [Affine<T, N> = Chain<Shift<T, N>, Linear<T, N>, Vector<T, N>>]. *)
Definition affine_transform {T : Type} (o : Ops T) (N : nat)
  : Transform (list T) (list T * list (list T)) :=
  chain_transform (shift_transform o N) (linear_transform o N) (linear_shift_reorder o N).
(** affine.rs:19-26 [linear], [shift]. *)
Definition affine_linear {T : Type} (c : list T * list (list T)) : list (list T) := snd c.
(** affine.rs:24-26 [shift]. *)
Definition affine_shift {T : Type} (c : list T * list (list T)) : list T := fst c.
(** [Directional] for it: chain.rs:93-106. *)
Definition affine_directional {T : Type} (o : Ops T) (N : nat) (sqrt : T -> T)
  : Directional (list T) (list T * list (list T)) :=
  chain_directional (linear_transform o N) (shift_directional (T := T)) (linear_directional o N sqrt).
(** [Chain<Shift, Rotation2>], [Chain<Shift, Rotation3>], [Chain<Shift, Scale>] (the [Reorder] impls of
    rotation.rs and scale.rs admit them), and the opposite orders. *)
Definition rigid2_transform {T : Type} (o : Ops T) :=
  chain_transform (shift_transform o 2) (rot2_transform o) (rot2_shift_reorder o).
(** chain.rs:74-91 with rotation.rs:323-325. *)
Definition rigid3_transform {T : Type} (o : Ops T) :=
  chain_transform (shift_transform o 3) (rot3_transform o) (rot3_shift_reorder o).
(** chain.rs:74-91 with scale.rs:113-115. *)
Definition shift_scale_transform {T : Type} (o : Ops T) (N : nat) (inv : T -> res T) :=
  chain_transform (shift_transform o N) (scale_transform o inv) (scale_shift_reorder o).
(** chain.rs:74-91 with linear.rs:159-161. *)
Definition linear_shift_transform {T : Type} (o : Ops T) (N : nat) :=
  chain_transform (linear_transform o N) (shift_transform o N) (shift_linear_reorder o N).
(** chain.rs:74-91 with scale.rs:103-105. *)
Definition scale_shift_transform {T : Type} (o : Ops T) (N : nat) (inv : T -> res T) :=
  chain_transform (scale_transform o inv) (shift_transform o N) (shift_scale_reorder o inv).
(** chain.rs:74-91 with rotation.rs:295-297. *)
Definition rot2_shift_transform {T : Type} (o : Ops T) :=
  chain_transform (rot2_transform o) (shift_transform o 2) (shift_rot2_reorder o).
(** chain.rs:74-91 with rotation.rs:314-316. *)
Definition rot3_shift_transform {T : Type} (o : Ops T) :=
  chain_transform (rot3_transform o) (shift_transform o 3) (shift_rot3_reorder o).

(* ------------------------------------------------------------------------- *)
(** * transform/moebius.rs                                                     *)
Section MoebiusTransform.
  Context {T : Type} (o : Ops T) (crem : complex T -> complex T -> res (complex T)) (F : FloatOps T).
  Let co := c_ops o crem.
  (** moebius.rs:11-28 [Transform<Complex<T>> for Moebius<Complex<T>>]. *)
  Definition moebius_c_transform : Transform (complex T) (list (list (complex T))) :=
    {| t_identity := mo_identity co;
       t_inv := mo_inv co;
       t_apply := mo_apply_self co;
       t_deriv := fun m pos dir => let! d := mo_deriv o m pos in c_mul o d dir;
       t_chain := mo_chain co |}.
  (** moebius.rs:34-51 [Transform<Quaternion<T>> for Moebius<Complex<T>>]. *)
  Definition moebius_q_transform : Transform (quat T) (list (list (complex T))) :=
    {| t_identity := mo_identity co;
       t_inv := mo_inv co;
       t_apply := mo_apply_q o;
       t_deriv := mo_deriv_dir o (f_two F);
       t_chain := mo_chain co |}.
  (** moebius.rs:58-63, 71-76 [Directional]. *)
  Definition moebius_c_directional : Directional (complex T) (list (list (complex T))) :=
    let ad := fun m pos dir =>
      let! d := t_deriv moebius_c_transform m pos dir in c_normalize o F d in
    {| t_apply_dir := ad; t_apply_normal := ad |}.
  (** transform/moebius.rs:71-76 [Directional<Quaternion<T>>]. *)
  Definition moebius_q_directional : Directional (quat T) (list (list (complex T))) :=
    let ad := fun m pos dir =>
      let! d := t_deriv moebius_q_transform m pos dir in q_normalize o F d in
    {| t_apply_dir := ad; t_apply_normal := ad |}.
End MoebiusTransform.
