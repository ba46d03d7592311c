(* ------------------------------------------------------------------------- *)
(** * Compound assignments of complex numbers and quaternions                   *)
Section Assign.
  Context {T : Type} (P : T -> Prop) (opa : T -> T -> res T) (HO : forall x y, P x -> P y -> sound P (opa x y)).
  Theorem C107_c_assign : forall a b, cx_of P a -> cx_of P b -> in_place (cx_of P) (c_assign opa a b).
  Proof.
    intros a b Ha Hb. unfold c_assign. assert (K := @C107_v_assign T T P P opa 2 _ _ (c_vec Ha) (c_vec Hb) HO).
    destruct (v_assign opa (c_into_vector a) (c_into_vector b)) as (v & r). destruct K as (K1 & K2). cbn [fst snd] in K1, K2.
    split; [|exact K2]. cbn [fst]. assert (K3 := C107_c_from_vector K1). destruct (c_from_vector v); auto.
  Qed.
  Theorem C107_q_assign : forall a b, qt_of P a -> qt_of P b -> in_place (qt_of P) (q_assign opa a b).
  Proof.
    intros a b Ha Hb. unfold q_assign. assert (K := @C107_v_assign T T P P opa 4 _ _ (q_vec Ha) (q_vec Hb) HO).
    destruct (v_assign opa (q_into_vector a) (q_into_vector b)) as (v & r). destruct K as (K1 & K2). cbn [fst snd] in K1, K2.
    split; [|exact K2]. cbn [fst]. assert (K3 := C107_q_from_vector K1). destruct (q_from_vector v); auto.
  Qed.
  Theorem C107_c_assign_s : forall a s, cx_of P a -> P s -> in_place (cx_of P) (c_assign_s_full opa a s) /\ sound (cx_of P) (c_assign_s opa a s).
  Proof.
    intros a s (Ha & Hb) Hs. split.
    - unfold c_assign_s_full. assert (K := HO Ha Hs). destruct (opa (re a) s); cbn in K; repeat split; auto.
    - unfold c_assign_s. assert (cx_of P a) by (split; auto). safe.
  Qed.
  Theorem C107_q_assign_s : forall a s, qt_of P a -> P s -> in_place (qt_of P) (q_assign_s_full opa a s) /\ sound (qt_of P) (q_assign_s opa a s).
  Proof.
    intros a s Ha Hs. split.
    - destruct Ha as (Ha & Hb & Hc & Hd). unfold q_assign_s_full. assert (K := HO Ha Hs). destruct (opa (qw a) s); cbn in K; repeat split; auto.
    - unfold q_assign_s. safe.
  Qed.
  Theorem C107_q_assign_c : forall a z, qt_of P a -> cx_of P z -> in_place (qt_of P) (q_assign_c_full opa a z) /\ sound (qt_of P) (q_assign_c opa a z).
  Proof.
    intros a z Ha Hz. split.
    - destruct Ha as (Ha & Hb & Hc & Hd), Hz as (H1 & H2). unfold q_assign_c_full. assert (K := HO Ha H1).
      destruct (opa (qw a) (re z)) as [w| | |]; cbn in K; try (repeat split; now auto). cbn [qw qx qy qz].
      assert (K2 := HO Hb H2). destruct (opa (qx a) (im z)); cbn in K2; repeat split; auto.
    - unfold q_assign_c. safe.
  Qed.
End Assign.

(* ------------------------------------------------------------------------- *)
(** * Complex numbers and quaternions as scalars; Moebius transformations       *)
Theorem C107_complex_scalars : forall T (P : T -> Prop) (o : Ops T) crem, closed P o ->
  (forall x y, cx_of P x -> cx_of P y -> sound (cx_of P) (crem x y)) -> closed (cx_of P) (c_ops o crem).
Proof.
  intros T P o crem HP HR. assert (h0 := cl_zero HP). assert (h1 := cl_one HP).
  split; cbn [c_ops o_zero o_one o_add o_sub o_mul o_div o_rem o_neg]; intros; auto; try leaf; split; auto.
Qed.
Theorem C107_quaternion_scalars : forall T (P : T -> Prop) (o : Ops T), closed P o -> closed (qt_of P) (q_ops o).
Proof.
  intros T P o HP. assert (h0 := cl_zero HP). assert (h1 := cl_one HP).
  split; cbn [q_ops o_zero o_one o_add o_sub o_mul o_div o_rem o_neg]; intros; auto; try leaf; repeat split; auto.
Qed.
Theorem C107_mo_apply : forall T U (P : T -> Prop) (Q : U -> Prop) mul add div m x,
  (forall a x, P a -> Q x -> sound Q (mul a x)) -> (forall x b, Q x -> P b -> sound Q (add x b)) ->
  (forall x y, Q x -> Q y -> sound Q (div x y)) -> mat_of 2 2 P m -> Q x -> sound Q (mo_apply mul add div m x).
Proof. intros. unfold mo_apply. safe. Qed.

(* ------------------------------------------------------------------------- *)
(** * Transformations                                                          *)
Ltac fields := constructor; cbn [t_identity t_inv t_apply t_deriv t_chain t_apply_dir t_apply_normal]; intros.
Section Trans.
  Context {T : Type} (P : T -> Prop) (o : Ops T) (HP : closed P o).
  Theorem C107_shift : forall N, closed_transform (vec_of N P) (vec_of N P) (shift_transform o N).
  Proof. intros. unfold shift_transform. fields; leaf. Qed.
  Theorem C107_shift_directional : forall N, closed_directional (vec_of N P) (vec_of N P) (shift_directional (T := T)).
  Proof. intros. unfold shift_directional. fields; leaf. Qed.
  Theorem C107_linear : forall N, closed_transform (vec_of N P) (mat_of N N P) (linear_transform o N).
  Proof. intros. unfold linear_transform. fields; leaf. Qed.
  Theorem C107_linear_reorder : forall N, closed_reorder (mat_of N N P) (vec_of N P) (linear_shift_reorder o N) /\
    closed_reorder (vec_of N P) (mat_of N N P) (shift_linear_reorder o N).
  Proof. intros. split; intros a b Ha Hb; unfold linear_shift_reorder, shift_linear_reorder; safe. Qed.
  Theorem C107_rotation2 : closed_transform (vec_of 2 P) (cx_of P) (rot2_transform o) /\
    closed_directional (vec_of 2 P) (cx_of P) (rot2_directional o).
  Proof. unfold rot2_directional, rot2_transform. split; fields; leaf. Qed.
  Theorem C107_rotation2_reorder : closed_reorder (cx_of P) (vec_of 2 P) (rot2_shift_reorder o) /\
    closed_reorder (vec_of 2 P) (cx_of P) (shift_rot2_reorder o).
  Proof. split; intros a b Ha Hb; unfold rot2_shift_reorder, shift_rot2_reorder; safe. Qed.
  Theorem C107_rotation3 : closed_transform (vec_of 3 P) (qt_of P) (rot3_transform o) /\
    closed_directional (vec_of 3 P) (qt_of P) (rot3_directional o).
  Proof. unfold rot3_directional, rot3_transform. split; fields; leaf. Qed.
  Theorem C107_rotation3_reorder : closed_reorder (qt_of P) (vec_of 3 P) (rot3_shift_reorder o) /\
    closed_reorder (vec_of 3 P) (qt_of P) (shift_rot3_reorder o).
  Proof. split; intros a b Ha Hb; unfold rot3_shift_reorder, shift_rot3_reorder; safe. Qed.
  (** [inv] is the scalar's [num_traits::Inv]. *)
  Theorem C107_scale : forall N inv, (forall x, P x -> sound P (inv x)) ->
    closed_transform (vec_of N P) P (scale_transform o inv) /\ closed_directional (vec_of N P) P (scale_directional (T := T)) /\
    closed_reorder P (vec_of N P) (scale_shift_reorder o) /\ closed_reorder (vec_of N P) P (shift_scale_reorder o inv).
  Proof.
    intros N inv HI. assert (h1 := cl_one HP). unfold scale_transform, scale_directional.
    split; [fields; leaf|]. split; [fields; leaf|]. split; intros a b Ha Hb; unfold scale_shift_reorder, shift_scale_reorder; safe.
  Qed.
End Trans.
(** A chain is as safe as its two members and the exchange of them. *)
Theorem C107_chain : forall Pt A B (Q : Pt -> Prop) (W : A -> Prop) (X : B -> Prop) (ta : Transform Pt A) (tb : Transform Pt B) rba,
  closed_transform Q W ta -> closed_transform Q X tb -> closed_reorder X W rba -> closed_transform Q (pair_of W X) (chain_transform ta tb rba).
Proof.
  intros Pt A B Q W X ta tb rba Ha Hb Hr. unfold closed_reorder in Hr. unfold chain_transform, chain_inv, chain_chain, chain_new.
  fields; unpack; safe.
Qed.
Theorem C107_chain_directional : forall Pt A B (Q : Pt -> Prop) (W : A -> Prop) (X : B -> Prop) (tb : Transform Pt B) da db,
  closed_transform Q X tb -> closed_directional Q W da -> closed_directional Q X db -> closed_directional Q (pair_of W X) (chain_directional tb da db).
Proof. intros Pt A B Q W X tb da db Hb Hda Hdb. unfold chain_directional. fields; unpack; safe. Qed.
Section Chains.
  Context {T : Type} (P : T -> Prop) (o : Ops T) (HP : closed P o).
  Theorem C107_affine : forall N, closed_transform (vec_of N P) (pair_of (vec_of N P) (mat_of N N P)) (affine_transform o N).
  Proof. intros. apply C107_chain; [apply C107_shift|apply C107_linear|apply C107_linear_reorder]; auto. Qed.
  Theorem C107_linear_shift : forall N, closed_transform (vec_of N P) (pair_of (mat_of N N P) (vec_of N P)) (linear_shift_transform o N).
  Proof. intros. apply C107_chain; [apply C107_linear|apply C107_shift|apply C107_linear_reorder]; auto. Qed.
  Theorem C107_rigid2 : closed_transform (vec_of 2 P) (pair_of (vec_of 2 P) (cx_of P)) (rigid2_transform o) /\
    closed_transform (vec_of 2 P) (pair_of (cx_of P) (vec_of 2 P)) (rot2_shift_transform o).
  Proof. split; apply C107_chain; try apply C107_shift; try apply C107_rotation2; try apply C107_rotation2_reorder; auto. Qed.
  Theorem C107_rigid3 : closed_transform (vec_of 3 P) (pair_of (vec_of 3 P) (qt_of P)) (rigid3_transform o) /\
    closed_transform (vec_of 3 P) (pair_of (qt_of P) (vec_of 3 P)) (rot3_shift_transform o).
  Proof. split; apply C107_chain; try apply C107_shift; try apply C107_rotation3; try apply C107_rotation3_reorder; auto. Qed.
  Theorem C107_shift_scale : forall N inv, (forall x, P x -> sound P (inv x)) ->
    closed_transform (vec_of N P) (pair_of (vec_of N P) P) (shift_scale_transform o N inv) /\
    closed_transform (vec_of N P) (pair_of P (vec_of N P)) (scale_shift_transform o N inv).
  Proof. intros N inv HI. destruct (C107_scale HP N inv HI) as (K1 & _ & K2 & K3). split; apply C107_chain; try apply C107_shift; auto. Qed.

  Context (F : FloatOps T) (HF : closed_float P F).
  Let h2 := cl_sqrt HF. Let h8 := cl_two HF.
  Hint Resolve h2 h8 : safe.
  Theorem C107_linear_directional : forall N, closed_directional (vec_of N P) (mat_of N N P) (linear_directional o N (f_sqrt F)).
  Proof.
    intros. unfold linear_directional, linear_transform. fields; eapply sound_bind; [leaf| |leaf|]; intros; try safe.
  Qed.
  Theorem C107_affine_directional : forall N, closed_directional (vec_of N P) (pair_of (vec_of N P) (mat_of N N P)) (affine_directional o N (f_sqrt F)).
  Proof. intros. apply C107_chain_directional; [apply C107_linear; auto|apply C107_shift_directional|apply C107_linear_directional]. Qed.
  (** Moebius transformations of complex numbers and of quaternions; [crem] is the complex remainder. *)
  Theorem C107_moebius_c : forall crem, (forall x y, cx_of P x -> cx_of P y -> sound (cx_of P) (crem x y)) ->
    closed_transform (cx_of P) (mat_of 2 2 (cx_of P)) (moebius_c_transform o crem) /\
    closed_directional (cx_of P) (mat_of 2 2 (cx_of P)) (moebius_c_directional o crem F).
  Proof.
    intros crem HR. assert (HC := C107_complex_scalars crem HP HR). unfold moebius_c_directional, moebius_c_transform. cbv zeta. split; fields; try leaf; safe.
  Qed.
  Theorem C107_moebius_q : forall crem, (forall x y, cx_of P x -> cx_of P y -> sound (cx_of P) (crem x y)) ->
    closed_transform (qt_of P) (mat_of 2 2 (cx_of P)) (moebius_q_transform o crem F) /\
    closed_directional (qt_of P) (mat_of 2 2 (cx_of P)) (moebius_q_directional o crem F).
  Proof.
    intros crem HR. assert (HC := C107_complex_scalars crem HP HR). unfold moebius_q_directional, moebius_q_transform. cbv zeta. split; fields; try leaf; safe.
  Qed.
  (** [look_at_any] of a rotation, to any depth of its recursion. *)
  Theorem C107_rot3_look_at_any : forall fuel u, vec_of 3 P u -> sound (qt_of P) (rot3_look_at_any o F fuel u).
  Proof.
    assert (h0 := cl_zero HP). assert (h1 := cl_one HP).
    assert (K : forall rec u, (forall u, vec_of 3 P u -> sound (qt_of P) (rec u)) -> vec_of 3 P u -> sound (qt_of P) (rot3_look_at_any_cont o F rec u)).
    { intros rec u HR Hu. unfold rot3_look_at_any_cont. cbv zeta. eapply sound_bind with (P := P); [leaf|]. intros n1 Hn. cbn [v_from_tuple3].
      assert (Hz : vec_of 3 P (v_from_array [o_zero o; o_zero o; n1])) by leaf. unfold v_from_tuple3.
      eapply sound_bind with (P := P); [leaf|]. intros d Hd. destruct (o_lt o d (o_zero o)). { safe. }
      eapply sound_bind; [leaf|]. intros c Hc. eapply sound_bind with (P := P); [safe|]. intros h Hh. eapply sound_bind with (P := P); [safe|].
      intros sm Hs. safe. }
    induction fuel as [|k IH]; intros u Hu; cbn [rot3_look_at_any]; [exact I|]. eapply sound_bind; [leaf|]. intros z Hz.
    destruct (o_lt o z (o_zero o)). { apply K; auto. }
    eapply sound_bind; [leaf|]. intros nd Hnd. eapply sound_bind; [apply K; eauto|]. intros r Hr. leaf.
  Qed.
End Chains.

(* ------------------------------------------------------------------------- *)
(** * Element-wise float functions, comparison, text                           *)
Section Fun.
  Context {T : Type} (P : T -> Prop).
  Theorem C107_v_fun1 : forall N f v, vec_of N P v -> (forall x, P x -> P (f x)) -> sound (vec_of N P) (v_fun1 f v).
  Proof. intros. unfold v_fun1. leaf. Qed.
  Theorem C107_m_fun1 : forall M N f m, mat_of M N P m -> (forall x, P x -> P (f x)) -> sound (mat_of M N P) (m_fun1 f m).
  Proof. intros. unfold m_fun1. leaf. Qed.
  Theorem C107_v_fun2 : forall U (Q : U -> Prop) N f v w, vec_of N P v -> sound (vec_of N Q) w -> (forall x y, P x -> Q y -> P (f x y)) ->
    sound (vec_of N P) (v_fun2 N f v w).
  Proof. intros. unfold v_fun2. safe. Qed.
  Theorem C107_m_fun2 : forall U (Q : U -> Prop) M N f m w, mat_of M N P m -> sound (mat_of M N Q) w -> (forall x y, P x -> Q y -> P (f x y)) ->
    sound (mat_of M N P) (m_fun2 M N f m w).
  Proof. intros. unfold m_fun2. safe. Qed.
  Theorem C107_v_fun3 : forall N f v a b, vec_of N P v -> sound (vec_of N P) a -> sound (vec_of N P) b -> (forall x y z, P x -> P y -> P z -> P (f x y z)) ->
    sound (vec_of N P) (v_fun3 N f v a b).
  Proof.
    intros. unfold v_fun3. eapply sound_bind; [eauto|]. intros a1 Ha. eapply sound_bind; [eauto|]. intros b1 Hb. eapply sound_bind; [leaf|].
    intros ab Hab. eapply safe_v_zip_map; eauto. intros s (x & y) Hs (Hx & Hy). cbn in Hx, Hy |- *. auto.
  Qed.
  Theorem C107_m_fun3 : forall M N f v a b, mat_of M N P v -> sound (mat_of M N P) a -> sound (mat_of M N P) b -> (forall x y z, P x -> P y -> P z -> P (f x y z)) ->
    sound (mat_of M N P) (m_fun3 M N f v a b).
  Proof.
    intros. unfold m_fun3. eapply sound_bind; [eauto|]. intros a1 Ha. eapply sound_bind; [eauto|]. intros b1 Hb. eapply sound_bind; [leaf|].
    intros ab Hab. eapply safe_m_zip_map; eauto. intros s (x & y) Hs (Hx & Hy). cbn in Hx, Hy |- *. auto.
  Qed.
  Theorem C107_v_clamp : forall N fmin fmax v a b, vec_of N P v -> sound (vec_of N P) a -> sound (vec_of N P) b ->
    (forall x y, P x -> P y -> P (fmin x y)) -> (forall x y, P x -> P y -> P (fmax x y)) -> sound (vec_of N P) (v_clamp N fmin fmax v a b).
  Proof. intros. unfold v_clamp. apply C107_v_fun3; auto. Qed.
  Theorem C107_m_clamp : forall M N fmin fmax v a b, mat_of M N P v -> sound (mat_of M N P) a -> sound (mat_of M N P) b ->
    (forall x y, P x -> P y -> P (fmin x y)) -> (forall x y, P x -> P y -> P (fmax x y)) -> sound (mat_of M N P) (m_clamp M N fmin fmax v a b).
  Proof. intros. unfold m_clamp. apply C107_m_fun3; auto. Qed.
  Theorem C107_v_sin_cos : forall N sc v, vec_of N P v -> (forall x, P x -> pair_of P P (sc x)) -> sound (pair_of (vec_of N P) (vec_of N P)) (v_sin_cos N sc v).
  Proof. intros. unfold v_sin_cos. eapply sound_bind with (P := vec_of N (pair_of P P)); [leaf|]. intros. leaf. Qed.
  Theorem C107_m_sin_cos : forall M N sc v, mat_of M N P v -> (forall x, P x -> pair_of P P (sc x)) ->
    sound (pair_of (mat_of M N P) (mat_of M N P)) (m_sin_cos M N sc v).
  Proof. intros. unfold m_sin_cos. eapply sound_bind with (P := mat_of M N (pair_of P P)); [leaf|]. intros. leaf. Qed.
End Fun.
(** Comparison and text may not be undefined, and return. *)
Section Compare.
  Context {T : Type} (ade : T -> T -> bool) (fmt : T -> string).
  Theorem C107_v_abs_diff_eq : forall N u v, length u = N -> length v = N -> sound any (v_abs_diff_eq N ade u v).
  Proof.
    intros N u v Hu Hv. unfold v_abs_diff_eq. eapply sound_bind with (P := vec_of N any); [|intros; exact I].
    apply safe_v_zip_map with (P := any) (Q := any); try (intros; exact I); (split; auto; apply Forall_forall; intros; exact I).
  Qed.
  Theorem C107_m_abs_diff_eq : forall M N a b, rect M N a -> rect M N b -> sound any (m_abs_diff_eq M N ade a b).
  Proof.
    intros M N a b Ha Hb. unfold m_abs_diff_eq. eapply sound_bind with (P := mat_of M N any); [|intros; apply C107_m_any; auto].
    apply safe_m_zip_map with (P := any) (Q := any); try (intros; exact I); (apply mat_elt; auto; intros; exact I).
  Qed.
  Theorem C107_c_abs_diff_eq : forall a b : complex T, sound any (c_abs_diff_eq ade a b) /\ sound any (rot2_abs_diff_eq ade a b).
  Proof.
    intros. split. { apply C107_v_abs_diff_eq; reflexivity. } unfold rot2_abs_diff_eq.
    assert (cx_of any a) by (split; exact I). assert (cx_of any b) by (split; exact I). safe.
  Qed.
  Theorem C107_q_abs_diff_eq : forall a b : quat T, sound any (q_abs_diff_eq ade a b) /\ sound any (rot3_abs_diff_eq ade a b).
  Proof. intros. split; apply C107_v_abs_diff_eq; reflexivity. Qed.
  Lemma safe_v_fmt_loop : forall v left i, sound any (v_fmt_loop fmt v left i).
  Proof.
    intros v. induction left as [|l IH]; intros i; cbn [v_fmt_loop]; [exact I|]. eapply sound_bind with (P := any).
    { unfold v_index, index. destruct (nth_error v i); exact I. } intros x _. eapply sound_bind; [apply IH|]. intros; exact I.
  Qed.
  Theorem C107_v_fmt : forall N v, sound any (v_fmt N fmt v).
  Proof.
    intros [|N] v; cbn [v_fmt]; [exact I|]. eapply sound_bind; [apply safe_v_fmt_loop|]. intros s _. eapply sound_bind with (P := any).
    { unfold v_index, index. destruct (nth_error v N); exact I. } intros; exact I.
  Qed.
  Lemma safe_m_index_any : forall (m : list (list T)) ij, sound any (m_index m ij).
  Proof. intros m (i & j). unfold m_index, v_index, index. cbn [fst snd]. destruct (nth_error m i) as [r|]; [|exact I]. cbn. destruct (nth_error r j); exact I. Qed.
  Theorem C107_m_fmt : forall M N m, sound any (m_fmt M N fmt m).
  Proof.
    intros M N m. assert (K : forall left j i, sound any (m_fmt_row fmt m left j i)).
    { induction left as [|l IH]; intros j i; cbn [m_fmt_row]; [exact I|]. eapply sound_bind; [apply safe_m_index_any|]. intros x _.
      eapply sound_bind; [apply IH|]. intros; exact I. }
    assert (K2 : forall left j, sound any (m_fmt_rows fmt m N left j)).
    { induction left as [|l IH]; intros j; cbn [m_fmt_rows]; [exact I|]. eapply sound_bind; [apply K|]. intros x _. eapply sound_bind; [apply IH|]. intros; exact I. }
    unfold m_fmt. eapply sound_bind; [apply K2|]. intros; exact I.
  Qed.
  Theorem C107_c_fmt : forall z, sound any (c_fmt fmt z).
  Proof. intros z. unfold c_fmt. assert (cx_of any z) by (split; exact I). safe. Qed.
  Theorem C107_q_fmt : forall q, sound any (q_fmt fmt q).
  Proof. intros q. unfold q_fmt. assert (qt_of any q) by (repeat split; exact I). safe. Qed.
End Compare.

(** Writing to a formatter that may fail or panic at any write; [J] is any invariant of the writer. *)
Section Write.
  Context {W T : Type} (J : W -> Prop) (P : T -> Prop) (lit : string -> W -> res (W * bool)) (elem : T -> W -> res (W * bool)).
  Context (HL : forall s w, J w -> sound (pair_of J any) (lit s w)) (HE : forall x w, P x -> J w -> sound (pair_of J any) (elem x w)).
  Let Wr (a : W -> res (W * bool)) := forall w, J w -> sound (pair_of J any) (a w).
  Lemma write_then : forall a b, Wr a -> Wr b -> Wr (and_then a b).
  Proof. intros a b Ha Hb w Hw. unfold and_then. eapply sound_bind; [apply Ha; auto|]. intros (w1 & ok) (H1 & _). destruct ok; [apply Hb; auto|split; auto; exact I]. Qed.
  Lemma write_eval : forall A (Q : A -> Prop) x k, sound Q x -> (forall a, Q a -> Wr (k a)) -> Wr (eval x k).
  Proof. intros A Q x k Hx Hk w Hw. unfold eval. eapply sound_bind; [apply Hx|]. intros a Ha. apply Hk; auto. Qed.
  Lemma write_lit : forall s, Wr (lit s). Proof. intros s w Hw. auto. Qed.
  Lemma write_elem : forall x, P x -> Wr (elem x). Proof. intros x Hx w Hw. auto. Qed.
  Lemma write_done : Wr (@done W). Proof. intros w Hw. split; auto. exact I. Qed.
  Ltac wr := repeat match goal with
    | |- Wr (eval _ _) => eapply write_eval; [leaf|intros]
    | |- Wr (and_then _ _) => apply write_then
    | |- Wr (lit _) => apply write_lit
    | |- Wr (elem _) => apply write_elem; assumption
    | |- Wr (@done _) => apply write_done
    end.
  Theorem C107_v_write : forall N v, vec_of N P v -> forall w, J w -> sound (pair_of J any) (v_write lit elem N v w).
  Proof.
    intros N v Hv. assert (K : forall left i k, Wr k -> Wr (v_write_loop lit elem v left i k)).
    { induction left as [|l IH]; intros i k Hk; cbn [v_write_loop]; auto. wr. apply IH; auto. }
    change (Wr (v_write lit elem N v)). unfold v_write. destruct N as [|N1]; wr. { intros w _. exact I. } apply K. wr.
  Qed.
  Theorem C107_m_write : forall M N m, mat_of M N P m -> forall w, J w -> sound (pair_of J any) (m_write lit elem M N m w).
  Proof.
    intros M N m Hm. assert (K : forall left j i k, Wr k -> Wr (m_write_row lit elem m left j i k)).
    { induction left as [|l IH]; intros j i k Hk; cbn [m_write_row]; auto. wr. apply IH; auto. }
    assert (K2 : forall left j k, Wr k -> Wr (m_write_rows lit elem m N left j k)).
    { induction left as [|l IH]; intros j k Hk; cbn [m_write_rows]; auto. wr. apply K. wr. apply IH; auto. }
    change (Wr (m_write lit elem M N m)). unfold m_write. wr. apply K2. wr.
  Qed.
  Theorem C107_c_write : forall z, cx_of P z -> forall w, J w -> sound (pair_of J any) (c_write lit elem z w).
  Proof. intros z Hz. change (Wr (c_write lit elem z)). unfold c_write. wr. Qed.
  Theorem C107_q_write : forall q, qt_of P q -> forall w, J w -> sound (pair_of J any) (q_write lit elem q w).
  Proof. intros q Hq. change (Wr (q_write lit elem q)). unfold q_write. wr. Qed.
  (** The derived [Debug] of the transformations, given that of their fields. *)
  Theorem C107_debug : forall name field a b c, (forall w, J w -> sound (pair_of J any) (a w)) -> (forall w, J w -> sound (pair_of J any) (b w)) ->
    (forall w, J w -> sound (pair_of J any) (c w)) ->
    forall w, J w -> sound (pair_of J any) (debug1 lit name field a w) /\ sound (pair_of J any) (chain_debug lit a b c w).
  Proof.
    intros name field a b c Ha Hb Hc w Hw. split.
    - revert w Hw. change (Wr (debug1 lit name field a)). unfold debug1. wr. exact Ha.
    - revert w Hw. change (Wr (chain_debug lit a b c)). unfold chain_debug. wr; assumption.
  Qed.
End Write.

(* ------------------------------------------------------------------------- *)
(** * Derived [Clone], [PartialEq], [Default]: [cl], [e], [d] are the scalar's  *)
Section Derived.
  Context {C T : Type} (J : C -> Prop) (P : T -> Prop) (cl : C -> T -> res (C * T)).
  Context (HC : forall c x, J c -> P x -> sound (pair_of J P) (cl c x)).
  Lemma safe_clone_loop : forall X (Q : X -> Prop) (one : C -> X -> ow T (C * X)) glue, (forall c x, J c -> Q x -> sound (pair_of J Q) (snd (one c x))) ->
    forall v c acc n k, J c -> vec_of n Q v -> vec_of k Q acc -> sound (pair_of J (vec_of (k + n) Q)) (snd (clone_loop one glue c v acc)).
  Proof.
    intros X Q one glue HO. induction v as [|x t IH]; intros c acc n k Hc Hv Ha; cbn [clone_loop].
    - destruct Hv as (<- & _). cbn [length]. rewrite Nat.add_0_r. split; auto.
    - destruct Hv as (<- & Hv). cbn [length]. inversion Hv; subst. assert (K := HO c x Hc H1). destruct (one c x) as (d & r). cbn [snd] in K.
      destruct r as [(c1 & y)| | |]; cbn in K; try exact K. destruct K as (K1 & K2). cbn in K1, K2.
      assert (K3 := IH c1 (acc ++ [y]) (length t) (S k) K1 (conj eq_refl H2)). destruct (clone_loop one glue c1 t (acc ++ [y])) as (d1 & r1). cbn [snd] in *.
      rewrite Nat.add_succ_r. apply K3. destruct Ha as (<- & Ha). split; [rewrite app_length; cbn; lia|]. apply Forall_app. auto.
  Qed.
  Theorem C107_v_clone : forall N c v, J c -> vec_of N P v -> sound (pair_of J (vec_of N P)) (snd (v_clone cl c v)).
  Proof. intros N c v Hc Hv. unfold v_clone. apply (@safe_clone_loop T P (fun c x => ([], cl c x)) (fun x => [x])) with (k := 0) (n := N); auto. apply vec_nil. Qed.
  Theorem C107_m_clone : forall M N c m, J c -> mat_of M N P m -> sound (pair_of J (mat_of M N P)) (snd (m_clone cl c m)).
  Proof. intros M N c v Hc Hv. unfold m_clone. apply (@safe_clone_loop _ (vec_of N P) (v_clone cl) (fun r => r)) with (k := 0) (n := M); auto; [|apply vec_nil]. intros. apply C107_v_clone; auto. Qed.
  Theorem C107_c_clone : forall c z, J c -> cx_of P z -> sound (pair_of J (cx_of P)) (snd (c_clone cl c z)).
  Proof.
    intros c z Hc Hz. unfold c_clone. assert (K := C107_v_clone Hc (c_vec Hz)). destruct (v_clone cl c (c_into_vector z)) as (d & r). cbn [snd] in *.
    eapply sound_bind; [exact K|]. intros; unpack. safe.
  Qed.
  Theorem C107_q_clone : forall c z, J c -> qt_of P z -> sound (pair_of J (qt_of P)) (snd (q_clone cl c z)).
  Proof.
    intros c z Hc Hz. unfold q_clone. assert (K := C107_v_clone Hc (q_vec Hz)). destruct (v_clone cl c (q_into_vector z)) as (d & r). cbn [snd] in *.
    eapply sound_bind; [exact K|]. intros; unpack. safe.
  Qed.
  Lemma safe_eq_loop : forall X (Q : X -> Prop) (e : C -> X -> X -> res (C * bool)), (forall c x y, J c -> Q x -> Q y -> sound (pair_of J any) (e c x y)) ->
    forall u v c, J c -> Forall Q u -> Forall Q v -> sound (pair_of J any) (v_eq_st e c u v).
  Proof.
    intros X Q e HE. induction u as [|x u IH]; intros [|y v] c Hc Hu Hv; cbn [v_eq_st]; try (split; auto; exact I).
    inversion Hu; inversion Hv; subst. eapply sound_bind; [apply HE; auto|]. intros (c1 & b) (K & _). cbn in K. destruct b; [auto|]. split; auto. exact I.
  Qed.
  Context (e : C -> T -> T -> res (C * bool)) (HE : forall c x y, J c -> P x -> P y -> sound (pair_of J any) (e c x y)).
  Theorem C107_v_eq : forall N c u v, J c -> vec_of N P u -> vec_of N P v -> sound (pair_of J any) (v_eq_st e c u v).
  Proof. intros N c u v Hc (_ & Hu) (_ & Hv). eapply safe_eq_loop; eauto. Qed.
  Theorem C107_m_eq : forall M N c a b, J c -> mat_of M N P a -> mat_of M N P b -> sound (pair_of J any) (m_eq_st e c a b).
  Proof. intros M N c u v Hc (_ & Hu) (_ & Hv). eapply safe_eq_loop with (Q := vec_of N P); eauto. intros. eapply C107_v_eq; eauto. Qed.
  Theorem C107_c_eq : forall c a b, J c -> cx_of P a -> cx_of P b -> sound (pair_of J any) (c_eq_st e c a b).
  Proof. intros c a b Hc Ha Hb. exact (C107_v_eq Hc (c_vec Ha) (c_vec Hb)). Qed.
  Theorem C107_q_eq : forall c a b, J c -> qt_of P a -> qt_of P b -> sound (pair_of J any) (q_eq_st e c a b).
  Proof. intros c a b Hc Ha Hb. exact (C107_v_eq Hc (q_vec Ha) (q_vec Hb)). Qed.
  Context (d : C -> res (C * T)) (HD : forall c, J c -> sound (pair_of J P) (d c)).
  Theorem C107_c_default : forall c, J c -> sound (pair_of J (cx_of P)) (c_default d c) /\ sound (pair_of J (qt_of P)) (q_default d c).
  Proof.
    intros c Hc. unfold c_default, q_default. split; (eapply sound_bind; [apply C107_v_init; eauto|]); intros; unpack; safe.
  Qed.
End Derived.

(* ------------------------------------------------------------------------- *)
(** * Random sampling: any generator, any number of rejections                  *)
Theorem C107_v_distribution : forall G T (I : G -> Prop) (P : T -> Prop) N (d : distr G T), closed_draw I P d -> closed_draw I (vec_of N P) (v_distribution N d).
Proof. intros G T I P N d H g Hg. apply C107_v_init; auto. Qed.
Theorem C107_m_distribution : forall G T (I : G -> Prop) (P : T -> Prop) M N (d : distr G T), closed_draw I P d -> closed_draw I (mat_of M N P) (m_distribution M N d).
Proof. intros G T I P M N d H g Hg. apply C107_m_init; auto. Qed.
Theorem C107_reject_loop : forall G A (I : G -> Prop) (Q : A -> Prop) (d : distr G A) acc, closed_draw I Q d -> (forall x, Q x -> sound any (acc x)) ->
  forall fuel, closed_draw I (fun x => Q x /\ acc x = Ok true) (reject_loop fuel d acc).
Proof.
  intros G A I Q d acc HD HA. induction fuel as [|k IH]; intros g Hg; [exact Logic.I|]. cbn [reject_loop]. eapply sound_bind; [apply HD; auto|].
  intros (g1 & x) (H1 & H2). cbn in H1, H2. specialize (HA x H2). destruct (acc x) as [b| | |] eqn:E; cbn [bind]; try exact HA. destruct b; [|apply IH; auto].
  split; cbn; auto.
Qed.
Section Sampling.
  Context {G T : Type} (I : G -> Prop) (P : T -> Prop) (o : Ops T) (F : FloatOps T) (normal : distr G T)
    (HP : closed P o) (HF : closed_float P F) (HN : closed_draw I P normal).
  Let h2 := cl_sqrt HF. Let h6 := cl_abs HF.
  Hint Resolve h2 h6 : safe.
  Theorem C107_nonzero_v : forall fuel N, closed_draw I (vec_of N P) (nonzero_v o F normal fuel N).
  Proof.
    intros fuel N g Hg. unfold nonzero_v. eapply sound_mono. { eapply C107_reject_loop; eauto. { apply C107_v_distribution; exact HN. }
      cbn. intros x Hx. eapply sound_bind with (P := P); [leaf|]. intros; exact Logic.I. }
    intros (g1 & x) (H1 & (H2 & _)). split; auto.
  Qed.
  Theorem C107_unit_v : forall fuel N, closed_draw I (vec_of N P) (unit_v o F normal fuel N).
  Proof. intros fuel N g Hg. unfold unit_v. eapply sound_bind; [apply C107_nonzero_v; auto|]. intros; unpack. safe. Qed.
  Theorem C107_invertible_m : forall fuel N, closed_draw I (mat_of N N P) (invertible_m o F normal fuel N).
  Proof.
    intros fuel N g Hg. unfold invertible_m. eapply sound_mono. { eapply C107_reject_loop; eauto. { apply C107_m_distribution; exact HN. }
      cbn. intros x Hx. eapply sound_bind with (P := P); [leaf|]. intros; exact Logic.I. }
    intros (g1 & x) (H1 & (H2 & _)). split; auto.
  Qed.
  Theorem C107_invertible_cm : forall crem cnormal fuel N, (forall x y, cx_of P x -> cx_of P y -> sound (cx_of P) (crem x y)) ->
    closed_draw I (cx_of P) cnormal -> closed_draw I (mat_of N N (cx_of P)) (invertible_cm o F crem cnormal fuel N).
  Proof.
    intros crem cnormal fuel N HR HC g Hg. unfold invertible_cm. assert (HO := C107_complex_scalars crem HP HR).
    eapply sound_mono. { eapply C107_reject_loop; eauto. { apply C107_m_distribution; exact HC. }
      cbn. intros x Hx. eapply sound_bind with (P := cx_of P); [leaf|]. intros d Hd. eapply sound_bind with (P := P); [eapply C107_c_norm_l1; eauto|]. intros; exact Logic.I. }
    intros (g1 & x) (H1 & (H2 & _)). split; auto.
  Qed.
  Theorem C107_c_distr : forall d, closed_draw I (vec_of 2 P) d -> closed_draw I (cx_of P) (c_distr d).
  Proof. intros d HD g Hg. unfold c_distr. eapply sound_bind; [apply HD; auto|]. intros; unpack. safe. Qed.
  Theorem C107_q_distr : forall d, closed_draw I (vec_of 4 P) d -> closed_draw I (qt_of P) (q_distr d).
  Proof. intros d HD g Hg. unfold q_distr. eapply sound_bind; [apply HD; auto|]. intros; unpack. safe. Qed.
  Theorem C107_uniform_rot2 : forall ranged, closed_draw I P ranged -> closed_draw I (cx_of P) (uniform_rot2 F ranged).
  Proof. intros d HD g Hg. unfold uniform_rot2. eapply sound_bind; [apply HD; auto|]. intros; unpack. safe. Qed.
  Theorem C107_uniform_rot3 : forall fuel ranged, closed_draw I P ranged -> closed_draw I (qt_of P) (uniform_rot3 o F normal fuel ranged).
  Proof.
    intros fuel d HD g Hg. unfold uniform_rot3. eapply sound_bind; [apply C107_unit_v; auto|]. intros; unpack. eapply sound_bind; [apply HD; auto|]. intros; unpack. safe.
  Qed.
  Theorem C107_affine_distr : forall N lin, closed_draw I (mat_of N N P) lin -> closed_draw I (pair_of (vec_of N P) (mat_of N N P)) (affine_distr normal N lin).
  Proof.
    intros N d HD g Hg. unfold affine_distr. eapply sound_bind; [apply C107_v_distribution; eauto|]. intros; unpack.
    eapply sound_bind; [apply HD; auto|]. intros; unpack. unfold chain_new. safe.
  Qed.
  Theorem C107_normal_float : forall ln unit half_turn, (forall x, P x -> P (ln x)) -> closed_draw I P unit -> closed_draw I P half_turn ->
    closed_draw I P (normal_float o F ln unit half_turn).
  Proof.
    intros ln d1 d2 HL H1 H2 g Hg. assert (h1 := cl_one HP). assert (h3 := cl_two HF). assert (h4 := cl_cos HF). unfold normal_float.
    eapply sound_bind; [apply H1; auto|]. intros; unpack. eapply sound_bind with (P := P); [leaf|]. intros. eapply sound_bind with (P := P); [leaf|]. intros.
    eapply sound_bind with (P := P); [leaf|]. intros. eapply sound_bind; [apply H2; auto|]. intros; unpack. eapply sound_bind with (P := P); [leaf|]. intros. safe.
  Qed.
End Sampling.

(* ------------------------------------------------------------------------- *)
(** * Functions delegated to [num_complex]                                     *)
Section Delegated.
  Context {T Str : Type} (P : T -> Prop) (N : num_complex T Str).
  Let PP : T * T -> Prop := pair_of P P.
  Theorem C107_delegated1 : forall z, cx_of P z ->
    ((forall t, PP t -> sound PP (n_exp N t)) -> sound (cx_of P) (c_exp N z)) /\
    ((forall t, PP t -> sound PP (n_ln N t)) -> sound (cx_of P) (c_ln N z)) /\
    ((forall t, PP t -> sound PP (n_sqrt N t)) -> sound (cx_of P) (c_sqrt N z)) /\
    ((forall t, PP t -> sound PP (n_cbrt N t)) -> sound (cx_of P) (c_cbrt N z)) /\
    ((forall t, PP t -> sound PP (n_sin N t)) -> sound (cx_of P) (c_sin N z)) /\
    ((forall t, PP t -> sound PP (n_cos N t)) -> sound (cx_of P) (c_cos N z)) /\
    ((forall t, PP t -> sound PP (n_tan N t)) -> sound (cx_of P) (c_tan N z)) /\
    ((forall t, PP t -> sound PP (n_asin N t)) -> sound (cx_of P) (c_asin N z)) /\
    ((forall t, PP t -> sound PP (n_acos N t)) -> sound (cx_of P) (c_acos N z)) /\
    ((forall t, PP t -> sound PP (n_atan N t)) -> sound (cx_of P) (c_atan N z)) /\
    ((forall t, PP t -> sound PP (n_sinh N t)) -> sound (cx_of P) (c_sinh N z)) /\
    ((forall t, PP t -> sound PP (n_cosh N t)) -> sound (cx_of P) (c_cosh N z)) /\
    ((forall t, PP t -> sound PP (n_tanh N t)) -> sound (cx_of P) (c_tanh N z)) /\
    ((forall t, PP t -> sound PP (n_asinh N t)) -> sound (cx_of P) (c_asinh N z)) /\
    ((forall t, PP t -> sound PP (n_acosh N t)) -> sound (cx_of P) (c_acosh N z)) /\
    ((forall t, PP t -> sound PP (n_atanh N t)) -> sound (cx_of P) (c_atanh N z)) /\
    ((forall t, PP t -> sound PP (n_finv N t)) -> sound (cx_of P) (c_finv N z)) /\
    ((forall t e, PP t -> sound PP (n_powu N t e)) -> forall e, sound (cx_of P) (c_powu N z e)) /\
    ((forall t e, PP t -> sound PP (n_powi N t e)) -> forall e, sound (cx_of P) (c_powi N z e)).
  Proof.
    intros z Hz. assert (K := C107_c_into_num Hz).
    repeat match goal with |- _ /\ _ => split end; intros HF; intros; (eapply sound_bind; [exact K|]); intros n Hn;
      (eapply sound_bind; [apply HF; exact Hn|]); intros r Hr; apply C107_c_from_num; exact Hr.
  Qed.
  Theorem C107_delegated2 : forall z x, cx_of P z -> P x ->
    ((forall t x, PP t -> P x -> sound PP (n_powf N t x)) -> sound (cx_of P) (c_powf N z x)) /\
    ((forall t x, PP t -> P x -> sound PP (n_log N t x)) -> sound (cx_of P) (c_log N z x)) /\
    ((forall t x, PP t -> P x -> sound PP (n_expf N t x)) -> sound (cx_of P) (c_expf N z x)).
  Proof.
    intros z x Hz Hx. assert (K := C107_c_into_num Hz).
    repeat match goal with |- _ /\ _ => split end; intros HF; (eapply sound_bind; [exact K|]); intros n Hn;
      (eapply sound_bind; [apply HF; [exact Hn|exact Hx]|]); intros r Hr; apply C107_c_from_num; exact Hr.
  Qed.
  Theorem C107_delegated3 : forall z w, cx_of P z -> cx_of P w ->
    ((forall t u, PP t -> PP u -> sound PP (n_powc N t u)) -> sound (cx_of P) (c_powc N z w)) /\
    ((forall t u, PP t -> PP u -> sound PP (n_fdiv N t u)) -> sound (cx_of P) (c_fdiv N z w)) /\
    ((forall t u, PP t -> PP u -> sound PP (n_rem N t u)) -> sound (cx_of P) (c_rem N z w)).
  Proof.
    intros z w Hz Hw. assert (K := C107_c_into_num Hz). assert (K2 := C107_c_into_num Hw).
    repeat match goal with |- _ /\ _ => split end; intros HF; (eapply sound_bind; [exact K|]); intros n Hn;
      (eapply sound_bind; [exact K2|]); intros k Hk; (eapply sound_bind; [apply HF; [exact Hn|exact Hk]|]); intros r Hr; apply C107_c_from_num; exact Hr.
  Qed.
  Theorem C107_from_str_radix : forall s radix, (forall t, n_from_str_radix N s radix = Some t -> PP t) ->
    sound (opt_of (cx_of P)) (c_from_str_radix N s radix).
  Proof.
    intros s radix H. unfold c_from_str_radix. destruct (n_from_str_radix N s radix) as [t|]; [|exact I].
    eapply sound_bind; [apply C107_c_from_num; apply H; reflexivity|]. intros z Hz. exact Hz.
  Qed.
End Delegated.

(* ------------------------------------------------------------------------- *)
(** * Scalars that meet the hypotheses                                         *)
(** Any scalar type whose operations have no undefined behaviour (they may panic): [P] is then no restriction. *)
Theorem C107_any_scalars : forall T (o : Ops T), (forall x y, o_add o x y <> UB) -> (forall x y, o_sub o x y <> UB) -> (forall x y, o_mul o x y <> UB) ->
  (forall x y, o_div o x y <> UB) -> (forall x y, o_rem o x y <> UB) -> (forall x, o_neg o x <> UB) -> closed any o.
Proof.
  assert (K : forall A (r : res A), r <> UB -> sound any r) by (intros A [] H; cbn; auto; exact I).
  intros. split; try exact I; intros; apply K; auto.
Qed.
(** Machine integers of any width, in debug and in release builds: the results are machine integers again. *)
Lemma wrap_word : forall s w x, width s w -> in_word s w (wrap s w x).
Proof.
  intros s w x W. unfold in_word, wrap, int_min, int_max, width in *. destruct s.
  - assert (0 < 2 ^ w)%Z by (apply Z.pow_pos_nonneg; lia). assert (2 ^ w = 2 * 2 ^ (w - 1))%Z by (rewrite <- Z.pow_succ_r by lia; f_equal; lia).
    assert (B := Z.mod_pos_bound (x + 2 ^ (w - 1)) (2 ^ w) H). lia.
  - assert (0 < 2 ^ w)%Z by (apply Z.pow_pos_nonneg; lia). assert (B := Z.mod_pos_bound x (2 ^ w) H). lia.
Qed.
Lemma check_word : forall s w x, sound (in_word s w) (check s w x).
Proof. intros. unfold check, in_wordb. destruct (_ && _) eqn:E; [|exact I]. apply andb_prop in E. destruct E as (E1 & E2). apply Z.leb_le in E1, E2. split; auto. Qed.
Lemma zero_word : forall s w, width s w -> in_word s w 0 /\ in_word s w 1.
Proof.
  intros [] w W; unfold in_word, int_min, int_max, width in *.
  - assert (2 ^ 1 <= 2 ^ (w - 1))%Z by (apply Z.pow_le_mono_r; lia). lia.
  - assert (2 ^ 1 <= 2 ^ w)%Z by (apply Z.pow_le_mono_r; lia). lia.
Qed.
Lemma rem_word : forall s w x y, in_word s w x -> in_word s w y -> y <> 0%Z -> in_word s w (Z.rem x y).
Proof.
  intros s w x y Hx Hy Hz. assert (H0 : in_word s w 0 \/ s = false).
  { destruct s; auto. left. unfold in_word, int_min, int_max in *. destruct (Z.le_gt_cases 1 w); [|exfalso].
    - assert (0 < 2 ^ (w - 1))%Z by (apply Z.pow_pos_nonneg; lia). lia.
    - rewrite (Z.pow_neg_r 2 (w - 1)) in Hx by lia. lia. }
  assert (A : (Z.abs (Z.rem x y) <= Z.abs x)%Z).
  { rewrite <- Z.rem_abs by auto. assert (0 <= Z.rem (Z.abs x) (Z.abs y))%Z by (apply Z.rem_nonneg; lia).
    rewrite Z.rem_mod_nonneg by lia. apply Z.mod_le; lia. }
  assert (S := Z.rem_sign_nz x y Hz). unfold in_word in *. destruct (Z.eq_dec (Z.rem x y) 0) as [E|E].
  { rewrite E. destruct H0 as [H0| ->]; [exact H0|]. unfold int_min, int_max in *. lia. }
  specialize (S E). destruct s; unfold int_min, int_max in *; [|lia].
  destruct H0 as [H0|]; [|discriminate]. destruct (Z.sgn_spec x) as [(L & R)|[(L & R)|(L & R)]]; rewrite R in S; lia.
Qed.
Theorem C107_machine_integers : forall s w, width s w -> closed (in_word s w) (checked_ops s w) /\ closed (in_word s w) (wrapping_ops s w).
Proof.
  intros s w W. destruct (zero_word s w W) as (Z0 & Z1).
  split; split; cbn [checked_ops wrapping_ops o_zero o_one o_add o_sub o_mul o_div o_rem o_neg]; intros; auto; try apply check_word; try (apply wrap_word; auto);
    destruct (Z.eqb_spec y 0); try exact I; try apply check_word; destruct (in_wordb s w (Z.quot x y)); try exact I; apply rem_word; auto.
Qed.
(** IEEE floats of any format: the results are floats of that format again ([rem] is the float remainder). *)
Theorem C107_floats : forall prec emax rem, (0 < prec)%Z -> (prec < emax)%Z ->
  (forall x y, valid_binary prec emax x = true -> valid_binary prec emax y = true -> valid_binary prec emax (rem x y) = true) ->
  closed (fun x => valid_binary prec emax x = true) (sf_ops prec emax rem).
Proof.
  intros prec emax rem Hp He HR. split; cbn [sf_ops o_zero o_one o_add o_sub o_mul o_div o_rem o_neg ok1 ok2 sound]; intros; auto.
  - assert (E : SFone prec emax = BinarySingleNaN.B2SF (@BinarySingleNaN.Bone prec emax Hp He)).
    { unfold BinarySingleNaN.Bone. rewrite BinarySingleNaN.B2SF_SF2B. apply round_equiv. }
    rewrite E. apply BinarySingleNaN.valid_binary_B2SF.
  - apply add_valid; auto.
  - apply sub_valid; auto.
  - apply mul_valid; auto.
  - apply div_valid; auto.
  - eapply opp_valid; eauto.
Qed.
(** So, for example, no arithmetic on [i32] or [u8] vectors, matrices, quaternions has undefined behaviour, also when
    it overflows or divides by zero. *)
Theorem C107_no_undefined_behaviour : forall A (P : A -> Prop) r, sound P r -> r <> UB /\ (forall a, r = Ok a -> P a).
Proof. intros A P [a| | |] H; cbn in H; split; try discriminate; try contradiction; intros b E; inversion E; subst; exact H. Qed.
Example C107_inv_i32 : forall m, mat_of 3 3 (in_word true 32) m -> m_inv (checked_ops true 32) 3 m <> UB /\ q_div (checked_ops true 32) (Qt 1%Z 2%Z 3%Z 4%Z) (Qt 0%Z 0%Z 0%Z 0%Z) <> UB.
Proof.
  intros m H. destruct (@C107_machine_integers true 32 ltac:(cbn; lia)) as (K & _). split.
  - apply (@C107_no_undefined_behaviour _ _ _ (C107_m_inv K H)).
  - apply (@C107_no_undefined_behaviour _ (qt_of (in_word true 32))). apply C107_q_div; auto; repeat split; cbn; lia.
Qed.
(** A matrix of bytes; its determinant overflows and panics in a debug build, and wraps to a byte in a release build. *)
Example C107_bytes : mat_of 2 2 (in_word false 8) [[200; 3]; [7; 200]]%Z /\ m_det (checked_ops false 8) 2 [[200; 3]; [7; 200]]%Z = Panic /\
  exists d, m_det (wrapping_ops false 8) 2 [[200; 3]; [7; 200]]%Z = Ok d /\ in_word false 8 d.
Proof.
  split; [|split; [vm_compute; reflexivity|]].
  - repeat split; auto; repeat constructor; cbn; lia.
  - eexists. split; [vm_compute; reflexivity|]. cbv. split; discriminate.
Qed.
(** The conditions of the unsafe accessors are needed. *)
Example C107_unchecked : v_get_unchecked [1; 2; 3] 3 = UB /\ m_get_unchecked [[1; 2]; [3; 4]] 0 2 = UB.
Proof. split; reflexivity. Qed.
