(** C105: every operation evaluates one fixed expression of its scalars, whatever the laws of the scalar type.  The
    expressions (which operand first, how sums associate, what is multiplied and what divided) are written out here;
    so results are the same bit for bit wherever the scalar operations are. *)
From Coq Require Import ZArith SpecFloat Lia List.
From Verif Require Import SpecFacts VFacts VecProofs MFacts MatProofs AlgFacts SquareModel SpecDet DetFacts SqProofs
  ComplexModel MoebiusModel TransformModel Instances CxFacts FloatInst SpecMachine PropFloat PropOrder.
Import ListNotations.
Set Implicit Arguments.
Local Open Scope nat_scope.
Local Open Scope list_scope.

(* ------------------------------------------------------------------------- *)
(** * Specification                                                            *)

(** The scalar operations always return ([f32], [f64], wrapping integers except for division). *)
Definition total {T : Type} (o : Ops T) (add sub mul : T -> T -> T) (neg : T -> T) : Prop :=
  (forall x y, o_add o x y = Ok (add x y)) /\ (forall x y, o_sub o x y = Ok (sub x y)) /\
  (forall x y, o_mul o x y = Ok (mul x y)) /\ (forall x, o_neg o x = Ok (neg x)).
Definition total_div {T : Type} (o : Ops T) (div : T -> T -> T) : Prop := forall x y, o_div o x y = Ok (div x y).

Section Expr.
  Context {T : Type} (zero one : T) (add sub mul : T -> T -> T) (neg : T -> T).
  (** x1 + x2 + ... + xn = (..(x1 + x2) + ..) + xn, not starting from zero; no value for an empty list. *)
  Definition left_sum (l : list T) : res T := match l with [] => Panic | x :: t => Ok (fold_left add t x) end.
  Definition products (u v : list T) : list T := map (fun '(x, y) => mul x y) (combine u v).
  (** Expansion along the first row, from the left, starting from zero; the signs go to the minors. *)
  Fixpoint det_expr (n : nat) (A : nat -> nat -> T) : T :=
    match n with
    | O => one
    | S k => fold_left (fun a j => add a (mul (A 0 j) (let d := det_expr k (minor 0 j A) in if Nat.even j then d else neg d)))
               (seq 0 (S k)) zero
    end.
  Definition cofactor_expr (n : nat) (A : nat -> nat -> T) (i j : nat) : T :=
    let d := det_expr n (minor i j A) in if Nat.even (i + j) then d else neg d.
  (** The product of quaternions. *)
  Definition q_mul_expr (a b : quat T) : quat T :=
    let '(Qt w x y z) := a in let '(Qt w' x' y' z') := b in
    Qt (sub (sub (sub (mul w w') (mul x x')) (mul y y')) (mul z z'))
       (sub (add (add (mul w x') (mul x w')) (mul y z')) (mul z y'))
       (add (add (sub (mul w y') (mul x z')) (mul y w')) (mul z x'))
       (add (sub (add (mul w z') (mul x y')) (mul y x')) (mul z w')).
  Definition c_mul_expr (a b : complex T) : complex T :=
    Cx (sub (mul (re a) (re b)) (mul (im a) (im b))) (add (mul (re a) (im b)) (mul (im a) (re b))).
End Expr.

(* ------------------------------------------------------------------------- *)
(** * Theorems                                                                 *)

Section Eval.
  Context {T : Type} (o : Ops T) (add sub mul div : T -> T -> T) (neg : T -> T) (H : total o add sub mul neg).
  Local Notation left_sum := (left_sum add).
  Local Notation products := (products mul).
  Local Notation zero := (o_zero o).
  Local Notation one := (o_one o).
  Local Notation det_expr := (det_expr zero one add mul neg).
  Local Notation cofactor_expr := (cofactor_expr zero one add mul neg).

  Lemma fold_res_add : forall l x, fold_res (o_add o) x l = Ok (fold_left add l x).
  Proof. destruct H as (Ha & _). induction l as [|y l IH]; intros x; cbn [fold_res fold_left]; auto. rewrite Ha. cbn [bind]. apply IH. Qed.
  Theorem C105_sum : forall v, v_sum o v = left_sum v.
  Proof. intros [|x v]; [reflexivity|]. unfold v_sum. rewrite v_fold_first_cons. apply fold_res_add. Qed.

  Lemma map2_mul : forall u v, map2_res (o_mul o) u v = Ok (products u v).
  Proof.
    destruct H as (_ & _ & Hm & _). unfold products. induction u as [|x u IH]; intros [|y v]; cbn [map2_res combine map]; auto. rewrite Hm, IH. reflexivity.
  Qed.
  Theorem C105_dot : forall N u v, length u = N -> length v = N -> v_dot o N u v = left_sum (products u v).
  Proof. intros N u v Lu Lv. unfold v_dot. rewrite v_zip_map_res, map2_mul by auto. cbn [bind]. apply C105_sum. Qed.
  Lemma v_map_total : forall A B (f : A -> res B) g v, (forall x, f x = Ok (g x)) -> v_map f v = Ok (map g v).
  Proof. intros A B f g v E. rewrite <- v_map_pure, !v_map_res. induction v as [|x v IH]; cbn [map_res]; auto. rewrite E, IH. reflexivity. Qed.
  Theorem C105_square_length : forall v, v_square_length o v = left_sum (map (fun x => mul x x) v).
  Proof.
    intros v. unfold v_square_length. destruct H as (_ & _ & Hm & _). rewrite (v_map_total _ (fun x => mul x x)) by auto. cbn [bind]. apply C105_sum.
  Qed.
  Theorem C105_normalize : total_div o div -> forall sqrt v, v <> [] ->
    exists s, left_sum (map (fun x => mul x x) v) = Ok s /\ v_length o sqrt v = Ok (sqrt s) /\
      v_normalize o sqrt v = Ok (map (fun x => div x (sqrt s)) v).
  Proof.
    intros D sqrt v NE. destruct v as [|x v]; [congruence|]. eexists. split; [reflexivity|].
    assert (L : v_length o sqrt (x :: v) = Ok (sqrt (fold_left add (map (fun x => mul x x) v) (mul x x)))).
    { unfold v_length. rewrite C105_square_length. reflexivity. }
    split; [exact L|]. unfold v_normalize. rewrite L. cbn [bind]. unfold v_sdiv. apply v_map_total. intros. apply D.
  Qed.
  Theorem C105_cross : forall a1 a2 a3 b1 b2 b3,
    v_cross2 o [a1; a2] [b1; b2] = Ok (sub (mul a1 b2) (mul a2 b1)) /\
    v_cross3 o [a1; a2; a3] [b1; b2; b3] =
      Ok [sub (mul a2 b3) (mul a3 b2); sub (mul a3 b1) (mul a1 b3); sub (mul a1 b2) (mul a2 b1)].
  Proof.
    intros. destruct H as (_ & Hs & Hm & _). unfold v_cross2, v_cross3.
    change (v_x [a1; a2]) with (Ok a1). change (v_y [a1; a2]) with (Ok a2). change (v_x [b1; b2]) with (Ok b1). change (v_y [b1; b2]) with (Ok b2).
    change (v_x [a1; a2; a3]) with (Ok a1). change (v_y [a1; a2; a3]) with (Ok a2). change (v_z [a1; a2; a3]) with (Ok a3).
    change (v_x [b1; b2; b3]) with (Ok b1). change (v_y [b1; b2; b3]) with (Ok b2). change (v_z [b1; b2; b3]) with (Ok b3).
    unfold lift2. cbn [bind]. rewrite !Hm. cbn [bind]. rewrite !Hs. cbn [bind]. split; reflexivity.
  Qed.

  (** Matrices. *)
  Definition dotv (u v : list T) : T := match products u v with [] => zero | x :: t => fold_left add t x end.
  Lemma dotv_ok : forall M u v, 0 < M -> length u = M -> length v = M -> v_dot o M u v = Ok (dotv u v).
  Proof.
    intros M u v HM Lu Lv. rewrite C105_dot by auto. unfold dotv. destruct u as [|x u], v as [|y v]; cbn in Lu, Lv; try lia. reflexivity.
  Qed.
  Lemma dotv_vk : forall M f g, 0 < M -> left_sum (map (fun k => mul (f k) (g k)) (seq 0 M)) = Ok (dotv (vk M f) (vk M g)).
  Proof.
    intros M f g HM. unfold dotv, products. replace (map (fun '(x, y) => mul x y) (combine (vk M f) (vk M g))) with (map (fun k => mul (f k) (g k)) (seq 0 M)).
    - destruct M; [lia|]. reflexivity.
    - unfold vk. clear. generalize (seq 0 M) as l. induction l as [|a l IH]; cbn [map combine]; auto. rewrite IH. reflexivity.
  Qed.
  Theorem C105_product : forall L M N a b, rect L M a -> rect M N b -> 0 < M ->
    exists c, m_dot o L M N a b = Ok c /\ rect L N c /\ forall i j x, elt c i j = Some x ->
      Ok x = left_sum (map (fun k => mul (mget o a i k) (mget o b k j)) (seq 0 M)).
  Proof.
    intros L M N a b Ra Rb HM. asfun o. rewrite (@m_dot_d _ o (fun _ => dotv)) by (auto; intros; apply dotv_ok; auto).
    eexists. split; [reflexivity|]. split; [apply rect_mk|]. intros i j x E. rewrite elt_mk in E. destruct (i <? L) eqn:Hi; [|discriminate]. destruct (j <? N) eqn:Hj; [|discriminate]. apply Nat.ltb_lt in Hi, Hj. cbn [andb] in E. injection E as <-. rewrite <- dotv_vk by auto. f_equal. apply map_ext_in. intros k Hk. apply in_seq in Hk.
    rewrite !mget_mk by lia. reflexivity.
  Qed.
  Theorem C105_matrix_vector : forall M N a v, rect M N a -> length v = N -> 0 < N ->
    exists c, m_dot_v o M N a v = Ok c /\ length c = M /\ forall i x, nth_error c i = Some x ->
      Ok x = left_sum (map (fun k => mul (mget o a i k) (vget o v k)) (seq 0 N)).
  Proof.
    intros M N a v Ra Lv HM. asfun o. rewrite (@m_dot_v_d _ o (fun _ => dotv)) by (auto; intros; apply dotv_ok; auto).
    eexists. split; [reflexivity|]. split; [apply vk_length|]. intros i x E. rewrite nth_error_vk in E. destruct (i <? M) eqn:Hi; [|discriminate]. apply Nat.ltb_lt in Hi. injection E as <-. rewrite <- dotv_vk by auto. f_equal. apply map_ext_in. intros k Hk. apply in_seq in Hk.
    rewrite mget_mk, vget_vk by lia. reflexivity.
  Qed.
  Theorem C105_vector_matrix : forall M N v a, length v = M -> rect M N a -> 0 < M ->
    exists c, v_dot_m o M N v a = Ok c /\ length c = N /\ forall j x, nth_error c j = Some x ->
      Ok x = left_sum (map (fun k => mul (vget o v k) (mget o a k j)) (seq 0 M)).
  Proof.
    intros M N v a Lv Ra HM. asfun o. rewrite (@v_dot_m_d _ o (fun _ => dotv)) by (auto; intros; apply dotv_ok; auto).
    eexists. split; [reflexivity|]. split; [apply vk_length|]. intros i x E. rewrite nth_error_vk in E. destruct (i <? N) eqn:Hi; [|discriminate]. apply Nat.ltb_lt in Hi. injection E as <-. rewrite <- dotv_vk by auto. f_equal. apply map_ext_in. intros k Hk. apply in_seq in Hk.
    rewrite mget_mk, vget_vk by lia. reflexivity.
  Qed.
  Theorem C105_matrix_sum : forall M N m, rect M N m -> 0 < N -> m_sum o m = left_sum (concat m).
  Proof.
    intros M N m R HN. unfold m_sum. rewrite (m_fold_first_flat _ R HN). apply C105_sum.
  Qed.
  (** The matrix part first, then the shift on the right of the sum. *)
  Theorem C105_affine : forall N s m x, length s = N -> rect N N m -> length x = N -> 0 < N ->
    exists y, t_apply (affine_transform o N) (s, m) x = Ok y /\ length y = N /\ forall i z, nth_error y i = Some z ->
      exists d, left_sum (map (fun k => mul (mget o m i k) (vget o x k)) (seq 0 N)) = Ok d /\ z = add d (vget o s i).
  Proof.
    intros N s m x Ls Rm Lx HN. destruct (@C105_matrix_vector N N m x Rm Lx HN) as (c & E & Lc & Hc).
    change (t_apply (affine_transform o N) (s, m) x) with (let! y := m_dot_v o N N m x in v_add o N y s). rewrite E. cbn [bind].
    unfold v_add. rewrite v_zip_map_res by auto. destruct H as (Ha & _).
    assert (G : forall u v, map2_res (o_add o) u v = Ok (map (fun '(x, y) => add x y) (combine u v))).
    { induction u as [|a u IH]; intros [|b v]; cbn [map2_res combine map]; auto. rewrite Ha, IH. reflexivity. }
    rewrite G. eexists. split; [reflexivity|]. split. { rewrite map_length, combine_length. lia. }
    intros i z Ez. assert (Hi : i < N). { assert (X : nth_error (map (fun '(x, y) => add x y) (combine c s)) i <> None) by congruence. apply nth_error_Some in X. rewrite map_length, combine_length in X. lia. }
    destruct (nth_error c i) as [d|] eqn:Ed; [|apply nth_error_None in Ed; lia].
    exists d. split; [symmetry; apply Hc; auto|]. destruct (nth_error s i) as [t|] eqn:Et; [|apply nth_error_None in Et; lia].
    assert (V : vget o s i = t) by (apply (nth_error_nth s i zero Et)). rewrite V.
    assert (Q : nth_error (combine c s) i = Some (d, t)).
    { clear -Ed Et. revert s i Ed Et. induction c as [|a c IH]; intros [|b s] [|i] Ed Et; cbn in *; try discriminate; [congruence|auto]. }
    rewrite (map_nth_error _ _ _ Q) in Ez. congruence.
  Qed.

  (** Determinant, cofactors, inverse. *)
  Lemma rneg_t : forall k c, rneg o k c = Ok (if Nat.even k then c else neg c).
  Proof.
    destruct H as (_ & _ & _ & Hn). intros. unfold rneg. rewrite <- Nat.bit0_mod, Nat.bit0_odd, <- Nat.negb_even. destruct (Nat.even k); cbn; auto.
  Qed.
  Lemma det_expr_ext : forall n A B, (forall i j, i < n -> j < n -> A i j = B i j) -> det_expr n A = det_expr n B.
  Proof.
    induction n as [|n IH]; intros A B E; auto. cbn [PropEval.det_expr].
    assert (G : forall l a, (forall k, In k l -> k < S n) ->
      fold_left (fun a j => add a (mul (A 0 j) (let d := det_expr n (minor 0 j A) in if Nat.even j then d else neg d))) l a =
      fold_left (fun a j => add a (mul (B 0 j) (let d := det_expr n (minor 0 j B) in if Nat.even j then d else neg d))) l a).
    { induction l as [|k l IHl]; intros a Hl; auto. cbn [fold_left]. assert (Hk : k < S n) by (apply Hl; left; auto). rewrite (E 0 k) by lia.
      rewrite (IH (minor 0 k A) (minor 0 k B)). { apply IHl. intros; apply Hl; right; auto. }
      intros i j Hi Hj. unfold minor. apply E. { cbn. lia. } unfold skip. destruct (j <? k); lia. }
    apply G. intros k Hk. apply in_seq in Hk. lia.
  Qed.
  Lemma in_remove_at : forall k (l : list nat) x, In x (remove_at k l) -> In x l.
  Proof.
    intros k l x. revert k. induction l as [|a l IH]; intros [|k] Hi; cbn in *; auto. destruct Hi as [Hi|Hi]; auto. right. eapply IH; eauto.
  Qed.
  Lemma rdet_expr : forall N m, rect N N m -> forall rows cols, length rows = length cols ->
    (forall x, In x rows -> x < N) -> (forall x, In x cols -> x < N) ->
    rdet o m rows cols = Ok (det_expr (length rows) (fun i j => mget o m (nth i rows 0) (nth j cols 0))).
  Proof.
    intros N m Rm. induction rows as [|i rows IH]; intros cols L Hr Hc; auto. cbn [rdet length PropEval.det_expr].
    assert (G : forall l a, (forall k, In k l -> k < length cols) ->
      fold_res (fun a k =>
          let! x := m_index m (i, nth k cols 0) in
          let! c := rdet o m rows (remove_at k cols) in
          let! c1 := rneg o k c in
          let! p := o_mul o x c1 in
          o_add o a p) a l =
      Ok (fold_left (fun a j => add a (mul (mget o m (nth 0 (i :: rows) 0) (nth j cols 0))
           (let d := det_expr (length rows) (minor 0 j (fun i0 j0 => mget o m (nth i0 (i :: rows) 0) (nth j0 cols 0))) in if Nat.even j then d else neg d))) l a)).
    { induction l as [|k l IHl]; intros a Hl; auto. cbn [fold_res fold_left].
      assert (Hk : k < length cols) by (apply Hl; left; auto).
      assert (Hn : nth k cols 0 < N) by (apply Hc; apply nth_In; auto).
      destruct (m_index_spec i (nth k cols 0) Rm) as (X & _).
      destruct X as (x & El & Ex & _); [split; [apply Hr; left; auto|auto]|].
      rewrite Ex. cbn [bind]. rewrite IH.
      - cbn [bind]. rewrite rneg_t. cbn [bind]. destruct H as (Ha & _ & Hm & _). rewrite Hm. cbn [bind]. rewrite Ha. cbn [bind].
        rewrite IHl by (intros; apply Hl; right; auto). do 2 f_equal. cbn [nth]. rewrite (mget_elt o _ _ _ El). do 2 f_equal. cbv zeta.
        rewrite (@det_expr_ext (length rows) (fun i0 j => mget o m (nth i0 rows 0) (nth j (remove_at k cols) 0))
                  (minor 0 k (fun i0 j0 => mget o m (nth i0 (i :: rows) 0) (nth j0 cols 0)))); auto.
        intros p q Hp Hq. unfold minor. rewrite nth_remove_at. reflexivity.
      - rewrite remove_at_length by lia. simpl in L. lia.
      - intros y Hy. apply Hr. right. auto.
      - intros y Hy. apply Hc. eapply in_remove_at; eauto. }
    rewrite G by (intros k Hk; apply in_seq in Hk; lia). simpl in L. rewrite <- L. reflexivity.
  Qed.
  Theorem C105_det : forall N m, rect N N m -> m_det o N m = Ok (det_expr N (mget o m)).
  Proof.
    intros N m Rm. rewrite m_det_spec, (rdet_expr Rm) by (auto; intros x Hx; apply in_seq in Hx; lia). rewrite seq_length. f_equal.
    apply det_expr_ext. intros i j Hi Hj. rewrite !seq_nth by auto. reflexivity.
  Qed.
  Theorem C105_cofactor : forall N m i j, rect (S N) (S N) m -> i < S N -> j < S N ->
    m_cofactor o (S N) m i j = Ok (cofactor_expr N (mget o m) i j).
  Proof.
    intros N m i j Rm Hi Hj. rewrite m_cofactor_spec by auto.
    assert (B : forall k x, k < S N -> In x (remove_at k (seq 0 (S N))) -> x < S N).
    { intros k x Hk Hx. apply in_remove_at in Hx. apply in_seq in Hx. lia. }
    assert (LR : forall k, k < S N -> length (remove_at k (seq 0 (S N))) = N).
    { intros k Hk. rewrite remove_at_length by (rewrite seq_length; auto). rewrite seq_length. lia. }
    rewrite (rdet_expr Rm).
    - cbn [bind]. rewrite rneg_t. unfold cofactor_expr. rewrite LR by auto. cbv zeta.
      rewrite (@det_expr_ext N _ (minor i j (mget o m))); auto. intros a b Ha Hb. unfold minor. rewrite !nth_remove_at.
      rewrite !seq_nth by (unfold skip; destruct (_ <? _); lia). reflexivity.
    - rewrite !LR; auto.
    - intros x. apply B; auto.
    - intros x. apply B; auto.
  Qed.
  Theorem C105_inverse : total_div o div -> forall N m, rect (S N) (S N) m ->
    exists r, m_inv o (S N) m = Ok r /\ rect (S N) (S N) r /\ forall i j x, elt r i j = Some x ->
      x = div (cofactor_expr N (mget o m) j i) (det_expr (S N) (mget o m)).
  Proof.
    intros D N m Rm. unfold m_inv, m_adj. rewrite m_indices_mk. cbn [bind].
    rewrite (@m_map_mk _ _ _ (fun i j => cofactor_expr N (mget o m) j i) (S N) (S N) (fun i j => (i, j))) by (intros; apply C105_cofactor; auto).
    cbn [bind]. rewrite (C105_det Rm). cbn [bind]. unfold m_sdiv.
    rewrite (@m_map_mk _ _ _ (fun i j => div (cofactor_expr N (mget o m) j i) (det_expr (S N) (mget o m))) (S N) (S N) (fun i j => cofactor_expr N (mget o m) j i)) by (intros; apply D).
    eexists. split; [reflexivity|]. split; [apply rect_mk|]. intros i j x E. rewrite elt_mk in E. destruct ((i <? S N) && (j <? S N))%bool; congruence.
  Qed.

  (** Complex numbers, quaternions, rotations, Moebius transformations. *)
  Local Notation c_mul_expr := (c_mul_expr add sub mul).
  Local Notation q_mul_expr := (q_mul_expr add sub mul).
  Theorem C105_complex : forall a b, c_mul o a b = Ok (c_mul_expr a b) /\
    c_norm_sqr o a = Ok (add (mul (re a) (re a)) (mul (im a) (im a))) /\
    c_dot o a b = Ok (add (mul (re a) (re b)) (mul (im a) (im b))) /\
    (total_div o div -> 
       let n := add (mul (re b) (re b)) (mul (im b) (im b)) in
       let i := Cx (div (re b) n) (div (neg (im b)) n) in
       c_inv o b = Ok i /\ c_div o a b = Ok (c_mul_expr a i)).
  Proof.
    assert (M : forall a b, c_mul o a b = Ok (c_mul_expr a b)).
    { intros [a1 a2] [b1 b2]. destruct H as (Ha & Hs & Hm & _). unfold c_mul. change (c_re (Cx a1 a2)) with (Ok a1). change (c_im (Cx a1 a2)) with (Ok a2).
      change (c_re (Cx b1 b2)) with (Ok b1). change (c_im (Cx b1 b2)) with (Ok b2). unfold lift2. cbn [bind]. rewrite !Hm. cbn [bind]. rewrite Hs, Ha. reflexivity. }
    assert (Q : forall b, c_norm_sqr o b = Ok (add (mul (re b) (re b)) (mul (im b) (im b)))).
    { intros [b1 b2]. unfold c_norm_sqr. rewrite C105_square_length. reflexivity. }
    intros a b. split; [apply M|]. split; [apply Q|]. split.
    { destruct a as [a1 a2], b as [b1 b2]. unfold c_dot. rewrite C105_dot by reflexivity. reflexivity. }
    intros D n i. assert (I : c_inv o b = Ok i).
    { unfold c_inv. destruct b as [b1 b2]. destruct H as (_ & _ & _ & Hn). unfold c_conj. change (c_into_tuple (Cx b1 b2)) with (Ok (b1, b2)). cbn [bind]. rewrite Hn. cbn [bind].
      change (c_new b1 (neg b2)) with (Ok (Cx b1 (neg b2))). cbn [bind]. rewrite Q. cbn [bind]. unfold c_div_s, v_sdiv. rewrite (v_map_total _ (fun x => div x n)) by (intros; apply D). reflexivity. }
    split; [exact I|]. unfold c_div. rewrite I. cbn [bind]. apply M.
  Qed.
  Theorem C105_quaternion : forall a b, q_mul o a b = Ok (q_mul_expr a b) /\
    q_norm_sqr o a = left_sum [mul (qw a) (qw a); mul (qx a) (qx a); mul (qy a) (qy a); mul (qz a) (qz a)] /\
    q_dot o a b = left_sum [mul (qw a) (qw b); mul (qx a) (qx b); mul (qy a) (qy b); mul (qz a) (qz b)] /\
    (total_div o div -> forall n, q_norm_sqr o b = Ok n ->
       let i := Qt (div (qw b) n) (div (neg (qx b)) n) (div (neg (qy b)) n) (div (neg (qz b)) n) in
       q_inv o b = Ok i /\ q_div o a b = Ok (q_mul_expr a i)).
  Proof.
    assert (M : forall a b, q_mul o a b = Ok (q_mul_expr a b)).
    { intros [a1 a2 a3 a4] [b1 b2 b3 b4]. destruct H as (Ha & Hs & Hm & _). unfold q_mul.
      change (q_w (Qt a1 a2 a3 a4)) with (Ok a1). change (q_x (Qt a1 a2 a3 a4)) with (Ok a2). change (q_y (Qt a1 a2 a3 a4)) with (Ok a3). change (q_z (Qt a1 a2 a3 a4)) with (Ok a4).
      change (q_w (Qt b1 b2 b3 b4)) with (Ok b1). change (q_x (Qt b1 b2 b3 b4)) with (Ok b2). change (q_y (Qt b1 b2 b3 b4)) with (Ok b3). change (q_z (Qt b1 b2 b3 b4)) with (Ok b4).
      unfold lift2. cbn [bind]. repeat (rewrite ?Hm, ?Hs, ?Ha; cbn [bind]). reflexivity. }
    intros a b. split; [apply M|]. split; [|split].
    { destruct a as [a1 a2 a3 a4]. unfold q_norm_sqr. rewrite C105_square_length. reflexivity. }
    { destruct a as [a1 a2 a3 a4], b as [b1 b2 b3 b4]. unfold q_dot. rewrite C105_dot by reflexivity. reflexivity. }
    intros D n En i. assert (I : q_inv o b = Ok i).
    { unfold q_inv. destruct b as [b1 b2 b3 b4]. assert (C : q_conj o (Qt b1 b2 b3 b4) = Ok (Qt b1 (neg b2) (neg b3) (neg b4))).
      { destruct H as (_ & _ & _ & Hn). unfold q_conj. change (q_into_tuple (Qt b1 b2 b3 b4)) with (Ok (b1, b2, b3, b4)). cbn [bind]. rewrite !Hn. reflexivity. }
      rewrite C. cbn [bind]. rewrite En. cbn [bind]. unfold q_div_s, v_sdiv. rewrite (v_map_total _ (fun x => div x n)) by (intros; apply D). reflexivity. }
    split; [exact I|]. unfold q_div. rewrite I. cbn [bind]. apply M.
  Qed.
  Theorem C105_rotations : forall z q x y w,
    t_apply (rot2_transform o) z [x; y] = Ok [sub (mul x (re z)) (mul y (im z)); add (mul x (im z)) (mul y (re z))] /\
    (let r := q_mul_expr (q_mul_expr q (Qt zero x y w)) (Qt (qw q) (neg (qx q)) (neg (qy q)) (neg (qz q))) in
     t_apply (rot3_transform o) q [x; y; w] = Ok [qx r; qy r; qz r]).
  Proof.
    intros z q x y w. split.
    - cbn [t_apply rot2_transform]. unfold rot2_apply. change (c_from_vector [x; y]) with (Ok (Cx x y)). cbn [bind].
      destruct (C105_complex (Cx x y) z) as (E & _). rewrite E. reflexivity.
    - intros r. cbn [t_apply rot3_transform]. unfold rot3_apply. change (q_from_scalar_and_vector3 zero [x; y; w]) with (Ok (Qt zero x y w)). cbn [bind].
      destruct (C105_quaternion q (Qt zero x y w)) as (E & _). rewrite E. unfold lift2. cbn [bind].
      assert (C : q_conj o q = Ok (Qt (qw q) (neg (qx q)) (neg (qy q)) (neg (qz q)))).
      { destruct q as [b1 b2 b3 b4]. destruct H as (_ & _ & _ & Hn). unfold q_conj. change (q_into_tuple (Qt b1 b2 b3 b4)) with (Ok (b1, b2, b3, b4)). cbn [bind]. rewrite !Hn. reflexivity. }
      rewrite C. cbn [bind]. destruct (C105_quaternion (q_mul_expr q (Qt zero x y w)) (Qt (qw q) (neg (qx q)) (neg (qy q)) (neg (qz q)))) as (E2 & _). rewrite E2. cbn [bind].
      fold r. destruct r as [r1 r2 r3 r4]. reflexivity.
  Qed.
  Theorem C105_moebius : total_div o div -> forall a b c d x,
    mo_apply_self o [[a; b]; [c; d]] x = Ok (div (add (mul a x) b) (add (mul c x) d)).
  Proof.
    intros D a b c d x. destruct H as (Ha & _ & Hm & _). unfold mo_apply_self, mo_apply.
    change (mo_a [[a; b]; [c; d]]) with (Ok a). change (mo_b [[a; b]; [c; d]]) with (Ok b). change (mo_c [[a; b]; [c; d]]) with (Ok c). change (mo_d [[a; b]; [c; d]]) with (Ok d).
    cbn [bind]. rewrite !Hm. cbn [bind]. rewrite !Ha. cbn [bind]. apply D.
  Qed.
End Eval.

(* ------------------------------------------------------------------------- *)
(** * Cost of the determinant                                                  *)

(** Scalars that count: each value is the number of multiplications that went into it. *)
Definition counting : Ops nat :=
  {| o_zero := 0; o_one := 0; o_add := ok2 Nat.add; o_sub := ok2 Nat.add; o_mul := ok2 (fun x y => x + y + 1); o_div := ok2 Nat.add; o_rem := ok2 Nat.add;
     o_neg := ok1 (fun x => x); o_is_zero := fun x => x =? 0; o_eq := Nat.eqb; o_lt := Nat.ltb; o_le := Nat.leb |}.
(** 1, 4, 15, 64, 325, ... *)
Fixpoint det_multiplications (n : nat) : nat := match n with O => 0 | S k => S k * S (det_multiplications k) end.
Theorem C105_det_cost : forall N m, rect N N m -> (forall i j x, elt m i j = Some x -> x = 0) ->
  m_det counting N m = Ok (det_multiplications N) /\ (0 < N -> fact N <= det_multiplications N).
Proof.
  intros N m Rm Z. split.
  - rewrite (@C105_det _ counting Nat.add Nat.add (fun x y => x + y + 1) (fun x => x)) by (auto; repeat split). f_equal.
    assert (G : forall n A, (forall i j, i < n -> j < n -> A i j = 0) ->
      det_expr (o_zero counting) (o_one counting) Nat.add (fun x y => x + y + 1) (fun x => x) n A = det_multiplications n).
    { induction n as [|n IH]; intros A HA; auto. cbn [det_expr det_multiplications].
      assert (F : forall l a, (forall k, In k l -> k < S n) ->
        fold_left (fun a j => a + (A 0 j + (let d := det_expr (o_zero counting) (o_one counting) Nat.add (fun x y => x + y + 1) (fun x => x) n (minor 0 j A) in if Nat.even j then d else d) + 1)) l a =
        a + length l * S (det_multiplications n)).
      { induction l as [|k l IHl]; intros a Hl; [cbn; lia|]. cbn [fold_left]. rewrite IHl by (intros; apply Hl; right; auto). assert (Hk : k < S n) by (apply Hl; left; auto).
        rewrite (HA 0 k) by lia. rewrite (IH (minor 0 k A)). { cbn [length]. destruct (Nat.even k); cbv zeta; lia. }
        intros i j Hi Hj. unfold minor. apply HA. { cbn. lia. } unfold skip. destruct (j <? k); lia. }
      rewrite F by (intros k Hk; apply in_seq in Hk; lia). rewrite seq_length. reflexivity. }
    apply G. intros i j Hi Hj. destruct (MFacts.elt_lt Rm Hi Hj) as (x & E). rewrite (mget_elt counting _ _ _ E). eapply Z; eauto.
  - intros HN. clear -HN. induction N as [|n IH]; [lia|]. cbn [fact det_multiplications]. destruct n; [cbn; lia|]. specialize (IH ltac:(lia)).
    change (fact (S n) + S n * fact (S n)) with (S (S n) * fact (S n)). apply Nat.mul_le_mono_l. lia.
Qed.

(* ------------------------------------------------------------------------- *)
(** * The hypotheses are met, and the order matters                            *)

Example C105_float_total : forall prec emax rem,
  total (sf_ops prec emax rem) (SFadd prec emax) (SFsub prec emax) (SFmul prec emax) SFopp /\ total_div (sf_ops prec emax rem) (SFdiv prec emax).
Proof. repeat split. Qed.
Example C105_wrapping_total : forall signed w, exists add sub mul neg, total (wrapping_ops signed w) add sub mul neg.
Proof. intros. do 4 eexists. repeat split; reflexivity. Qed.
(** Summed from the right, or from zero, the same f64 values give another result: the order in the theorems is content. *)
Theorem C105_order_matters : exists x y z : spec_float,
  left_sum (SFadd 53 1024) [x; y; z] <> Ok (SFadd 53 1024 x (SFadd 53 1024 y z)) /\
  left_sum (SFadd 53 1024) [S754_zero true] <> Ok (SFadd 53 1024 (S754_zero false) (S754_zero true)).
Proof.
  exists (SFopp one64), one64, (S754_finite false (2 ^ 52) (-152)). split.
  - intros E. apply Ok_inj in E. revert E. vm_compute. discriminate.
  - intros E. apply Ok_inj in E. revert E. vm_compute. discriminate.
Qed.
(** The 2 by 2 determinant, written out. *)
Example C105_det2 : forall T (o : Ops T) add sub mul neg, total o add sub mul neg -> forall a b c d,
  let z := o_zero o in let e := o_one o in
  m_det o 2 [[a; b]; [c; d]] = Ok (add (add z (mul a (add z (mul d e)))) (mul b (neg (add z (mul c e))))).
Proof.
  intros T o add sub mul neg H a b c d. rewrite (C105_det H). { reflexivity. } repeat constructor.
Qed.

Print Assumptions C105_sum.
Print Assumptions C105_dot.
Print Assumptions C105_square_length.
Print Assumptions C105_normalize.
Print Assumptions C105_cross.
Print Assumptions C105_product.
Print Assumptions C105_matrix_vector.
Print Assumptions C105_vector_matrix.
Print Assumptions C105_matrix_sum.
Print Assumptions C105_affine.
Print Assumptions C105_det.
Print Assumptions C105_cofactor.
Print Assumptions C105_inverse.
Print Assumptions C105_complex.
Print Assumptions C105_quaternion.
Print Assumptions C105_rotations.
Print Assumptions C105_moebius.
Print Assumptions C105_det_cost.
Print Assumptions C105_order_matters.
