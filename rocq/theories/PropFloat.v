(** Property C73: which laws survive in IEEE-754 arithmetic (bit for bit, including NaN, infinities and signed
    zeros), for every precision and exponent range; C64 for floats: the look-at recursion stops. *)
From Coq Require Import ZArith SpecFloat Lia.
From Verif Require Import SpecFacts VFacts VecProofs MFacts MatProofs AlgFacts ComplexModel TransformModel FloatInst PropVector PropMatrix PropOrder.
Set Implicit Arguments.
Local Open Scope nat_scope.
Local Open Scope list_scope.

(* ------------------------------------------------------------------------- *)
(** * Any scalar type whose product (sum) commutes                             *)

Lemma map2_res_flip : forall A B C (f : A -> B -> res C) (g : B -> A -> res C) u v,
  (forall x y, f x y = g y x) -> map2_res f u v = map2_res g v u.
Proof. intros A B C f g u. induction u as [|x u IH]; intros [|y v] H; cbn [map2_res]; auto. rewrite H, IH by auto. reflexivity. Qed.
Lemma v_zip_map_flip : forall A B C N (f : A -> B -> res C) (g : B -> A -> res C) u v, length u = N -> length v = N ->
  (forall x y, f x y = g y x) -> v_zip_map N f u v = v_zip_map N g v u.
Proof. intros. rewrite !v_zip_map_res by auto. apply map2_res_flip. auto. Qed.
Lemma m_zip_map_flip : forall A B C M N (f : A -> B -> res C) (g : B -> A -> res C) a b, rect M N a -> rect M N b ->
  (forall x y, f x y = g y x) -> m_zip_map M N f a b = m_zip_map M N g b a.
Proof.
  intros A B C M N f g a b Ra Rb H. apply in_order2_unique with (M := M) (N := N) (step := at2m f a b).
  - apply m_zip_map_in_order; auto.
  - pose proof (@m_zip_map_in_order _ _ _ g M N b a Rb Ra) as X.
    assert (E : forall i j, at2m f a b i j = at2m g b a i j).
    { intros i j. unfold at2m. destruct (elt a i j), (elt b i j); auto. }
    destruct X as [(m & E1 & R1 & X)|(i & j & Hi & Hj & X & Y)].
    + left. exists m. split; auto. split; auto. intros i j Hi Hj. rewrite E. apply X; auto.
    + right. exists i, j. rewrite E. split; auto. split; auto. split; auto. intros. rewrite E. apply X; auto.
Qed.

Lemma v_dot_comm : forall T (o : Ops T) N u v, (forall x y, o_mul o x y = o_mul o y x) -> length u = N -> length v = N ->
  v_dot o N u v = v_dot o N v u.
Proof. intros. unfold v_dot. rewrite (@v_zip_map_flip _ _ _ N (o_mul o) (o_mul o) u v) by auto. reflexivity. Qed.

(** Products of matrices in terms of a dot product that always returns. *)
Section Dot.
  Context {T : Type} (o : Ops T) (d : nat -> list T -> list T -> T)
    (D : forall N u v, length u = N -> length v = N -> 0 < N -> v_dot o N u v = Ok (d N u v)).
  Lemma m_dot_d : forall L M N f g, 0 < M -> m_dot o L M N (mk L M f) (mk M N g) =
    Ok (mk L N (fun i j => d M (vk M (f i)) (vk M (fun k => g k j)))).
  Proof.
    intros. unfold m_dot. rewrite m_indices_mk. cbn [bind]. apply m_map_mk. intros i j Hi Hj.
    rewrite m_row_mk by auto. cbn [bind]. rewrite m_col_mk by auto. cbn [bind]. apply D; auto using vk_length.
  Qed.
  Lemma m_dot_v_d : forall M N f g, 0 < N -> m_dot_v o M N (mk M N f) (vk N g) = Ok (vk M (fun i => d N (vk N (f i)) (vk N g))).
  Proof.
    intros. unfold m_dot_v. rewrite v_indices_seq. cbn [bind]. rewrite <- vk_seq. apply v_map_vk.
    intros i Hi. rewrite m_row_mk by auto. cbn [bind]. apply D; auto using vk_length.
  Qed.
  Lemma v_dot_m_d : forall M N f g, 0 < M -> v_dot_m o M N (vk M f) (mk M N g) = Ok (vk N (fun j => d M (vk M f) (vk M (fun k => g k j)))).
  Proof.
    intros. unfold v_dot_m. rewrite v_indices_seq. cbn [bind]. rewrite <- vk_seq. apply v_map_vk.
    intros j Hj. rewrite m_col_mk by auto. cbn [bind]. apply D; auto using vk_length.
  Qed.
End Dot.

(* ------------------------------------------------------------------------- *)
(** * C73                                                                      *)

Section IEEE.
  Context (prec emax : Z) (rem : spec_float -> spec_float -> spec_float).
  Local Notation fo := (sf_ops prec emax rem).

  Lemma f_add_comm : forall x y, o_add fo x y = o_add fo y x.
  Proof. intros. cbn. unfold ok2. rewrite SFadd_comm. reflexivity. Qed.
  Lemma f_mul_comm : forall x y, o_mul fo x y = o_mul fo y x.
  Proof. intros. cbn. unfold ok2. rewrite SFmul_comm. reflexivity. Qed.

  Theorem C73_vector : forall N u v, length u = N -> length v = N ->
    v_add fo N u v = v_add fo N v u /\ v_mul fo N u v = v_mul fo N v u /\
    (let! n := v_neg fo v in v_neg fo n) = Ok v /\ (let! n := v_neg fo v in v_add fo N u n) = v_sub fo N u v.
  Proof.
    intros N u v Hu Hv. split; [|split; [|split]].
    - apply v_zip_map_flip; auto using f_add_comm.
    - apply v_zip_map_flip; auto using f_mul_comm.
    - unfold v_neg. change (o_neg fo) with (ok1 SFopp). rewrite v_map_pure. cbn [bind]. rewrite v_map_pure. f_equal.
      rewrite map_map. erewrite map_ext; [apply map_id|]. apply SFopp_opp.
    - unfold v_neg. change (o_neg fo) with (ok1 SFopp). rewrite v_map_pure. cbn [bind]. unfold v_add, v_sub.
      rewrite !v_zip_map_res by (rewrite ?map_length; auto). clear Hu Hv. revert v. induction u as [|x u IH]; intros [|y v]; cbn [map map2_res]; auto.
      rewrite <- IH. cbn. unfold ok2. rewrite SFsub_opp. reflexivity.
  Qed.
  Theorem C73_matrix : forall M N a b, rect M N a -> rect M N b ->
    m_add fo M N a b = m_add fo M N b a /\ m_mul fo M N a b = m_mul fo M N b a /\ (let! n := m_neg fo a in m_neg fo n) = Ok a.
  Proof.
    intros M N a b Ra Rb. split; [|split].
    - apply m_zip_map_flip; auto using f_add_comm.
    - apply m_zip_map_flip; auto using f_mul_comm.
    - unfold m_neg. change (o_neg fo) with (ok1 SFopp). rewrite m_map_pure. cbn [bind]. rewrite m_map_pure. f_equal.
      rewrite map_map. erewrite map_ext; [apply map_id|]. intros. rewrite map_map. erewrite map_ext; [apply map_id|]. apply SFopp_opp.
  Qed.
  (** Dot products, also of negated vectors. *)
  Theorem C73_dot : forall N u v, length u = N -> length v = N ->
    v_dot fo N u v = v_dot fo N v u /\ (let! x := v_neg fo u in let! y := v_neg fo v in v_dot fo N x y) = v_dot fo N u v.
  Proof.
    intros N u v Hu Hv. split. { apply v_dot_comm; auto using f_mul_comm. }
    unfold v_neg. change (o_neg fo) with (ok1 SFopp). rewrite !v_map_pure. cbn [bind]. unfold v_dot. f_equal.
    rewrite !v_zip_map_res by (rewrite ?map_length; auto). clear Hu Hv. revert v. induction u as [|x u IH]; intros [|y v]; cbn [map map2_res]; auto.
    rewrite IH. cbn. unfold ok2. rewrite SFmul_opp. reflexivity.
  Qed.

  (* every dot product of non-empty vectors returns *)
  Definition fdot (N : nat) (u v : list spec_float) : spec_float := match v_dot fo N u v with Ok x => x | _ => S754_nan end.
  Lemma fdot_ok : forall N u v, length u = N -> length v = N -> 0 < N -> v_dot fo N u v = Ok (fdot N u v).
  Proof.
    intros N u v Hu Hv HN. unfold fdot, v_dot. change (o_mul fo) with (ok2 (SFmul prec emax)). rewrite v_zip_map_pure by auto. cbn [bind].
    destruct (map2 (SFmul prec emax) u v) as [|x t] eqn:E. { apply (f_equal (@length _)) in E. rewrite (@map2_length' _ _ _ _ N) in E by auto. cbn in E. lia. }
    unfold v_sum. rewrite v_fold_first_cons. change (o_add fo) with (ok2 (SFadd prec emax)). rewrite fold_res_ok2. reflexivity.
  Qed.
  Lemma fdot_comm : forall N u v, length u = N -> length v = N -> fdot N u v = fdot N v u.
  Proof. intros. unfold fdot. destruct (@C73_dot N u v) as (-> & _); auto. Qed.

  Theorem C73_transpose_product : forall L M N a b, rect L M a -> rect M N b -> 0 < M ->
    (let! ab := m_dot fo L M N a b in m_transpose L N ab) = (let! bt := m_transpose M N b in let! at_ := m_transpose L M a in m_dot fo N M L bt at_) /\
    returns (m_dot fo L M N a b).
  Proof.
    intros L M N a b Ra Rb H. asfun (sf_ops prec emax rem). rewrite (m_dot_d fo fdot fdot_ok) by auto. cbn [bind]. rewrite !m_transpose_mk. cbn [bind].
    rewrite (m_dot_d fo fdot fdot_ok) by auto. split; [|eexists; reflexivity]. f_equal. apply mk_ext. intros. apply fdot_comm; auto using vk_length.
  Qed.
  Theorem C73_row_vector : forall M N a v, rect M N a -> length v = M -> 0 < M ->
    v_dot_m fo M N v a = (let! t := m_transpose M N a in m_dot_v fo N M t v) /\ returns (v_dot_m fo M N v a).
  Proof.
    intros M N a v Ra Hv H. asfun (sf_ops prec emax rem). rewrite m_transpose_mk. cbn [bind]. rewrite (v_dot_m_d fo fdot fdot_ok), (m_dot_v_d fo fdot fdot_ok) by auto.
    split; [|eexists; reflexivity]. f_equal. apply vk_ext. intros. apply fdot_comm; auto using vk_length.
  Qed.

  Theorem C73_complex : forall a b,
    c_add fo a b = c_add fo b a /\ c_mul fo a b = c_mul fo b a /\
    (let! n := c_neg fo a in c_neg fo n) = Ok a /\ (let! n := c_conj fo a in c_conj fo n) = Ok a /\
    (let! n := c_conj fo a in c_norm_sqr fo n) = c_norm_sqr fo a.
  Proof.
    intros [a b] [c d]. split; [|split; [|split; [|split]]].
    - unfold c_add, c_into_vector. cbn [re im]. rewrite (proj1 (@C73_vector 2 [a; b] [c; d] eq_refl eq_refl)). reflexivity.
    - unfold c_mul. cbn. unfold lift2, ok2. cbn [bind]. rewrite (SFmul_comm _ _ a c), (SFmul_comm _ _ b d), (SFmul_comm _ _ a d), (SFmul_comm _ _ b c), (SFadd_comm _ _ (SFmul _ _ d a)).
      reflexivity.
    - cbn. rewrite !SFopp_opp. reflexivity.
    - cbn. rewrite SFopp_opp. reflexivity.
    - unfold c_conj, c_norm_sqr, v_square_length. cbn. unfold ok2. cbn. rewrite SFmul_opp. reflexivity.
  Qed.
  Theorem C73_quaternion : forall a b,
    q_add fo a b = q_add fo b a /\ (let! n := q_neg fo a in q_neg fo n) = Ok a /\ (let! n := q_conj fo a in q_conj fo n) = Ok a /\
    (let! n := q_conj fo a in q_norm_sqr fo n) = q_norm_sqr fo a /\ q_dot fo a b = q_dot fo b a.
  Proof.
    intros [a b c d] [e f g h]. split; [|split; [|split; [|split]]].
    - unfold q_add, q_into_vector. cbn [qw qx qy qz]. rewrite (proj1 (@C73_vector 4 [a; b; c; d] [e; f; g; h] eq_refl eq_refl)). reflexivity.
    - cbn. rewrite !SFopp_opp. reflexivity.
    - cbn. rewrite !SFopp_opp. reflexivity.
    - unfold q_conj, q_norm_sqr, v_square_length. cbn. unfold ok2. cbn. rewrite !SFmul_opp. reflexivity.
    - apply C73_dot; reflexivity.
  Qed.

  (** A vector (or matrix) equals itself exactly when it holds no NaN. *)
  Lemma SFeqb_refl : forall x, SFeqb x x = negb (is_nan x).
  Proof.
    intros [[]|[]| |[] m e]; try reflexivity; unfold SFeqb, SFcompare; rewrite Z.compare_refl; change (Pos.compare_cont Eq m m) with (m ?= m)%positive;
      rewrite Pos.compare_refl; reflexivity.
  Qed.
  Theorem C73_self_equal : forall v, v_eq fo v v = true <-> forall x, In x v -> is_nan x = false.
  Proof.
    induction v as [|x v IH]. { split; [intros _ ? []|reflexivity]. } cbn [v_eq]. rewrite andb_true_iff, IH. cbn [o_eq sf_ops]. rewrite SFeqb_refl, negb_true_iff.
    split.
    - intros (A & B) y [<-|Hy]; auto.
    - intros H. split; [apply H; left; auto|intros; apply H; right; auto].
  Qed.

  (** Normalising a vector whose computed length is zero does not panic and does not return the vector: zero components
      become NaN, the others infinities of their sign.  That is so for every vector of zeros of either sign (so the result
      is all NaN), and for vectors so short that all squares underflow. *)
  Theorem C15_normalize_zero_length : forall v s, v_length fo (SFsqrt prec emax) v = Ok (S754_zero s) ->
    v_normalize fo (SFsqrt prec emax) v =
      Ok (map (fun x => match x with
                        | S754_zero _ | S754_nan => S754_nan
                        | S754_finite t _ _ | S754_infinity t => S754_infinity (xorb t s)
                        end) v).
  Proof.
    intros v s E. unfold v_normalize. rewrite E. cbn [bind]. unfold v_sdiv. change (fun x => o_div fo x (S754_zero s)) with (ok1 (fun x => SFdiv prec emax x (S754_zero s))).
    rewrite v_map_pure. apply f_equal, map_ext. intros [t|t| |t m e]; reflexivity.
  Qed.
  Theorem C15_normalize_zeros : forall v, v <> [] -> (forall x, In x v -> exists s, x = S754_zero s) ->
    exists s, v_length fo (SFsqrt prec emax) v = Ok (S754_zero s) /\ v_normalize fo (SFsqrt prec emax) v = Ok (map (fun _ => S754_nan) v).
  Proof.
    intros v NE Z.
    assert (L : exists s, v_length fo (SFsqrt prec emax) v = Ok (S754_zero s)).
    { unfold v_length, v_square_length. destruct v as [|x v]; [congruence|]. destruct (Z x (or_introl eq_refl)) as (s & ->).
      unfold v_sum. change (fun x => o_mul fo x x) with (ok1 (fun x => SFmul prec emax x x)). rewrite v_map_pure. cbn [bind map]. rewrite v_fold_first_cons.
      assert (G : forall w a, (forall x, In x w -> exists s, x = S754_zero s) -> 
                fold_res (o_add fo) (S754_zero a) (map (fun x => SFmul prec emax x x) w) = Ok (S754_zero a) \/
                exists b, fold_res (o_add fo) (S754_zero a) (map (fun x => SFmul prec emax x x) w) = Ok (S754_zero b)).
      { induction w as [|y w IH]; intros a Zw. { left. reflexivity. } destruct (Zw y (or_introl eq_refl)) as (t & ->). cbn [map fold_res].
        change (o_add fo (S754_zero a) (SFmul prec emax (S754_zero t) (S754_zero t))) with (Ok (SFadd prec emax (S754_zero a) (SFmul prec emax (S754_zero t) (S754_zero t)))).
        cbn [bind]. assert (A : exists b, SFadd prec emax (S754_zero a) (SFmul prec emax (S754_zero t) (S754_zero t)) = S754_zero b).
        { destruct a, t; eexists; reflexivity. }
        destruct A as (b & ->). right. destruct (IH b) as [->|(c & ->)]; eauto. intros; apply Zw; right; auto. }
      destruct (G v (xorb s s)) as [E|(b & E)]; [intros; apply Z; right; auto| |]; 
        change (SFmul prec emax (S754_zero s) (S754_zero s)) with (S754_zero (xorb s s)); rewrite E; cbn [bind]; eexists; reflexivity. }
    destruct L as (s & L). exists s. split; [exact L|]. rewrite (C15_normalize_zero_length _ L). f_equal. apply map_ext_in. intros x I.
    destruct (Z x I) as (t & ->). reflexivity.
  Qed.
End IEEE.
(** Both happen: zeros of mixed sign, and the smallest positive f64, whose square underflows. *)
Example C15_normalize_zero_example :
  v_normalize f64 (SFsqrt 53 1024) [S754_zero true; S754_zero false] = Ok [S754_nan; S754_nan] /\
  v_length f64 (SFsqrt 53 1024) [S754_finite true 1 (-1074); S754_zero false] = Ok (S754_zero false) /\
  v_normalize f64 (SFsqrt 53 1024) [S754_finite true 1 (-1074); S754_zero false] = Ok [S754_infinity true; S754_nan].
Proof. repeat split; vm_compute; reflexivity. Qed.

(** Laws that do not survive, already for f64 ([emin] is the smallest subnormal, [big] a power of two): *)
Definition pow2 (k : Z) : spec_float := binary_round 53 1024 false 1 k.
(** ... associativity of +, distributivity, the zero vector as neutral element (bit for bit), the identity matrix as
    neutral element (infinities), self-subtraction. *)
Theorem C73_add_assoc_refuted : exists u v w, length u = 1 /\ length v = 1 /\ length w = 1 /\
  (let! x := v_add f64 1 u v in v_add f64 1 x w) <> (let! y := v_add f64 1 v w in v_add f64 1 u y).
Proof. exists [pow2 100], [SFopp (pow2 100)], [one64]. (do 3 (split; [reflexivity|])); vm_compute; discriminate. Qed.
Theorem C73_distributivity_refuted : exists u v w, length u = 2 /\ length v = 2 /\ length w = 2 /\
  (let! x := v_add f64 2 v w in v_dot f64 2 u x) <> (let! y := v_dot f64 2 u v in let! z := v_dot f64 2 u w in o_add f64 y z).
Proof. exists [one64; one64], [pow2 100; one64], [SFopp (pow2 100); one64]. (do 3 (split; [reflexivity|])); vm_compute; discriminate. Qed.
Theorem C73_zero_refuted : exists v, length v = 1 /\ (let! z := v_zero f64 1 in v_add f64 1 z v) <> Ok v.
Proof. exists [S754_zero true]. split; auto. vm_compute. discriminate. Qed.
Theorem C73_identity_refuted : exists v, length v = 2 /\ (forall x, In x v -> is_nan x = false) /\
  (let! i := m_one f64 2 in m_dot_v f64 2 2 i v) <> Ok v.
Proof.
  exists [S754_infinity false; one64]. split; [reflexivity|]. split. { intros x [<-|[<-|[]]]; reflexivity. } vm_compute. discriminate.
Qed.
Theorem C73_sub_self_refuted : exists v, length v = 1 /\ (let! d := v_sub f64 1 v v in Ok (v_is_zero f64 d)) = Ok false.
Proof. exists [S754_infinity true]. split; auto. Qed.
(** Matrix products are not associative either. *)
Theorem C73_product_assoc_refuted : exists a b c, rect 1 2 a /\ rect 2 2 b /\ rect 2 1 c /\
  (let! ab := m_dot f64 1 2 2 a b in m_dot f64 1 2 1 ab c) <> (let! bc := m_dot f64 2 2 1 b c in m_dot f64 1 2 1 a bc).
Proof.
  exists [[one64; one64]], [[pow2 100; one64]; [SFopp (pow2 100); S754_zero false]], [[one64]; [one64]].
  repeat split; try (repeat constructor). vm_compute. discriminate.
Qed.
Example C73_witness : rect 2 2 [[one64; S754_nan]; [S754_infinity true; pow2 (-1074)]] /\
  c_mul f64 (Cx one64 (pow2 3)) (Cx (pow2 1) S754_nan) = Ok (Cx S754_nan S754_nan).
Proof. split. { split; [reflexivity|repeat constructor]. } vm_compute. reflexivity. Qed.

(* ------------------------------------------------------------------------- *)
(** * C64 for floats: the recursion always stops                               *)

(* NaN, zero, or negative sign *)
Definition low (x : spec_float) : bool :=
  match x with S754_nan => true | S754_zero _ => true | S754_infinity s => s | S754_finite s _ _ => s end.
Definition zn (x : spec_float) : bool := match x with S754_nan => true | S754_zero _ => true | _ => false end.
Lemma round_aux_sign : forall p e s m k l, low (SFopp (binary_round_aux p e false m k l)) = true /\ (s = true -> low (binary_round_aux p e s m k l) = true).
Proof.
  intros. unfold binary_round_aux. destruct (shr_fexp p e m k l) as [mrs e']. destruct (shr_fexp p e _ e' loc_Exact) as [mrs2 e2].
  destruct (shr_m mrs2); [cbn; auto| |cbn; auto]. destruct (e2 <=? e - p)%Z; cbn; auto.
Qed.
Lemma one_sign : forall p e, low (SFopp (SFone p e)) = true.
Proof. intros. unfold SFone, binary_round. destruct (shl_align _ _ _) as [mz ez]. apply (@round_aux_sign p e true). Qed.
Lemma low_mul : forall p e x y, low x = true -> low y = true -> low (SFopp (SFmul p e x y)) = true.
Proof.
  intros p e [[]|[]| |[] m k] [[]|[]| |[] m' k'] Hx Hy; try discriminate Hx; try discriminate Hy; try reflexivity.
  cbn [SFmul xorb]. apply (@round_aux_sign p e true).
Qed.
Lemma zn_mul : forall p e s y, zn (SFmul p e (S754_zero s) y) = true.
Proof. intros p e [] [[]|[]| |[] m' k']; reflexivity. Qed.
Lemma zn_add : forall p e x y, zn x = true -> zn y = true -> zn (SFadd p e x y) = true.
Proof. intros p e [[]|[]| |[] m k] [[]|[]| |[] m' k'] Hx Hy; try discriminate Hx; try discriminate Hy; reflexivity. Qed.
Lemma zn_low : forall p e x y, zn x = true -> low (SFopp y) = true -> SFltb (SFadd p e x y) (S754_zero false) = false.
Proof. intros p e [[]|[]| |[] m k] [[]|[]| |[] m' k'] Hx Hy; try discriminate Hx; try discriminate Hy; reflexivity. Qed.
Lemma low_neg : forall x, SFltb x (S754_zero false) = false -> low (SFopp x) = true.
Proof. intros [[]|[]| |[] m k] H; try discriminate H; reflexivity. Qed.
Lemma low_lt : forall x, SFltb x (S754_zero false) = true -> low x = true.
Proof. intros [[]|[]| |[] m k] H; try discriminate H; reflexivity. Qed.

Section LookAtFloat.
  Context (prec emax : Z) (rem : spec_float -> spec_float -> spec_float) (F : FloatOps spec_float).
  Local Notation fo := (sf_ops prec emax rem).

  Lemma cont_float : forall a b c, low c = true -> exists r, forall rec, rot3_look_at_any_cont fo F rec [a; b; c] = Ok r.
  Proof.
    intros a b c H. unfold rot3_look_at_any_cont. cbn [bind o_neg sf_ops ok1].
    change (v_from_tuple3 (o_zero fo, o_zero fo, SFopp (o_one fo))) with [S754_zero false; S754_zero false; SFopp (SFone prec emax)].
    change (v_dot fo 3 [S754_zero false; S754_zero false; SFopp (SFone prec emax)] [a; b; c]) with
      (Ok (SFadd prec emax (SFadd prec emax (SFmul prec emax (S754_zero false) a) (SFmul prec emax (S754_zero false) b)) (SFmul prec emax (SFopp (SFone prec emax)) c))).
    cbn [bind]. change (o_lt fo) with SFltb. change (o_zero fo) with (S754_zero false).
    rewrite zn_low; [|apply zn_add; apply zn_mul|apply low_mul; [apply one_sign|auto]].
    eexists. intros rec. reflexivity.
  Qed.
  (** Whatever the three components are (NaN, infinities, zeros, not a unit vector), one level of recursion is enough
      and the call returns. *)
  Theorem C64_float_terminates : forall dir, length dir = 3 -> exists r, forall depth, rot3_look_at_any fo F (S depth) dir = Ok r.
  Proof.
    intros [|a [|b [|c [|? ?]]]] L; try discriminate. cbn [rot3_look_at_any]. change (v_z [a; b; c]) with (Ok c). cbn [bind].
    change (o_lt fo c (o_zero fo)) with (SFltb c (S754_zero false)). destruct (SFltb c (S754_zero false)) eqn:E.
    - destruct (@cont_float a b c (low_lt _ E)) as (r & H). exists r. intros. apply H.
    - change (v_neg fo [a; b; c]) with (Ok [SFopp a; SFopp b; SFopp c]). cbn [bind].
      destruct (@cont_float (SFopp a) (SFopp b) (SFopp c) (low_neg _ E)) as (r & H).
      eexists. intros. rewrite H. cbn [bind]. destruct r. reflexivity.
  Qed.
End LookAtFloat.

Print Assumptions C73_vector.
Print Assumptions C73_matrix.
Print Assumptions C73_dot.
Print Assumptions C73_transpose_product.
Print Assumptions C73_row_vector.
Print Assumptions C73_complex.
Print Assumptions C73_quaternion.
Print Assumptions C73_self_equal.
Print Assumptions C15_normalize_zero_length.
Print Assumptions C15_normalize_zeros.
Print Assumptions C73_add_assoc_refuted.
Print Assumptions C73_distributivity_refuted.
Print Assumptions C73_zero_refuted.
Print Assumptions C73_identity_refuted.
Print Assumptions C73_sub_self_refuted.
Print Assumptions C73_product_assoc_refuted.
Print Assumptions C64_float_terminates.
