(** C120: affine geometry: combinations of points, lines, general position, volumes of simplices. *)
From Coq Require Import Ring Field Lia ZArith QArith Qcanon.
From Verif Require Import Spec SpecRing SpecTransform SpecAffGeo SpecFacts AlgFacts MFacts DetFacts SqProofs MatProofs PropSquare PropTransform PropAffine Instances.
Import ListNotations.
Set Implicit Arguments.
Local Open Scope nat_scope.
Local Open Scope list_scope.

Lemma nth_map_lt : forall A B (f : A -> B) l k d e, k < length l -> nth k (map f l) e = f (nth k l d).
Proof. intros A B f l k d e H. rewrite (nth_indep _ e (f d)) by (rewrite map_length; auto). apply map_nth. Qed.

Lemma Forall2_nth_ex : forall A B (P : A -> B -> Prop) a b l m, length l = length m -> (forall k, k < length l -> P (nth k l a) (nth k m b)) -> Forall2 P l m.
Proof.
  intros A B P a b. induction l as [|x l IH]; intros [|y m] L H; try discriminate; constructor.
  - apply (H 0). cbn. lia.
  - apply IH; [injection L; auto|]. intros k Hk. apply (H (S k)). cbn. lia.
Qed.
Lemma Forall2_nth_in : forall A B (P : A -> B -> Prop) a b l m k, Forall2 P l m -> k < length l -> P (nth k l a) (nth k m b).
Proof. intros A B P a b l m k F. revert k. induction F; intros [|k] Hk; cbn in *; auto; try lia. apply IHF. lia. Qed.

Section AffRing.
  Context {T : Type} {o : Ops T} (R : CRing o).
  Add Ring Rag : (CRing_theory R).
  Local Notation "0" := (o_zero o).
  Local Notation "1" := (o_one o).
  Local Infix "+" := (r_add R).
  Local Infix "*" := (r_mul R).
  Local Notation "- x" := (r_opp R x).
  Local Notation sum := (bigsum R).
  Local Notation aff N := (affine_transform o N).

  Lemma aff_vk : forall N s h x, 0 < N -> t_apply (aff N) (vk N s, mk N N h) (vk N x) = Ok (vk N (fun i => sum N (fun k => h i k * x k) + s i)).
  Proof.
    intros N s h x HN. cbn [t_apply affine_transform chain_transform linear_transform shift_transform fst snd]. rewrite (m_dot_v_mk R) by auto. cbn [bind]. rewrite (v_add_vk R). reflexivity.
  Qed.
  Lemma vget_ext : forall N (x y : list T), dim N x -> dim N y -> (forall i, i < N -> vget o x i = vget o y i) -> x = y.
  Proof. intros N x y Hx Hy H. rewrite (@vk_of _ N x 0 Hx), (@vk_of _ N y 0 Hy). apply vk_ext. intros i Hi. apply H. auto. Qed.

  Lemma edges_mk : forall N p ps, edges R N p ps = mk (length ps) N (fun k j => r_sub R (vget o (nth k ps []) j) (vget o p j)).
  Proof.
    intros N p ps. unfold edges. rewrite (@vk_of _ (length ps) ps [] eq_refl) at 1. rewrite map_vk. reflexivity.
  Qed.
  (** Every [Affine] keeps combinations. *)
  Theorem C120_combinations : forall N s m, 0 < N -> dim N s -> rect N N m ->
    exists f, acts_as N (aff N) (s, m) f /\ keeps_combinations R N f.
  Proof.
    intros N s m HN Ds Rm. unfold dim in Ds. asfun o. exists (fun x => vk N (fun i => sum N (fun k => f0 i k * vget o x k) + f i)). split.
    - intros x Hx. unfold dim in Hx. asfun o. rewrite aff_vk by auto. f_equal. apply vk_ext. intros i Hi. f_equal. apply bigsum_ext. intros k Hk. rewrite vget_vk by auto. reflexivity.
    - split; [intros; apply vk_length|]. intros ws ps x L Dp W (Dx & C). split; [apply vk_length|]. intros i Hi. rewrite vget_vk, map_length by auto.
      transitivity (sum (length ps) (fun k => vget o ws k * sum N (fun l => f0 i l * vget o (nth k ps []) l)) + sum (length ps) (fun k => vget o ws k * f i)).
      + f_equal.
        * rewrite (@bigsum_ext _ _ R N _ (fun l => sum (length ps) (fun k => f0 i l * (vget o ws k * vget o (nth k ps []) l)))) by (intros l Hl; rewrite C, bigsum_mul_l by auto; auto).
          rewrite bigsum_swap. apply bigsum_ext. intros k Hk. rewrite <- bigsum_mul_l. apply bigsum_ext. intros l Hl. ring.
        * rewrite bigsum_mul_r, <- L. unfold affine_weights in W. rewrite W. ring.
      + rewrite <- bigsum_add. apply bigsum_ext. intros k Hk. assert (EN : nth k (map (fun x => vk N (fun i => sum N (fun k => f0 i k * vget o x k) + f i)) ps) [] = vk N (fun i => sum N (fun l => f0 i l * vget o (nth k ps []) l) + f i)).
        { apply (@nth_map_lt _ _ (fun x => vk N (fun i => sum N (fun k => f0 i k * vget o x k) + f i)) ps k [] []). auto. }
        rewrite EN, vget_vk by auto. ring.
  Qed.
  (** A map is the action of at most one [Affine]. *)
  Theorem C120_unique : forall N f s m s' m', 0 < N -> dim N s -> dim N s' -> rect N N m -> rect N N m' ->
    acts_as N (aff N) (s, m) f -> acts_as N (aff N) (s', m') f -> s = s' /\ m = m'.
  Proof.
    intros N f s m s' m' HN Ds Ds' Rm Rm' E E'. destruct (mk_ex o Rm) as (h & ->). destruct (mk_ex o Rm') as (h' & ->). destruct (vk_ex o _ Ds) as (a & ->). destruct (vk_ex o _ Ds') as (a' & ->).
    assert (Q : forall x i, i < N -> sum N (fun k => h i k * x k) + a i = sum N (fun k => h' i k * x k) + a' i).
    { intros x i Hi. specialize (E (vk N x) (vk_length _ _)). specialize (E' (vk N x) (vk_length _ _)). rewrite aff_vk in E, E' by auto. rewrite <- E' in E. apply Ok_inj in E. apply (f_equal (fun v => vget o v i)) in E. rewrite !vget_vk in E by auto. exact E. }
    assert (Z : forall (h : nat -> nat -> T) i, sum N (fun k => h i k * 0) = 0). { intros h0 i. transitivity (sum N (fun _ => 0)); [apply bigsum_ext; intros; ring|apply bigsum_zero]. }
    assert (Es : forall i, i < N -> a i = a' i). { intros i Hi. pose proof (Q (fun _ => 0) i Hi) as X. rewrite !Z in X. transitivity (0 + a i); [ring|]. rewrite X. ring. }
    split; [apply vk_ext; auto|]. apply mk_ext. intros i j Hi Hj. pose proof (Q (fun k => if k =? j then 1 else 0) i Hi) as X.
    assert (D : forall h : nat -> nat -> T, sum N (fun k => h i k * (if k =? j then 1 else 0)) = h i j). { intros h0. rewrite <- (bigsum_delta R (fun k => h0 i k) Hj). apply bigsum_ext. intros k _. destruct (k =? j); ring. }
    rewrite !D, Es in X by auto. apply (r_add_cancel_l R (a' i)). transitivity (h i j + a' i); [ring|]. rewrite X. ring.
  Qed.
  (** and every map that keeps combinations is the action of an [Affine]. *)
  Theorem C120_combinations_conv : forall N f, 0 < N -> keeps_combinations R N f -> exists s m, dim N s /\ rect N N m /\ acts_as N (aff N) (s, m) f.
  Proof.
    intros N f HN (Df & K). set (z := vk N (fun _ => 0)). set (e := fun j => vk N (fun i => if i =? j then 1 else 0)).
    set (s := fun i => vget o (f z) i). set (h := fun i j => vget o (f (e j)) i + - s i). exists (vk N s), (mk N N h). split; [apply vk_length|]. split; [apply rect_mk|].
    intros x Hx. pose proof (Df x Hx) as Dfx. destruct (vk_ex o _ Hx) as (y & ->). rename y into x. rewrite aff_vk by auto. f_equal. apply vget_ext with (N := N); [apply vk_length|auto|]. intros i Hi. rewrite vget_vk by auto.
    set (ws := vk (S N) (fun k => match k with O => 1 + - sum N x | S k => x k end)). set (ps := vk (S N) (fun k => match k with O => z | S k => e k end)).
    assert (A1 : length ws = length ps) by (unfold ws, ps; rewrite !vk_length; auto).
    assert (A2 : Forall (dim N) ps). { apply Forall_forall. intros p Hp. unfold ps, vk in Hp. apply in_map_iff in Hp as (k & <- & _). destruct k; apply vk_length. }
    assert (A3 : affine_weights R ws). { unfold affine_weights, ws. rewrite vk_length. rewrite bigsum_shift. transitivity ((1 + - sum N x) + sum N x); [|ring]. apply (f_equal2 (r_add R)); [rewrite vget_vk by lia; reflexivity|]. apply bigsum_ext. intros k Hk. rewrite vget_vk by lia. reflexivity. }
    assert (A4 : combination R N ws ps (vk N x)).
    { split; [apply vk_length|]. intros l Hl. rewrite vget_vk by auto. unfold ws, ps. rewrite vk_length, bigsum_shift. rewrite <- (bigsum_delta R x Hl). transitivity ((1 + - sum N x) * 0 + sum N (fun k => if k =? l then x k else 0)); [ring|]. apply (f_equal2 (r_add R)).
      - rewrite vget_vk, nth_vk by lia. unfold z. rewrite vget_vk by auto. reflexivity.
      - apply bigsum_ext. intros k Hk. rewrite vget_vk, nth_vk by lia. unfold e. rewrite vget_vk by auto. rewrite Nat.eqb_sym. destruct (l =? k); ring. }
    destruct (K ws ps (vk N x) A1 A2 A3 A4) as (_ & C). rewrite (C i Hi). unfold ws, ps. rewrite map_vk, vk_length, bigsum_shift. transitivity ((1 + - sum N x) * s i + sum N (fun k => h i k * x k + x k * s i)).
    - rewrite bigsum_add, bigsum_mul_r. ring.
    - apply (f_equal2 (r_add R)); [rewrite vget_vk, nth_vk by lia; reflexivity|]. apply bigsum_ext. intros k Hk. rewrite vget_vk, nth_vk by lia. unfold h. ring.
  Qed.
  (** Parallel lines go to parallel lines: the direction of the image does not depend on the point. *)
  Theorem C120_lines : forall N s m d, 0 < N -> dim N s -> rect N N m -> dim N d -> exists e, m_dot_v o N N m d = Ok e /\
    forall a t, dim N a -> (let! x := v_smul o d t in let! x := v_add o N a x in t_apply (aff N) (s, m) x) =!
      (let! b := t_apply (aff N) (s, m) a in let! y := v_smul o e t in v_add o N b y).
  Proof.
    intros N s m d HN Ds Rm Dd. destruct (mk_ex o Rm) as (h & ->). destruct (vk_ex o _ Ds) as (s0 & ->). destruct (vk_ex o _ Dd) as (e & ->). eexists. rewrite (m_dot_v_mk R) by auto. split; [reflexivity|]. intros a t Ha. destruct (vk_ex o _ Ha) as (b & ->).
    rewrite !(v_smul_vk R). cbn [bind]. rewrite (v_add_vk R). cbn [bind]. rewrite !aff_vk by auto. cbn [bind]. rewrite (v_add_vk R). same. apply vk_ext. intros i Hi.
    transitivity (sum N (fun k => h i k * b k + h i k * e k * t) + s0 i).
    - rewrite bigsum_add, bigsum_mul_r. ring.
    - apply (f_equal2 (r_add R)); auto. apply bigsum_ext. intros. ring.
  Qed.
  (** The maps that multiply the differences of points by k are the chains of a [Shift] and [Scale(k)], *)
  Theorem C120_homothety : forall N f k inv, multiplies_differences R N k f <-> exists s, dim N s /\ acts_as N (shift_scale_transform o N inv) (s, k) f.
  Proof.
    intros N f k inv.
    assert (V : forall s x, t_apply (shift_scale_transform o N inv) (vk N s, k) (vk N x) = Ok (vk N (fun i => x i * k + s i))).
    { intros s x. cbn [t_apply shift_scale_transform chain_transform scale_transform shift_transform fst snd]. rewrite (v_smul_vk R). cbn [bind]. rewrite (v_add_vk R). reflexivity. }
    split.
    - intros (D & M). set (z := vk N (fun _ => 0)). exists (f z). split; [apply D, vk_length|]. intros x Hx. pose proof (D x Hx) as Dx. pose proof (D z (vk_length _ _)) as Dz.
      assert (G : forall i, i < N -> vget o (f x) i = vget o x i * k + vget o (f z) i). { intros i Hi. specialize (M z x i (vk_length _ _) Hx Hi). rewrite !(r_sub_def R) in M. unfold z in M at 2. rewrite vget_vk in M by auto. transitivity ((vget o (f x) i + - vget o (f z) i) + vget o (f z) i); [ring|]. rewrite M. ring. }
      rewrite (@vk_of _ N (f z) 0 Dz), (@vk_of _ N x 0 Hx) at 1. rewrite V. f_equal. symmetry. rewrite (@vk_of _ N (f x) 0 Dx). apply vk_ext. intros i Hi. apply G. auto.
    - intros (s & Ds & A). destruct (vk_ex o _ Ds) as (s0 & ->). rename s0 into s. assert (E : forall x, f (vk N x) = vk N (fun i => x i * k + s i)) by (intros x; apply Ok_inj; rewrite <- (A (vk N x) (vk_length _ _)); apply V).
      split. + intros x Hx. unfold dim in Hx. asfun o. rewrite E. apply vk_length.
      + intros x y i Hx Hy Hi. unfold dim in *. asfun o. rewrite !E, !vget_vk by auto. rewrite !(r_sub_def R). ring.
  Qed.
  (** those that keep them the [Shift]s. *)
  Theorem C120_translation : forall N f, multiplies_differences R N 1 f <-> exists s, dim N s /\ acts_as N (shift_transform o N) s f.
  Proof.
    intros N f. rewrite (C120_homothety N f 1 (fun _ => Panic)). split; intros (s & Ds & A); exists s; split; auto; intros x Hx; specialize (A x Hx); unfold dim in *; asfun o;
      cbn [t_apply shift_scale_transform chain_transform scale_transform shift_transform fst snd] in *; rewrite (v_smul_vk R) in *; cbn [bind] in *; rewrite (v_add_vk R) in *; rewrite <- A; f_equal; apply vk_ext; intros; ring.
  Qed.
  (** The volume spanned by N + 1 points, the determinant of the differences, is multiplied by the determinant of the matrix. *)
  Theorem C120_volume : forall N s m p ps, 0 < N -> dim N s -> rect N N m -> dim N p -> length ps = N -> Forall (dim N) ps ->
    exists q qs, t_apply (aff N) (s, m) p = Ok q /\ Forall2 (fun a b => t_apply (aff N) (s, m) a = Ok b) ps qs /\
      m_det o N (edges R N q qs) =! (let! k := m_det o N m in let! d := m_det o N (edges R N p ps) in o_mul o k d).
  Proof.
    intros N s m p ps HN Ds Rm Dp Lp Fp. destruct (mk_ex o Rm) as (h & ->). destruct (vk_ex o _ Ds) as (a & ->).
    set (g := fun x => vk N (fun i => sum N (fun k => h i k * vget o x k) + a i)).
    assert (V : forall x, dim N x -> t_apply (aff N) (vk N a, mk N N h) x = Ok (g x)). { intros x Hx. rewrite (@vk_of _ N x 0 Hx) at 1. rewrite aff_vk by auto. reflexivity. }
    exists (g p), (map g ps). split; auto. split.
    - clear Lp. induction Fp; constructor; auto.
    - rewrite !edges_mk, map_length, Lp, !(m_det_mk R). cbn [bind]. rewrite (r_mul_ok R). same. rewrite <- (leibniz_transpose R N (fun k j => r_sub R (vget o (nth k ps []) j) (vget o p j))).
      rewrite <- leibniz_mul. etransitivity; [symmetry; apply leibniz_transpose|]. apply leibniz_ext. intros k i Hk Hi. symmetry. rewrite (@nth_map_lt _ _ g ps k [] []) by lia. unfold g. rewrite !vget_vk by auto.
      transitivity (sum N (fun j => h i j * vget o (nth k ps []) j) + - sum N (fun j => h i j * vget o p j)); [rewrite (r_sub_def R); ring|]. rewrite <- bigsum_opp, <- bigsum_add. apply bigsum_ext. intros j Hj. rewrite (r_sub_def R). ring.
  Qed.
End AffRing.

Section AffField.
  Context {T : Type} {o : Ops T} (F : Field o).
  Add Field Fag : (Field_theory F).
  Local Notation R := (f_ring F).
  Local Notation "0" := (o_zero o).
  Local Notation "1" := (o_one o).
  Local Infix "+" := (r_add R).
  Local Infix "*" := (r_mul R).
  Local Notation "- x" := (r_opp R x).
  Local Notation sum := (bigsum R).
  Local Notation aff N := (affine_transform o N).

  (** Where 1 + 1 is not 0, keeping the ratios along lines is enough. *)
  Theorem C120_ratios : forall N f, 1 + 1 <> 0 -> keeps_ratios R N f -> keeps_combinations R N f.
  Proof.
    intros N f H2 (D & K). set (z := vk N (fun _ => 0)). set (g := fun x i => vget o (f x) i + - vget o (f z) i).
    assert (L : forall a b t i, i < N -> g (vk N (fun i => (1 + - t) * a i + t * b i)) i = (1 + - t) * g (vk N a) i + t * g (vk N b) i).
    { intros a b t i Hi. destruct (K (vk N a) (vk N b) t (vk N (fun i => (1 + - t) * a i + t * b i)) (vk_length _ _) (vk_length _ _)) as (_ & E).
      - split; [apply vk_length|]. intros j Hj. rewrite !vget_vk, (r_sub_def R) by auto. reflexivity.
      - unfold g. rewrite E, (r_sub_def R) by auto. ring. }
    assert (G0 : forall i, i < N -> g z i = 0) by (intros; unfold g; ring).
    assert (GM : forall t a i, i < N -> g (vk N (fun i => t * a i)) i = t * g (vk N a) i).
    { intros t a i Hi. pose proof (L (fun _ => 0) a t i Hi) as E. fold z in E. rewrite G0 in E by auto. rewrite (@vk_ext _ N _ (fun i => t * a i)) in E by (intros; ring). rewrite E. ring. }
    assert (GA : forall a b i, i < N -> g (vk N (fun i => a i + b i)) i = g (vk N a) i + g (vk N b) i).
    { intros a b i Hi. set (h := f_inv F (1 + 1)). assert (Hh : h * (1 + 1) = 1) by (apply (f_inv_l F); auto). pose proof (L (fun i => (1 + 1) * a i) (fun i => (1 + 1) * b i) h i Hi) as E. rewrite !GM in E by auto.
      assert (Hm : 1 + - h = h) by (transitivity (h * (1 + 1) + - h); [rewrite Hh; auto|ring]). rewrite Hm in E. rewrite (@vk_ext _ N _ (fun i => a i + b i)) in E.
      - rewrite E. transitivity ((h * (1 + 1)) * (g (vk N a) i + g (vk N b) i)); [ring|]. rewrite Hh. ring.
      - intros j Hj. transitivity ((h * (1 + 1)) * (a j + b j)); [ring|]. rewrite Hh. ring. }
    split; auto. intros ws ps x Lw Dp W (Dx & C). split; auto. intros i Hi. rewrite map_length.
    assert (GS : forall n (u : nat -> T) (p : nat -> nat -> T), g (vk N (fun i => sum n (fun k => u k * p k i))) i = sum n (fun k => u k * g (vk N (p k)) i)).
    { induction n as [|n IH]; intros u p; cbn [bigsum]. - apply G0. auto. - rewrite GA, IH, GM by auto. reflexivity. }
    assert (Ex : x = vk N (fun i => sum (length ps) (fun k => vget o ws k * vget o (nth k ps []) i))). { rewrite (@vk_of _ N x 0 Dx). apply vk_ext. intros j Hj. apply C. auto. }
    assert (E1 : vget o (f x) i = g x i + vget o (f z) i) by (unfold g; ring). rewrite E1, Ex, GS. clear E1.
    transitivity (sum (length ps) (fun k => vget o ws k * g (vk N (vget o (nth k ps []))) i) + sum (length ps) (fun k => vget o ws k * vget o (f z) i)).
    - f_equal. rewrite bigsum_mul_r, <- Lw. unfold affine_weights in W. rewrite W. ring.
    - rewrite <- bigsum_add. apply bigsum_ext. intros k Hk. assert (EN : nth k (map f ps) [] = f (nth k ps [])). { apply nth_map_lt. auto. }
      rewrite EN. assert (Dk : dim N (nth k ps [])). { eapply Forall_forall in Dp; eauto. apply nth_In. auto. }
      assert (EV : vk N (vget o (nth k ps [])) = nth k ps []) by (symmetry; apply (@vk_of _ N _ 0 Dk)). rewrite EV. unfold g. ring.
  Qed.
  Theorem C120_ratios_affine : forall N f, 0 < N -> 1 + 1 <> 0 ->
    (keeps_ratios R N f <-> exists s m, dim N s /\ rect N N m /\ acts_as N (aff N) (s, m) f).
  Proof.
    intros N f HN H2. split.
    - intros K. apply C120_combinations_conv with (R := R); auto. apply C120_ratios; auto.
    - intros (s & m & Ds & Rm & A). destruct (@C120_combinations _ _ R N s m HN Ds Rm) as (f' & A' & (D & K)).
      assert (E : forall x, dim N x -> f x = f' x). { intros x Hx. apply Ok_inj. rewrite <- (A x Hx). apply A'. auto. }
      split. + intros x Hx. rewrite E by auto. auto.
      + intros a b t x Ha Hb (Dx & O). rewrite !E by auto. split; auto. intros i Hi.
        destruct (K [1 + - t; t] [a; b] x) as (_ & Q); auto.
        * unfold affine_weights. cbn. ring.
        * split; auto. intros j Hj. rewrite O, (r_sub_def R) by auto. unfold vget. unfold vget. cbn. ring.
        * rewrite Q by auto. rewrite (r_sub_def R). unfold vget. cbn. ring.
  Qed.
  (** Points in general position: their images determine the transformation, and can be chosen freely; the volume of the
      simplex (the determinant of its edges) is multiplied by the determinant of the linear part. *)
  Theorem C120_simplex : forall N p ps q qs d, 0 < N -> dim N p -> dim N q -> length ps = N -> length qs = N -> Forall (dim N) ps -> Forall (dim N) qs ->
    m_det o N (edges R N p ps) = Ok d -> d <> 0 ->
    exists s m, dim N s /\ rect N N m /\ t_apply (aff N) (s, m) p = Ok q /\ Forall2 (fun a b => t_apply (aff N) (s, m) a = Ok b) ps qs /\
      (forall s' m', dim N s' -> rect N N m' -> t_apply (aff N) (s', m') p = Ok q -> Forall2 (fun a b => t_apply (aff N) (s', m') a = Ok b) ps qs -> s' = s /\ m' = m).
  Proof.
    intros N p ps q qs d HN Dp Dq Lp Lq Fp Fq Hd Nd.
    rewrite edges_mk, Lp in Hd. set (E := fun k j => r_sub R (vget o (nth k ps []) j) (vget o p j)) in *. set (G := fun k i => r_sub R (vget o (nth k qs []) i) (vget o q i)).
    destruct (C33_inverse F (rect_mk N N E) Hd Nd) as (b & _ & Rb & (x1 & P1 & Q1) & (x2 & P2 & Q2)). destruct (mk_ex o Rb) as (B & ->).
    rewrite m_one_mk in Q1, Q2. apply Ok_inj in Q1, Q2. subst x1 x2. rewrite (m_dot_mk R) in P1, P2 by auto. apply Ok_inj in P1, P2.
    assert (K1 : forall k l, k < N -> l < N -> sum N (fun j => E k j * B j l) = if k =? l then 1 else 0). { intros k l Hk Hl. apply (f_equal (fun m => mget o m k l)) in P1. rewrite !mget_mk in P1 by auto. exact P1. }
    assert (K2 : forall l j, l < N -> j < N -> sum N (fun k => B l k * E k j) = if l =? j then 1 else 0). { intros l j Hl Hj. apply (f_equal (fun m => mget o m l j)) in P2. rewrite !mget_mk in P2 by auto. exact P2. }
    clear P1 P2. set (h := fun i j => sum N (fun l => B j l * G l i)). set (s := fun i => vget o q i + - sum N (fun k => h i k * vget o p k)).
    assert (Dpk : forall k, k < N -> dim N (nth k ps [])) by (intros k Hk; eapply Forall_forall in Fp; eauto; apply nth_In; rewrite Lp; auto).
    assert (Dqk : forall k, k < N -> dim N (nth k qs [])) by (intros k Hk; eapply Forall_forall in Fq; eauto; apply nth_In; rewrite Lq; auto).
    assert (V : forall s h x, dim N x -> t_apply (aff N) (vk N s, mk N N h) x = Ok (vk N (fun i => sum N (fun k => h i k * vget o x k) + s i))).
    { intros s0 h0 x Hx. rewrite (@vk_of _ N x 0 Hx) at 1. rewrite (aff_vk R) by auto. reflexivity. }
    assert (HE : forall i k, k < N -> i < N -> sum N (fun j => h i j * E k j) = G k i).
    { intros i k Hk Hi. unfold h. rewrite (@bigsum_ext _ _ R N _ (fun j => sum N (fun l => E k j * B j l * G l i))) by (intros j Hj; rewrite <- bigsum_mul_r; apply bigsum_ext; intros; ring).
      rewrite bigsum_swap. transitivity (sum N (fun l => if l =? k then G l i else 0)); [|apply (bigsum_delta R (fun l => G l i) Hk)]. apply bigsum_ext. intros l Hl. rewrite bigsum_mul_r, K1 by auto. rewrite Nat.eqb_sym. destruct (l =? k); ring. }
    assert (SE : forall (h : nat -> nat -> T) i k, sum N (fun j => h i j * E k j) = sum N (fun j => h i j * vget o (nth k ps []) j) + - sum N (fun j => h i j * vget o p j)).
    { intros h0 i k. rewrite <- bigsum_opp, <- bigsum_add. apply bigsum_ext. intros j Hj. unfold E. rewrite (r_sub_def R). ring. }
    exists (vk N s), (mk N N h). split; [apply vk_length|]. split; [apply rect_mk|]. split; [|split].
    - rewrite V by auto. f_equal. apply (@vget_ext _ o N); [apply vk_length|auto|]. intros i Hi. rewrite vget_vk by auto. unfold s. ring.
    - apply (@Forall2_nth_ex _ _ _ [] []); [lia|]. intros k Hk. rewrite Lp in Hk. rewrite V by auto. f_equal. apply (@vget_ext _ o N); [apply vk_length|auto|]. intros i Hi. rewrite vget_vk by auto. unfold s.
      transitivity (sum N (fun j => h i j * E k j) + vget o q i); [rewrite SE; ring|]. rewrite HE by auto. unfold G. rewrite (r_sub_def R). ring.
    - intros s' m' Ds' Rm' A1 A2. destruct (vk_ex o _ Ds') as (s2 & ->). destruct (mk_ex o Rm') as (h2 & ->). rewrite V in A1 by auto. apply Ok_inj in A1.
      assert (S2 : forall i, i < N -> s2 i = vget o q i + - sum N (fun k => h2 i k * vget o p k)). { intros i Hi. rewrite <- A1, vget_vk by auto. ring. }
      assert (H2 : forall i k, k < N -> i < N -> sum N (fun j => h2 i j * E k j) = G k i).
      { intros i k Hk Hi. apply (@Forall2_nth_in _ _ _ [] []) with (k := k) in A2; [|lia]. rewrite V in A2 by auto. apply Ok_inj in A2. unfold G. rewrite <- A2, vget_vk by auto. rewrite SE, S2, (r_sub_def R) by auto. ring. }
      assert (EH : forall i l, i < N -> l < N -> h2 i l = h i l).
      { intros i l Hi Hl. unfold h. transitivity (sum N (fun j => if j =? l then h2 i j else 0)); [symmetry; apply (bigsum_delta R (fun j => h2 i j) Hl)|].
        transitivity (sum N (fun j => sum N (fun k => B l k * (h2 i j * E k j)))).
        - apply bigsum_ext. intros j Hj. transitivity ((if l =? j then 1 else 0) * h2 i j); [rewrite Nat.eqb_sym; destruct (l =? j); ring|]. rewrite <- K2 by auto. rewrite <- bigsum_mul_r. apply bigsum_ext. intros. ring.
        - rewrite bigsum_swap. apply bigsum_ext. intros k Hk. rewrite bigsum_mul_l, H2 by auto. reflexivity. }
      split; [|apply mk_ext; auto]. apply vk_ext. intros i Hi. rewrite S2 by auto. unfold s. f_equal. f_equal. apply bigsum_ext. intros k Hk. rewrite EH by auto. reflexivity.
  Qed.
End AffField.

(** Instances: points in general position in the plane, the transformation that sends them to three others, its volume
    factor; and a map that keeps no ratios. *)
Example C120_ex_simplex : let q := fun z => Q2Qc (inject_Z z) in let p := [q 1; q 1]%Z in let ps := [[q 3; q 1]; [q 1; q 2]]%Z in
  let a := ([q (-2); q 1], [[q 2; q 5]; [q 1; q (-1)]])%Z in
  rmap (map this) (t_apply (affine_transform qc_ops 2) a p) = Ok [5 # 1; 1 # 1]%Q /\
  map (fun x => rmap (map this) (t_apply (affine_transform qc_ops 2) a x)) ps = [Ok [9 # 1; 3 # 1]; Ok [10 # 1; 0 # 1]]%Q /\
  rmap this (m_det qc_ops 2 (edges (f_ring qc_field) 2 p ps)) = Ok (2 # 1)%Q /\ rmap this (m_det qc_ops 2 (snd a)) = Ok (-7 # 1)%Q /\
  rmap this (m_det qc_ops 2 (edges (f_ring qc_field) 2 [q 5; q 1] [[q 9; q 3]; [q 10; q 0]]))%Z = Ok (-14 # 1)%Q.
Proof. vm_compute. repeat split; reflexivity. Qed.
Example C120_ex_ratios : o_add qc_ops (o_one qc_ops) (o_one qc_ops) <> Ok (o_zero qc_ops) /\ 
  ~ keeps_ratios (f_ring qc_field) 1 (fun x => map (fun a => Qcmult a a) x).
Proof.
  split. { intros H. apply Ok_inj in H. apply (f_equal this) in H. vm_compute in H. discriminate. }
  intros (_ & K). set (h := Q2Qc (1 # 2)). destruct (K [Q2Qc 0] [Q2Qc 1] h [h] eq_refl eq_refl) as (_ & E).
  - split; [reflexivity|]. intros [|i] Hi; [|lia]. vm_compute. apply Qc_is_canon. reflexivity.
  - specialize (E 0 (le_n _)). apply (f_equal this) in E. vm_compute in E. discriminate.
Qed.
Example C120_ex_homothety : multiplies_differences z_ring 2 3%Z (fun x => [3 * vget z_ops x 0 + 5; 3 * vget z_ops x 1 - 1]%Z).
Proof. split; [reflexivity|]. intros [|x0 [|x1 [|]]] [|y0 [|y1 [|]]] i Hx Hy Hi; try discriminate. destruct i as [|[|i]]; [| |lia]; unfold vget; cbn [nth]; change (r_sub z_ring) with Z.sub; change (r_mul z_ring) with Z.mul; ring. Qed.

Print Assumptions C120_combinations.
Print Assumptions C120_unique.
Print Assumptions C120_combinations_conv.
Print Assumptions C120_lines.
Print Assumptions C120_homothety.
Print Assumptions C120_translation.
Print Assumptions C120_volume.
Print Assumptions C120_ratios.
Print Assumptions C120_ratios_affine.
Print Assumptions C120_simplex.
