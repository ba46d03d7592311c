(** C116: derivatives by dual numbers.  (The list of theorems, one per operation of the API, was produced by tools/gen_dual.py;
    every statement is spelled out here.) *)
From Coq Require Import Reals Lra Lia List.
From Verif Require Import SpecFacts VFacts VecProofs MFacts MatProofs AlgFacts SquareModel SpecDet DetFacts SqProofs ComplexModel MoebiusModel TransformModel SpecMachine RealInst RelFacts PropRel PropExact PropSquare SpecDual.
Import ListNotations.
Set Implicit Arguments.
Local Open Scope list_scope.

(* ------------------------------------------------------------------------- *)
(** * Numbers that depend on time                                              *)
Definition curve_ops : Ops (R -> R) :=
  {| o_zero := fun _ => 0%R; o_one := fun _ => 1%R; o_add := fun x y => Ok (fun t => x t + y t)%R; o_sub := fun x y => Ok (fun t => x t - y t)%R;
     o_mul := fun x y => Ok (fun t => x t * y t)%R; o_div := fun _ _ => Panic; o_rem := fun _ _ => Panic; o_neg := fun x => Ok (fun t => - x t)%R;
     o_is_zero := fun _ => false; o_eq := fun _ _ => false; o_lt := fun _ _ => false; o_le := fun _ _ => false |}.
Lemma curve_hom : forall t, hom (fun c : R -> R => c t) curve_ops r_ops.
Proof. intros. constructor; reflexivity. Qed.
Lemma dual_hom : hom fst dual_ops r_ops.
Proof. constructor; reflexivity. Qed.
Lemma dual_hom_div : hom_div fst dual_ops r_ops.
Proof. intros x y. cbn. destruct (Req_EM_T (fst y) 0); reflexivity. Qed.
Lemma moves_rel : forall t0, OpsRel false (fun d c => moves t0 c d) dual_ops curve_ops.
Proof.
  intros t0. constructor.
  - split; [reflexivity|]. apply derivable_pt_lim_const.
  - split; [reflexivity|]. apply derivable_pt_lim_const.
  - intros x x' y y' (E & H) (E' & H'). cbn. split; cbn; [congruence|]. apply (derivable_pt_lim_plus x' y'); auto.
  - intros x x' y y' (E & H) (E' & H'). cbn. split; cbn; [congruence|]. apply (derivable_pt_lim_minus x' y'); auto.
  - intros x x' y y' (E & H) (E' & H'). cbn. split; cbn; [congruence|]. rewrite <- E, <- E'. apply (derivable_pt_lim_mult x' y'); auto.
  - intros x x' (E & H). cbn. split; cbn; [congruence|]. apply (derivable_pt_lim_opp x'); auto.
Qed.
Section At.
  Context (t0 : R).
  Lemma s_moves_at : forall U u, moves t0 U u -> U t0 = fst u.
  Proof. intros U u (E & _). exact E. Qed.
  Lemma v_moves_at : forall U u, v_moves t0 U u -> v_at t0 U = map fst u.
  Proof. intros U u H. induction H as [|c d U u (E & _) H IH]; cbn; auto. f_equal; auto. Qed.
  Lemma m_moves_at : forall U u, m_moves t0 U u -> m_at t0 U = map (map fst) u.
  Proof. intros U u H. induction H as [|c d U u E H IH]; cbn; auto. f_equal; auto. apply v_moves_at. auto. Qed.
  Lemma c_moves_at : forall U u, c_moves t0 U u -> c_at t0 U = c_map fst u.
  Proof. intros U u ((E & _) & (F & _)). unfold c_at, c_map. rewrite E, F. reflexivity. Qed.
  Lemma q_moves_at : forall U u, q_moves t0 U u -> q_at t0 U = q_map fst u.
  Proof. intros U u ((E & _) & (F & _) & (G & _) & (K & _)). unfold q_at, q_map. rewrite E, F, G, K. reflexivity. Qed.
  Lemma v_moves_in : forall N U u, length U = N -> v_moves t0 U u -> length u = N /\ vrel N (fun d c => moves t0 c d) u U.
  Proof.
    intros N U u L H. pose proof (Forall2_len H) as E. split; [congruence|]. split; [congruence|]. clear L E. induction H; constructor; auto.
  Qed.
  Lemma m_moves_in : forall M N U u, rect M N U -> m_moves t0 U u -> rect M N u /\ mrel M N (fun d c => moves t0 c d) u U.
  Proof.
    intros M N U u (L & F) H. pose proof (Forall2_len H) as E.
    assert (K : Forall2 (vrel N (fun d c => moves t0 c d)) u U).
    { clear L E. induction H as [|x y U u Hxy H IH]; constructor; inversion F; subst; auto. apply (@v_moves_in _ _ _ eq_refl Hxy). }
    assert (Q : mrel M N (fun d c => moves t0 c d) u U) by (split; auto; congruence). split; auto. apply (mrel_rect Q).
  Qed.
  Lemma v_moves_out : forall N (U : list (R -> R)) u, vrel N (fun d c => moves t0 c d) u U -> length U = N /\ length u = N /\ v_moves t0 U u.
  Proof. intros N U u H. destruct (vrel_length H). destruct H as (_ & F). repeat split; auto. clear - F. induction F; constructor; auto. Qed.
  Lemma m_moves_out : forall M N (U : list (list (R -> R))) u, mrel M N (fun d c => moves t0 c d) u U -> rect M N U /\ rect M N u /\ m_moves t0 U u.
  Proof.
    intros M N U u H. destruct (mrel_rect H). destruct H as (_ & F). repeat split; auto; try apply H0; try apply H1. clear - F. induction F; constructor; auto. eapply v_moves_out; eauto.
  Qed.
  (** From runs on dual numbers and on curves to the statement. *)
  Lemma both : forall D C B (S : D -> C -> Prop) (dr : res D) (cr : res C) (f : D -> B) (at_ : R -> C -> B) (rr : R -> res B) s,
    rrel false S dr cr -> (forall t, rr t = rmap (at_ t) cr) -> rr t0 = rmap f dr -> rr t0 = Ok s ->
    exists r W, dr = Ok r /\ S r W /\ forall t, rr t = Ok (at_ t W).
  Proof.
    intros D C B S dr cr f at_ rr s H A E Es. rewrite Es in E. destruct dr as [r| | |]; try discriminate E. destruct cr as [W| | |]; cbn in H; try contradiction.
    exists r, W. split; [reflexivity|]. split; [exact H|]. intros t. rewrite A. reflexivity.
  Qed.
End At.
Ltac prep := repeat match goal with
  | L : length ?U = ?N, H : v_moves ?t ?U ?u |- _ => match goal with K : vrel N _ u U |- _ => fail 1 | _ => destruct (@v_moves_in t N U u L H) as (? & ?) end
  | L : rect ?M ?N ?U, H : m_moves ?t ?U ?u |- _ => match goal with K : mrel M N _ u U |- _ => fail 1 | _ => destruct (@m_moves_in t M N U u L H) as (? & ?) end
  end.
Ltac turn H :=
  let r := fresh "r" in let W := fresh "W" in let E := fresh "E" in let S := fresh "S" in let A := fresh "A" in
  destruct H as (r & W & E & S & A); exists r, W; split; [exact E|split; [|exact A]];
  first [exact S | apply (v_moves_out S) | apply (m_moves_out S) | exact S].
Ltac ats := repeat match goal with
  | H : v_moves ?t ?U ?u |- _ => rewrite (v_moves_at H); clear H
  | H : m_moves ?t ?U ?u |- _ => rewrite (m_moves_at H); clear H
  | H : c_moves ?t ?U ?u |- _ => rewrite (c_moves_at H); clear H
  | H : q_moves ?t ?U ?u |- _ => rewrite (q_moves_at H); clear H
  | H : moves ?t ?U ?u |- _ => rewrite (s_moves_at H); clear H
  end.

Local Open Scope nat_scope.
(* ------------------------------------------------------------------------- *)
(** * C116: without division *)
Section C116.
  Context (t0 : R).
  Local Notation mv := (fun d c => moves t0 c d).

  Theorem C116_v_add : forall N U V u v s, length U = N -> length V = N -> v_moves t0 U u -> v_moves t0 V v -> v_add r_ops N (v_at t0 U) (v_at t0 V) = Ok s ->
    exists r W, v_add dual_ops N u v = Ok r /\ v_moves t0 W r /\ forall t, v_add r_ops N (v_at t U) (v_at t V) = Ok (v_at t W).
  Proof.
    intros. prep. turn (@both t0 _ _ _ _ (v_add dual_ops N u v) (v_add curve_ops N U V) (map fst) v_at (fun t => v_add r_ops N (v_at t U) (v_at t V)) s ltac:(eapply (rr_v_add (moves_rel t0)); eassumption)
      ltac:(intros t; cbv beta; unfold m_at, v_at, c_at, q_at; eapply (C72_v_add (curve_hom t)); eassumption) ltac:(cbv beta; ats; eapply (C72_v_add dual_hom); eassumption) ltac:(assumption)).
  Qed.
  Theorem C116_v_sub : forall N U V u v s, length U = N -> length V = N -> v_moves t0 U u -> v_moves t0 V v -> v_sub r_ops N (v_at t0 U) (v_at t0 V) = Ok s ->
    exists r W, v_sub dual_ops N u v = Ok r /\ v_moves t0 W r /\ forall t, v_sub r_ops N (v_at t U) (v_at t V) = Ok (v_at t W).
  Proof.
    intros. prep. turn (@both t0 _ _ _ _ (v_sub dual_ops N u v) (v_sub curve_ops N U V) (map fst) v_at (fun t => v_sub r_ops N (v_at t U) (v_at t V)) s ltac:(eapply (rr_v_sub (moves_rel t0)); eassumption)
      ltac:(intros t; cbv beta; unfold m_at, v_at, c_at, q_at; eapply (C72_v_sub (curve_hom t)); eassumption) ltac:(cbv beta; ats; eapply (C72_v_sub dual_hom); eassumption) ltac:(assumption)).
  Qed.
  Theorem C116_v_mul : forall N U V u v s, length U = N -> length V = N -> v_moves t0 U u -> v_moves t0 V v -> v_mul r_ops N (v_at t0 U) (v_at t0 V) = Ok s ->
    exists r W, v_mul dual_ops N u v = Ok r /\ v_moves t0 W r /\ forall t, v_mul r_ops N (v_at t U) (v_at t V) = Ok (v_at t W).
  Proof.
    intros. prep. turn (@both t0 _ _ _ _ (v_mul dual_ops N u v) (v_mul curve_ops N U V) (map fst) v_at (fun t => v_mul r_ops N (v_at t U) (v_at t V)) s ltac:(eapply (rr_v_mul (moves_rel t0)); eassumption)
      ltac:(intros t; cbv beta; unfold m_at, v_at, c_at, q_at; eapply (C72_v_mul (curve_hom t)); eassumption) ltac:(cbv beta; ats; eapply (C72_v_mul dual_hom); eassumption) ltac:(assumption)).
  Qed.
  Theorem C116_v_neg : forall N U u s, length U = N -> v_moves t0 U u -> v_neg r_ops (v_at t0 U) = Ok s ->
    exists r W, v_neg dual_ops u = Ok r /\ v_moves t0 W r /\ forall t, v_neg r_ops (v_at t U) = Ok (v_at t W).
  Proof.
    intros. prep. turn (@both t0 _ _ _ _ (v_neg dual_ops u) (v_neg curve_ops U) (map fst) v_at (fun t => v_neg r_ops (v_at t U)) s ltac:(eapply (rr_v_neg (moves_rel t0)); eassumption)
      ltac:(intros t; cbv beta; unfold m_at, v_at, c_at, q_at; eapply (C72_v_neg (curve_hom t)); eassumption) ltac:(cbv beta; ats; eapply (C72_v_neg dual_hom); eassumption) ltac:(assumption)).
  Qed.
  Theorem C116_v_smul : forall N U V u v s, length U = N -> v_moves t0 U u -> moves t0 V v -> v_smul r_ops (v_at t0 U) (V t0) = Ok s ->
    exists r W, v_smul dual_ops u v = Ok r /\ v_moves t0 W r /\ forall t, v_smul r_ops (v_at t U) (V t) = Ok (v_at t W).
  Proof.
    intros. prep. turn (@both t0 _ _ _ _ (v_smul dual_ops u v) (v_smul curve_ops U V) (map fst) v_at (fun t => v_smul r_ops (v_at t U) (V t)) s ltac:(eapply (rr_v_smul (moves_rel t0)); eassumption)
      ltac:(intros t; cbv beta; unfold m_at, v_at, c_at, q_at; eapply (C72_v_smul (curve_hom t)); eassumption) ltac:(cbv beta; ats; eapply (C72_v_smul dual_hom); eassumption) ltac:(assumption)).
  Qed.
  Theorem C116_v_sum : forall N U u s, length U = N -> v_moves t0 U u -> v_sum r_ops (v_at t0 U) = Ok s ->
    exists r W, v_sum dual_ops u = Ok r /\ moves t0 W r /\ forall t, v_sum r_ops (v_at t U) = Ok (W t).
  Proof.
    intros. prep. turn (@both t0 _ _ _ _ (v_sum dual_ops u) (v_sum curve_ops U) fst (fun t (c : R -> R) => c t) (fun t => v_sum r_ops (v_at t U)) s ltac:(eapply (rr_v_sum (moves_rel t0)); eassumption)
      ltac:(intros t; cbv beta; unfold m_at, v_at, c_at, q_at; eapply (C72_v_sum (curve_hom t)); eassumption) ltac:(cbv beta; ats; eapply (C72_v_sum dual_hom); eassumption) ltac:(assumption)).
  Qed.
  Theorem C116_v_dot : forall N U V u v s, length U = N -> length V = N -> v_moves t0 U u -> v_moves t0 V v -> v_dot r_ops N (v_at t0 U) (v_at t0 V) = Ok s ->
    exists r W, v_dot dual_ops N u v = Ok r /\ moves t0 W r /\ forall t, v_dot r_ops N (v_at t U) (v_at t V) = Ok (W t).
  Proof.
    intros. prep. turn (@both t0 _ _ _ _ (v_dot dual_ops N u v) (v_dot curve_ops N U V) fst (fun t (c : R -> R) => c t) (fun t => v_dot r_ops N (v_at t U) (v_at t V)) s ltac:(eapply (rr_v_dot (moves_rel t0)); eassumption)
      ltac:(intros t; cbv beta; unfold m_at, v_at, c_at, q_at; eapply (C72_v_dot (curve_hom t)); eassumption) ltac:(cbv beta; ats; eapply (C72_v_dot dual_hom); eassumption) ltac:(assumption)).
  Qed.
  Theorem C116_v_square_length : forall N U u s, length U = N -> v_moves t0 U u -> v_square_length r_ops (v_at t0 U) = Ok s ->
    exists r W, v_square_length dual_ops u = Ok r /\ moves t0 W r /\ forall t, v_square_length r_ops (v_at t U) = Ok (W t).
  Proof.
    intros. prep. turn (@both t0 _ _ _ _ (v_square_length dual_ops u) (v_square_length curve_ops U) fst (fun t (c : R -> R) => c t) (fun t => v_square_length r_ops (v_at t U)) s ltac:(eapply (rr_v_square_length (moves_rel t0)); eassumption)
      ltac:(intros t; cbv beta; unfold m_at, v_at, c_at, q_at; eapply (C72_v_square_length (curve_hom t)); eassumption) ltac:(cbv beta; ats; eapply (C72_v_square_length dual_hom); eassumption) ltac:(assumption)).
  Qed.
  Theorem C116_v_cross2 : forall U V u v s, length U = 2 -> length V = 2 -> v_moves t0 U u -> v_moves t0 V v -> v_cross2 r_ops (v_at t0 U) (v_at t0 V) = Ok s ->
    exists r W, v_cross2 dual_ops u v = Ok r /\ moves t0 W r /\ forall t, v_cross2 r_ops (v_at t U) (v_at t V) = Ok (W t).
  Proof.
    intros. prep. turn (@both t0 _ _ _ _ (v_cross2 dual_ops u v) (v_cross2 curve_ops U V) fst (fun t (c : R -> R) => c t) (fun t => v_cross2 r_ops (v_at t U) (v_at t V)) s ltac:(eapply (rr_v_cross2 (moves_rel t0)); eassumption)
      ltac:(intros t; cbv beta; unfold m_at, v_at, c_at, q_at; eapply (C72_v_cross2 (curve_hom t)); eassumption) ltac:(cbv beta; ats; eapply (C72_v_cross2 dual_hom); eassumption) ltac:(assumption)).
  Qed.
  Theorem C116_v_cross3 : forall U V u v s, length U = 3 -> length V = 3 -> v_moves t0 U u -> v_moves t0 V v -> v_cross3 r_ops (v_at t0 U) (v_at t0 V) = Ok s ->
    exists r W, v_cross3 dual_ops u v = Ok r /\ v_moves t0 W r /\ forall t, v_cross3 r_ops (v_at t U) (v_at t V) = Ok (v_at t W).
  Proof.
    intros. prep. turn (@both t0 _ _ _ _ (v_cross3 dual_ops u v) (v_cross3 curve_ops U V) (map fst) v_at (fun t => v_cross3 r_ops (v_at t U) (v_at t V)) s ltac:(eapply (rr_v_cross3 (moves_rel t0)); eassumption)
      ltac:(intros t; cbv beta; unfold m_at, v_at, c_at, q_at; eapply (C72_v_cross3 (curve_hom t)); eassumption) ltac:(cbv beta; ats; eapply (C72_v_cross3 dual_hom); eassumption) ltac:(assumption)).
  Qed.
  Theorem C116_v_cross4 : forall U V u v s, length U = 4 -> length V = 4 -> v_moves t0 U u -> v_moves t0 V v -> v_cross4 r_ops (v_at t0 U) (v_at t0 V) = Ok s ->
    exists r W, v_cross4 dual_ops u v = Ok r /\ v_moves t0 W r /\ forall t, v_cross4 r_ops (v_at t U) (v_at t V) = Ok (v_at t W).
  Proof.
    intros. prep. turn (@both t0 _ _ _ _ (v_cross4 dual_ops u v) (v_cross4 curve_ops U V) (map fst) v_at (fun t => v_cross4 r_ops (v_at t U) (v_at t V)) s ltac:(eapply (rr_v_cross4 (moves_rel t0)); eassumption)
      ltac:(intros t; cbv beta; unfold m_at, v_at, c_at, q_at; eapply (C72_v_cross4 (curve_hom t)); eassumption) ltac:(cbv beta; ats; eapply (C72_v_cross4 dual_hom); eassumption) ltac:(assumption)).
  Qed.
  Theorem C116_m_add : forall M N U V u v s, rect M N U -> rect M N V -> m_moves t0 U u -> m_moves t0 V v -> m_add r_ops M N (m_at t0 U) (m_at t0 V) = Ok s ->
    exists r W, m_add dual_ops M N u v = Ok r /\ m_moves t0 W r /\ forall t, m_add r_ops M N (m_at t U) (m_at t V) = Ok (m_at t W).
  Proof.
    intros. prep. turn (@both t0 _ _ _ _ (m_add dual_ops M N u v) (m_add curve_ops M N U V) (map (map fst)) m_at (fun t => m_add r_ops M N (m_at t U) (m_at t V)) s ltac:(eapply (rr_m_add (moves_rel t0)); eassumption)
      ltac:(intros t; cbv beta; unfold m_at, v_at, c_at, q_at; eapply (C72_m_add (curve_hom t)); eassumption) ltac:(cbv beta; ats; eapply (C72_m_add dual_hom); eassumption) ltac:(assumption)).
  Qed.
  Theorem C116_m_sub : forall M N U V u v s, rect M N U -> rect M N V -> m_moves t0 U u -> m_moves t0 V v -> m_sub r_ops M N (m_at t0 U) (m_at t0 V) = Ok s ->
    exists r W, m_sub dual_ops M N u v = Ok r /\ m_moves t0 W r /\ forall t, m_sub r_ops M N (m_at t U) (m_at t V) = Ok (m_at t W).
  Proof.
    intros. prep. turn (@both t0 _ _ _ _ (m_sub dual_ops M N u v) (m_sub curve_ops M N U V) (map (map fst)) m_at (fun t => m_sub r_ops M N (m_at t U) (m_at t V)) s ltac:(eapply (rr_m_sub (moves_rel t0)); eassumption)
      ltac:(intros t; cbv beta; unfold m_at, v_at, c_at, q_at; eapply (C72_m_sub (curve_hom t)); eassumption) ltac:(cbv beta; ats; eapply (C72_m_sub dual_hom); eassumption) ltac:(assumption)).
  Qed.
  Theorem C116_m_mul : forall M N U V u v s, rect M N U -> rect M N V -> m_moves t0 U u -> m_moves t0 V v -> m_mul r_ops M N (m_at t0 U) (m_at t0 V) = Ok s ->
    exists r W, m_mul dual_ops M N u v = Ok r /\ m_moves t0 W r /\ forall t, m_mul r_ops M N (m_at t U) (m_at t V) = Ok (m_at t W).
  Proof.
    intros. prep. turn (@both t0 _ _ _ _ (m_mul dual_ops M N u v) (m_mul curve_ops M N U V) (map (map fst)) m_at (fun t => m_mul r_ops M N (m_at t U) (m_at t V)) s ltac:(eapply (rr_m_mul (moves_rel t0)); eassumption)
      ltac:(intros t; cbv beta; unfold m_at, v_at, c_at, q_at; eapply (C72_m_mul (curve_hom t)); eassumption) ltac:(cbv beta; ats; eapply (C72_m_mul dual_hom); eassumption) ltac:(assumption)).
  Qed.
  Theorem C116_m_neg : forall M N U u s, rect M N U -> m_moves t0 U u -> m_neg r_ops (m_at t0 U) = Ok s ->
    exists r W, m_neg dual_ops u = Ok r /\ m_moves t0 W r /\ forall t, m_neg r_ops (m_at t U) = Ok (m_at t W).
  Proof.
    intros. prep. turn (@both t0 _ _ _ _ (m_neg dual_ops u) (m_neg curve_ops U) (map (map fst)) m_at (fun t => m_neg r_ops (m_at t U)) s ltac:(eapply (rr_m_neg (moves_rel t0)); eassumption)
      ltac:(intros t; cbv beta; unfold m_at, v_at, c_at, q_at; eapply (C72_m_neg (curve_hom t)); eassumption) ltac:(cbv beta; ats; eapply (C72_m_neg dual_hom); eassumption) ltac:(assumption)).
  Qed.
  Theorem C116_m_smul : forall M N U V u v s, rect M N U -> m_moves t0 U u -> moves t0 V v -> m_smul r_ops (m_at t0 U) (V t0) = Ok s ->
    exists r W, m_smul dual_ops u v = Ok r /\ m_moves t0 W r /\ forall t, m_smul r_ops (m_at t U) (V t) = Ok (m_at t W).
  Proof.
    intros. prep. turn (@both t0 _ _ _ _ (m_smul dual_ops u v) (m_smul curve_ops U V) (map (map fst)) m_at (fun t => m_smul r_ops (m_at t U) (V t)) s ltac:(eapply (rr_m_smul (moves_rel t0)); eassumption)
      ltac:(intros t; cbv beta; unfold m_at, v_at, c_at, q_at; eapply (C72_m_smul (curve_hom t)); eassumption) ltac:(cbv beta; ats; eapply (C72_m_smul dual_hom); eassumption) ltac:(assumption)).
  Qed.
  Theorem C116_m_sum : forall M N U u s, rect M N U -> m_moves t0 U u -> m_sum r_ops (m_at t0 U) = Ok s ->
    exists r W, m_sum dual_ops u = Ok r /\ moves t0 W r /\ forall t, m_sum r_ops (m_at t U) = Ok (W t).
  Proof.
    intros. prep. turn (@both t0 _ _ _ _ (m_sum dual_ops u) (m_sum curve_ops U) fst (fun t (c : R -> R) => c t) (fun t => m_sum r_ops (m_at t U)) s ltac:(eapply (rr_m_sum (moves_rel t0)); eassumption)
      ltac:(intros t; cbv beta; unfold m_at, v_at, c_at, q_at; eapply (C72_m_sum (curve_hom t)); eassumption) ltac:(cbv beta; ats; eapply (C72_m_sum dual_hom); eassumption) ltac:(assumption)).
  Qed.
  Theorem C116_m_dot : forall L M N U V u v s, rect L M U -> rect M N V -> m_moves t0 U u -> m_moves t0 V v -> m_dot r_ops L M N (m_at t0 U) (m_at t0 V) = Ok s ->
    exists r W, m_dot dual_ops L M N u v = Ok r /\ m_moves t0 W r /\ forall t, m_dot r_ops L M N (m_at t U) (m_at t V) = Ok (m_at t W).
  Proof.
    intros. prep. turn (@both t0 _ _ _ _ (m_dot dual_ops L M N u v) (m_dot curve_ops L M N U V) (map (map fst)) m_at (fun t => m_dot r_ops L M N (m_at t U) (m_at t V)) s ltac:(eapply (rr_m_dot (moves_rel t0)); eassumption)
      ltac:(intros t; cbv beta; unfold m_at, v_at, c_at, q_at; eapply (C72_m_dot (curve_hom t)); eassumption) ltac:(cbv beta; ats; eapply (C72_m_dot dual_hom); eassumption) ltac:(assumption)).
  Qed.
  Theorem C116_m_dot_v : forall M N U V u v s, rect M N U -> length V = N -> m_moves t0 U u -> v_moves t0 V v -> m_dot_v r_ops M N (m_at t0 U) (v_at t0 V) = Ok s ->
    exists r W, m_dot_v dual_ops M N u v = Ok r /\ v_moves t0 W r /\ forall t, m_dot_v r_ops M N (m_at t U) (v_at t V) = Ok (v_at t W).
  Proof.
    intros. prep. turn (@both t0 _ _ _ _ (m_dot_v dual_ops M N u v) (m_dot_v curve_ops M N U V) (map fst) v_at (fun t => m_dot_v r_ops M N (m_at t U) (v_at t V)) s ltac:(eapply (rr_m_dot_v (moves_rel t0)); eassumption)
      ltac:(intros t; cbv beta; unfold m_at, v_at, c_at, q_at; eapply (C72_m_dot_v (curve_hom t)); eassumption) ltac:(cbv beta; ats; eapply (C72_m_dot_v dual_hom); eassumption) ltac:(assumption)).
  Qed.
  Theorem C116_v_dot_m : forall M N U V u v s, length U = M -> rect M N V -> v_moves t0 U u -> m_moves t0 V v -> v_dot_m r_ops M N (v_at t0 U) (m_at t0 V) = Ok s ->
    exists r W, v_dot_m dual_ops M N u v = Ok r /\ v_moves t0 W r /\ forall t, v_dot_m r_ops M N (v_at t U) (m_at t V) = Ok (v_at t W).
  Proof.
    intros. prep. turn (@both t0 _ _ _ _ (v_dot_m dual_ops M N u v) (v_dot_m curve_ops M N U V) (map fst) v_at (fun t => v_dot_m r_ops M N (v_at t U) (m_at t V)) s ltac:(eapply (rr_v_dot_m (moves_rel t0)); eassumption)
      ltac:(intros t; cbv beta; unfold m_at, v_at, c_at, q_at; eapply (C72_v_dot_m (curve_hom t)); eassumption) ltac:(cbv beta; ats; eapply (C72_v_dot_m dual_hom); eassumption) ltac:(assumption)).
  Qed.
  Theorem C116_m_outer : forall M N U V u v s, length U = M -> length V = N -> v_moves t0 U u -> v_moves t0 V v -> m_outer r_ops M N (v_at t0 U) (v_at t0 V) = Ok s ->
    exists r W, m_outer dual_ops M N u v = Ok r /\ m_moves t0 W r /\ forall t, m_outer r_ops M N (v_at t U) (v_at t V) = Ok (m_at t W).
  Proof.
    intros. prep. turn (@both t0 _ _ _ _ (m_outer dual_ops M N u v) (m_outer curve_ops M N U V) (map (map fst)) m_at (fun t => m_outer r_ops M N (v_at t U) (v_at t V)) s ltac:(eapply (rr_m_outer (moves_rel t0)); eassumption)
      ltac:(intros t; cbv beta; unfold m_at, v_at, c_at, q_at; eapply (C72_m_outer (curve_hom t)); eassumption) ltac:(cbv beta; ats; eapply (C72_m_outer dual_hom); eassumption) ltac:(assumption)).
  Qed.
  Theorem C116_m_det : forall N U u s, rect N N U -> m_moves t0 U u -> m_det r_ops N (m_at t0 U) = Ok s ->
    exists r W, m_det dual_ops N u = Ok r /\ moves t0 W r /\ forall t, m_det r_ops N (m_at t U) = Ok (W t).
  Proof.
    intros. prep. turn (@both t0 _ _ _ _ (m_det dual_ops N u) (m_det curve_ops N U) fst (fun t (c : R -> R) => c t) (fun t => m_det r_ops N (m_at t U)) s ltac:(eapply (rr_m_det (moves_rel t0)); eassumption)
      ltac:(intros t; cbv beta; unfold m_at, v_at, c_at, q_at; eapply (C72_m_det (curve_hom t)); eassumption) ltac:(cbv beta; ats; eapply (C72_m_det dual_hom); eassumption) ltac:(assumption)).
  Qed.
  Theorem C116_m_cofactor : forall N i j U u s, rect N N U -> m_moves t0 U u -> m_cofactor r_ops N (m_at t0 U) i j = Ok s ->
    exists r W, m_cofactor dual_ops N u i j = Ok r /\ moves t0 W r /\ forall t, m_cofactor r_ops N (m_at t U) i j = Ok (W t).
  Proof.
    intros. prep. turn (@both t0 _ _ _ _ (m_cofactor dual_ops N u i j) (m_cofactor curve_ops N U i j) fst (fun t (c : R -> R) => c t) (fun t => m_cofactor r_ops N (m_at t U) i j) s ltac:(eapply (rr_m_cofactor (moves_rel t0)); eassumption)
      ltac:(intros t; cbv beta; unfold m_at, v_at, c_at, q_at; eapply (C72_m_cofactor (curve_hom t)); eassumption) ltac:(cbv beta; ats; eapply (C72_m_cofactor dual_hom); eassumption) ltac:(assumption)).
  Qed.
  Theorem C116_m_adj : forall N U u s, rect N N U -> m_moves t0 U u -> m_adj r_ops N (m_at t0 U) = Ok s ->
    exists r W, m_adj dual_ops N u = Ok r /\ m_moves t0 W r /\ forall t, m_adj r_ops N (m_at t U) = Ok (m_at t W).
  Proof.
    intros. prep. turn (@both t0 _ _ _ _ (m_adj dual_ops N u) (m_adj curve_ops N U) (map (map fst)) m_at (fun t => m_adj r_ops N (m_at t U)) s ltac:(eapply (rr_m_adj (moves_rel t0)); eassumption)
      ltac:(intros t; cbv beta; unfold m_at, v_at, c_at, q_at; eapply (C72_m_adj (curve_hom t)); eassumption) ltac:(cbv beta; ats; eapply (C72_m_adj dual_hom); eassumption) ltac:(assumption)).
  Qed.
  Theorem C116_c_add : forall U V u v s, c_moves t0 U u -> c_moves t0 V v -> c_add r_ops (c_at t0 U) (c_at t0 V) = Ok s ->
    exists r W, c_add dual_ops u v = Ok r /\ c_moves t0 W r /\ forall t, c_add r_ops (c_at t U) (c_at t V) = Ok (c_at t W).
  Proof.
    intros. prep. turn (@both t0 _ _ _ _ (c_add dual_ops u v) (c_add curve_ops U V) (c_map fst) c_at (fun t => c_add r_ops (c_at t U) (c_at t V)) s ltac:(eapply (rr_c_add (moves_rel t0)); eassumption)
      ltac:(intros t; cbv beta; unfold m_at, v_at, c_at, q_at; eapply (C72_c_add (curve_hom t)); eassumption) ltac:(cbv beta; ats; eapply (C72_c_add dual_hom); eassumption) ltac:(assumption)).
  Qed.
  Theorem C116_c_sub : forall U V u v s, c_moves t0 U u -> c_moves t0 V v -> c_sub r_ops (c_at t0 U) (c_at t0 V) = Ok s ->
    exists r W, c_sub dual_ops u v = Ok r /\ c_moves t0 W r /\ forall t, c_sub r_ops (c_at t U) (c_at t V) = Ok (c_at t W).
  Proof.
    intros. prep. turn (@both t0 _ _ _ _ (c_sub dual_ops u v) (c_sub curve_ops U V) (c_map fst) c_at (fun t => c_sub r_ops (c_at t U) (c_at t V)) s ltac:(eapply (rr_c_sub (moves_rel t0)); eassumption)
      ltac:(intros t; cbv beta; unfold m_at, v_at, c_at, q_at; eapply (C72_c_sub (curve_hom t)); eassumption) ltac:(cbv beta; ats; eapply (C72_c_sub dual_hom); eassumption) ltac:(assumption)).
  Qed.
  Theorem C116_c_mul : forall U V u v s, c_moves t0 U u -> c_moves t0 V v -> c_mul r_ops (c_at t0 U) (c_at t0 V) = Ok s ->
    exists r W, c_mul dual_ops u v = Ok r /\ c_moves t0 W r /\ forall t, c_mul r_ops (c_at t U) (c_at t V) = Ok (c_at t W).
  Proof.
    intros. prep. turn (@both t0 _ _ _ _ (c_mul dual_ops u v) (c_mul curve_ops U V) (c_map fst) c_at (fun t => c_mul r_ops (c_at t U) (c_at t V)) s ltac:(eapply (rr_c_mul (moves_rel t0)); eassumption)
      ltac:(intros t; cbv beta; unfold m_at, v_at, c_at, q_at; eapply (C72_c_mul (curve_hom t)); eassumption) ltac:(cbv beta; ats; eapply (C72_c_mul dual_hom); eassumption) ltac:(assumption)).
  Qed.
  Theorem C116_c_neg : forall U u s, c_moves t0 U u -> c_neg r_ops (c_at t0 U) = Ok s ->
    exists r W, c_neg dual_ops u = Ok r /\ c_moves t0 W r /\ forall t, c_neg r_ops (c_at t U) = Ok (c_at t W).
  Proof.
    intros. prep. turn (@both t0 _ _ _ _ (c_neg dual_ops u) (c_neg curve_ops U) (c_map fst) c_at (fun t => c_neg r_ops (c_at t U)) s ltac:(eapply (rr_c_neg (moves_rel t0)); eassumption)
      ltac:(intros t; cbv beta; unfold m_at, v_at, c_at, q_at; eapply (C72_c_neg (curve_hom t)); eassumption) ltac:(cbv beta; ats; eapply (C72_c_neg dual_hom); eassumption) ltac:(assumption)).
  Qed.
  Theorem C116_c_conj : forall U u s, c_moves t0 U u -> c_conj r_ops (c_at t0 U) = Ok s ->
    exists r W, c_conj dual_ops u = Ok r /\ c_moves t0 W r /\ forall t, c_conj r_ops (c_at t U) = Ok (c_at t W).
  Proof.
    intros. prep. turn (@both t0 _ _ _ _ (c_conj dual_ops u) (c_conj curve_ops U) (c_map fst) c_at (fun t => c_conj r_ops (c_at t U)) s ltac:(eapply (rr_c_conj (moves_rel t0)); eassumption)
      ltac:(intros t; cbv beta; unfold m_at, v_at, c_at, q_at; eapply (C72_c_conj (curve_hom t)); eassumption) ltac:(cbv beta; ats; eapply (C72_c_conj dual_hom); eassumption) ltac:(assumption)).
  Qed.
  Theorem C116_c_mul_s : forall U V u v s, c_moves t0 U u -> moves t0 V v -> c_mul_s r_ops (c_at t0 U) (V t0) = Ok s ->
    exists r W, c_mul_s dual_ops u v = Ok r /\ c_moves t0 W r /\ forall t, c_mul_s r_ops (c_at t U) (V t) = Ok (c_at t W).
  Proof.
    intros. prep. turn (@both t0 _ _ _ _ (c_mul_s dual_ops u v) (c_mul_s curve_ops U V) (c_map fst) c_at (fun t => c_mul_s r_ops (c_at t U) (V t)) s ltac:(eapply (rr_c_mul_s (moves_rel t0)); eassumption)
      ltac:(intros t; cbv beta; unfold m_at, v_at, c_at, q_at; eapply (C72_c_mul_s (curve_hom t)); eassumption) ltac:(cbv beta; ats; eapply (C72_c_mul_s dual_hom); eassumption) ltac:(assumption)).
  Qed.
  Theorem C116_c_norm_sqr : forall U u s, c_moves t0 U u -> c_norm_sqr r_ops (c_at t0 U) = Ok s ->
    exists r W, c_norm_sqr dual_ops u = Ok r /\ moves t0 W r /\ forall t, c_norm_sqr r_ops (c_at t U) = Ok (W t).
  Proof.
    intros. prep. turn (@both t0 _ _ _ _ (c_norm_sqr dual_ops u) (c_norm_sqr curve_ops U) fst (fun t (c : R -> R) => c t) (fun t => c_norm_sqr r_ops (c_at t U)) s ltac:(eapply (rr_c_norm_sqr (moves_rel t0)); eassumption)
      ltac:(intros t; cbv beta; unfold m_at, v_at, c_at, q_at; eapply (C72_c_norm_sqr (curve_hom t)); eassumption) ltac:(cbv beta; ats; eapply (C72_c_norm_sqr dual_hom); eassumption) ltac:(assumption)).
  Qed.
  Theorem C116_c_dot : forall U V u v s, c_moves t0 U u -> c_moves t0 V v -> c_dot r_ops (c_at t0 U) (c_at t0 V) = Ok s ->
    exists r W, c_dot dual_ops u v = Ok r /\ moves t0 W r /\ forall t, c_dot r_ops (c_at t U) (c_at t V) = Ok (W t).
  Proof.
    intros. prep. turn (@both t0 _ _ _ _ (c_dot dual_ops u v) (c_dot curve_ops U V) fst (fun t (c : R -> R) => c t) (fun t => c_dot r_ops (c_at t U) (c_at t V)) s ltac:(eapply (rr_c_dot (moves_rel t0)); eassumption)
      ltac:(intros t; cbv beta; unfold m_at, v_at, c_at, q_at; eapply (C72_c_dot (curve_hom t)); eassumption) ltac:(cbv beta; ats; eapply (C72_c_dot dual_hom); eassumption) ltac:(assumption)).
  Qed.
  Theorem C116_q_add : forall U V u v s, q_moves t0 U u -> q_moves t0 V v -> q_add r_ops (q_at t0 U) (q_at t0 V) = Ok s ->
    exists r W, q_add dual_ops u v = Ok r /\ q_moves t0 W r /\ forall t, q_add r_ops (q_at t U) (q_at t V) = Ok (q_at t W).
  Proof.
    intros. prep. turn (@both t0 _ _ _ _ (q_add dual_ops u v) (q_add curve_ops U V) (q_map fst) q_at (fun t => q_add r_ops (q_at t U) (q_at t V)) s ltac:(eapply (rr_q_add (moves_rel t0)); eassumption)
      ltac:(intros t; cbv beta; unfold m_at, v_at, c_at, q_at; eapply (C72_q_add (curve_hom t)); eassumption) ltac:(cbv beta; ats; eapply (C72_q_add dual_hom); eassumption) ltac:(assumption)).
  Qed.
  Theorem C116_q_sub : forall U V u v s, q_moves t0 U u -> q_moves t0 V v -> q_sub r_ops (q_at t0 U) (q_at t0 V) = Ok s ->
    exists r W, q_sub dual_ops u v = Ok r /\ q_moves t0 W r /\ forall t, q_sub r_ops (q_at t U) (q_at t V) = Ok (q_at t W).
  Proof.
    intros. prep. turn (@both t0 _ _ _ _ (q_sub dual_ops u v) (q_sub curve_ops U V) (q_map fst) q_at (fun t => q_sub r_ops (q_at t U) (q_at t V)) s ltac:(eapply (rr_q_sub (moves_rel t0)); eassumption)
      ltac:(intros t; cbv beta; unfold m_at, v_at, c_at, q_at; eapply (C72_q_sub (curve_hom t)); eassumption) ltac:(cbv beta; ats; eapply (C72_q_sub dual_hom); eassumption) ltac:(assumption)).
  Qed.
  Theorem C116_q_mul : forall U V u v s, q_moves t0 U u -> q_moves t0 V v -> q_mul r_ops (q_at t0 U) (q_at t0 V) = Ok s ->
    exists r W, q_mul dual_ops u v = Ok r /\ q_moves t0 W r /\ forall t, q_mul r_ops (q_at t U) (q_at t V) = Ok (q_at t W).
  Proof.
    intros. prep. turn (@both t0 _ _ _ _ (q_mul dual_ops u v) (q_mul curve_ops U V) (q_map fst) q_at (fun t => q_mul r_ops (q_at t U) (q_at t V)) s ltac:(eapply (rr_q_mul (moves_rel t0)); eassumption)
      ltac:(intros t; cbv beta; unfold m_at, v_at, c_at, q_at; eapply (C72_q_mul (curve_hom t)); eassumption) ltac:(cbv beta; ats; eapply (C72_q_mul dual_hom); eassumption) ltac:(assumption)).
  Qed.
  Theorem C116_q_neg : forall U u s, q_moves t0 U u -> q_neg r_ops (q_at t0 U) = Ok s ->
    exists r W, q_neg dual_ops u = Ok r /\ q_moves t0 W r /\ forall t, q_neg r_ops (q_at t U) = Ok (q_at t W).
  Proof.
    intros. prep. turn (@both t0 _ _ _ _ (q_neg dual_ops u) (q_neg curve_ops U) (q_map fst) q_at (fun t => q_neg r_ops (q_at t U)) s ltac:(eapply (rr_q_neg (moves_rel t0)); eassumption)
      ltac:(intros t; cbv beta; unfold m_at, v_at, c_at, q_at; eapply (C72_q_neg (curve_hom t)); eassumption) ltac:(cbv beta; ats; eapply (C72_q_neg dual_hom); eassumption) ltac:(assumption)).
  Qed.
  Theorem C116_q_conj : forall U u s, q_moves t0 U u -> q_conj r_ops (q_at t0 U) = Ok s ->
    exists r W, q_conj dual_ops u = Ok r /\ q_moves t0 W r /\ forall t, q_conj r_ops (q_at t U) = Ok (q_at t W).
  Proof.
    intros. prep. turn (@both t0 _ _ _ _ (q_conj dual_ops u) (q_conj curve_ops U) (q_map fst) q_at (fun t => q_conj r_ops (q_at t U)) s ltac:(eapply (rr_q_conj (moves_rel t0)); eassumption)
      ltac:(intros t; cbv beta; unfold m_at, v_at, c_at, q_at; eapply (C72_q_conj (curve_hom t)); eassumption) ltac:(cbv beta; ats; eapply (C72_q_conj dual_hom); eassumption) ltac:(assumption)).
  Qed.
  Theorem C116_q_mul_s : forall U V u v s, q_moves t0 U u -> moves t0 V v -> q_mul_s r_ops (q_at t0 U) (V t0) = Ok s ->
    exists r W, q_mul_s dual_ops u v = Ok r /\ q_moves t0 W r /\ forall t, q_mul_s r_ops (q_at t U) (V t) = Ok (q_at t W).
  Proof.
    intros. prep. turn (@both t0 _ _ _ _ (q_mul_s dual_ops u v) (q_mul_s curve_ops U V) (q_map fst) q_at (fun t => q_mul_s r_ops (q_at t U) (V t)) s ltac:(eapply (rr_q_mul_s (moves_rel t0)); eassumption)
      ltac:(intros t; cbv beta; unfold m_at, v_at, c_at, q_at; eapply (C72_q_mul_s (curve_hom t)); eassumption) ltac:(cbv beta; ats; eapply (C72_q_mul_s dual_hom); eassumption) ltac:(assumption)).
  Qed.
  Theorem C116_q_mul_c : forall U V u v s, q_moves t0 U u -> c_moves t0 V v -> q_mul_c r_ops (q_at t0 U) (c_at t0 V) = Ok s ->
    exists r W, q_mul_c dual_ops u v = Ok r /\ q_moves t0 W r /\ forall t, q_mul_c r_ops (q_at t U) (c_at t V) = Ok (q_at t W).
  Proof.
    intros. prep. turn (@both t0 _ _ _ _ (q_mul_c dual_ops u v) (q_mul_c curve_ops U V) (q_map fst) q_at (fun t => q_mul_c r_ops (q_at t U) (c_at t V)) s ltac:(eapply (rr_q_mul_c (moves_rel t0)); eassumption)
      ltac:(intros t; cbv beta; unfold m_at, v_at, c_at, q_at; eapply (C72_q_mul_c (curve_hom t)); eassumption) ltac:(cbv beta; ats; eapply (C72_q_mul_c dual_hom); eassumption) ltac:(assumption)).
  Qed.
  Theorem C116_c_mul_q : forall U V u v s, c_moves t0 U u -> q_moves t0 V v -> c_mul_q r_ops (c_at t0 U) (q_at t0 V) = Ok s ->
    exists r W, c_mul_q dual_ops u v = Ok r /\ q_moves t0 W r /\ forall t, c_mul_q r_ops (c_at t U) (q_at t V) = Ok (q_at t W).
  Proof.
    intros. prep. turn (@both t0 _ _ _ _ (c_mul_q dual_ops u v) (c_mul_q curve_ops U V) (q_map fst) q_at (fun t => c_mul_q r_ops (c_at t U) (q_at t V)) s ltac:(eapply (rr_c_mul_q (moves_rel t0)); eassumption)
      ltac:(intros t; cbv beta; unfold m_at, v_at, c_at, q_at; eapply (C72_c_mul_q (curve_hom t)); eassumption) ltac:(cbv beta; ats; eapply (C72_c_mul_q dual_hom); eassumption) ltac:(assumption)).
  Qed.
  Theorem C116_q_norm_sqr : forall U u s, q_moves t0 U u -> q_norm_sqr r_ops (q_at t0 U) = Ok s ->
    exists r W, q_norm_sqr dual_ops u = Ok r /\ moves t0 W r /\ forall t, q_norm_sqr r_ops (q_at t U) = Ok (W t).
  Proof.
    intros. prep. turn (@both t0 _ _ _ _ (q_norm_sqr dual_ops u) (q_norm_sqr curve_ops U) fst (fun t (c : R -> R) => c t) (fun t => q_norm_sqr r_ops (q_at t U)) s ltac:(eapply (rr_q_norm_sqr (moves_rel t0)); eassumption)
      ltac:(intros t; cbv beta; unfold m_at, v_at, c_at, q_at; eapply (C72_q_norm_sqr (curve_hom t)); eassumption) ltac:(cbv beta; ats; eapply (C72_q_norm_sqr dual_hom); eassumption) ltac:(assumption)).
  Qed.
  Theorem C116_q_dot : forall U V u v s, q_moves t0 U u -> q_moves t0 V v -> q_dot r_ops (q_at t0 U) (q_at t0 V) = Ok s ->
    exists r W, q_dot dual_ops u v = Ok r /\ moves t0 W r /\ forall t, q_dot r_ops (q_at t U) (q_at t V) = Ok (W t).
  Proof.
    intros. prep. turn (@both t0 _ _ _ _ (q_dot dual_ops u v) (q_dot curve_ops U V) fst (fun t (c : R -> R) => c t) (fun t => q_dot r_ops (q_at t U) (q_at t V)) s ltac:(eapply (rr_q_dot (moves_rel t0)); eassumption)
      ltac:(intros t; cbv beta; unfold m_at, v_at, c_at, q_at; eapply (C72_q_dot (curve_hom t)); eassumption) ltac:(cbv beta; ats; eapply (C72_q_dot dual_hom); eassumption) ltac:(assumption)).
  Qed.
  Theorem C116_rot2_apply : forall U V u v s, length V = 2 -> c_moves t0 U u -> v_moves t0 V v -> rot2_apply r_ops (c_at t0 U) (v_at t0 V) = Ok s ->
    exists r W, rot2_apply dual_ops u v = Ok r /\ v_moves t0 W r /\ forall t, rot2_apply r_ops (c_at t U) (v_at t V) = Ok (v_at t W).
  Proof.
    intros. prep. turn (@both t0 _ _ _ _ (rot2_apply dual_ops u v) (rot2_apply curve_ops U V) (map fst) v_at (fun t => rot2_apply r_ops (c_at t U) (v_at t V)) s ltac:(eapply (rr_rot2_apply (moves_rel t0)); eassumption)
      ltac:(intros t; cbv beta; unfold m_at, v_at, c_at, q_at; eapply (C72_rot2_apply (curve_hom t)); eassumption) ltac:(cbv beta; ats; eapply (C72_rot2_apply dual_hom); eassumption) ltac:(assumption)).
  Qed.
  Theorem C116_rot3_apply : forall U V u v s, length V = 3 -> q_moves t0 U u -> v_moves t0 V v -> rot3_apply r_ops (q_at t0 U) (v_at t0 V) = Ok s ->
    exists r W, rot3_apply dual_ops u v = Ok r /\ v_moves t0 W r /\ forall t, rot3_apply r_ops (q_at t U) (v_at t V) = Ok (v_at t W).
  Proof.
    intros. prep. turn (@both t0 _ _ _ _ (rot3_apply dual_ops u v) (rot3_apply curve_ops U V) (map fst) v_at (fun t => rot3_apply r_ops (q_at t U) (v_at t V)) s ltac:(eapply (rr_rot3_apply (moves_rel t0)); eassumption)
      ltac:(intros t; cbv beta; unfold m_at, v_at, c_at, q_at; eapply (C72_rot3_apply (curve_hom t)); eassumption) ltac:(cbv beta; ats; eapply (C72_rot3_apply dual_hom); eassumption) ltac:(assumption)).
  Qed.
End C116.

(* ------------------------------------------------------------------------- *)
(** * C116: with division; the denominators stay away from zero for some time *)
Section Near.
  Context (t0 : R).
  Lemma near_and : forall (P Q : R -> Prop), near t0 P -> near t0 Q -> near t0 (fun t => P t /\ Q t).
  Proof.
    intros P Q (d & Hd & H) (e & He & K). exists (Rmin d e). split; [apply Rmin_glb_lt; auto|]. intros t Ht. pose proof (Rmin_l d e). pose proof (Rmin_r d e).
    split; [apply H|apply K]; lra.
  Qed.
  Lemma near_all : forall (P : R -> Prop), (forall t, P t) -> near t0 P.
  Proof. intros P H. exists 1%R. split; [lra|auto]. Qed.
  Lemma near_mono : forall (P Q : R -> Prop), near t0 P -> (forall t, P t -> Q t) -> near t0 Q.
  Proof. intros P Q (d & Hd & H) K. exists d. auto. Qed.
  (** The run on dual numbers returns the values and derivatives of what the run on reals returns, for some time. *)
  Definition dres {C D B : Type} (S : C -> D -> Prop) (at_ : R -> C -> B) (d : res D) (b : R -> res B) : Prop :=
    match d with Ok r => exists W, S W r /\ near t0 (fun t => b t = Ok (at_ t W)) | _ => True end.
  Lemma d_bind : forall C D B C' D' B' (S : C -> D -> Prop) (at_ : R -> C -> B) (S' : C' -> D' -> Prop) (at' : R -> C' -> B') d b f g,
    dres S at_ d b -> (forall W r, S W r -> dres S' at' (f r) (fun t => g t (at_ t W))) -> dres S' at' (bind d f) (fun t => bind (b t) (g t)).
  Proof.
    intros C D B C' D' B' S at_ S' at' d b f g H K. destruct d as [r| | |]; cbn; auto. destruct H as (W & Hs & Hn). specialize (K W r Hs).
    unfold dres in *. destruct (f r) as [r'| | |]; auto. destruct K as (W' & Hs' & Hn'). exists W'. split; auto. eapply near_mono; [apply (near_and Hn Hn')|]. cbn. intros t (-> & E). exact E.
  Qed.
  Lemma d_ret : forall C D B (S : C -> D -> Prop) (at_ : R -> C -> B) W r b, S W r -> (forall t, b t = Ok (at_ t W)) -> dres S at_ (Ok r) b.
  Proof. intros. exists W. split; auto. apply near_all. auto. Qed.
  Lemma d_free : forall C D B (S : C -> D -> Prop) (at_ : R -> C -> B) (f : D -> B) d rr,
    (forall s, rr t0 = Ok s -> exists r W, d = Ok r /\ S W r /\ forall t, rr t = Ok (at_ t W)) -> rr t0 = rmap f d -> dres S at_ d rr.
  Proof.
    intros C D B S at_ f d rr H E. unfold dres. destruct d as [r| | |] eqn:Ed; auto. destruct (H _ E) as (r' & W & Er & Hs & Ha). apply Ok_inj in Er. subst r'. exists W. split; auto. apply near_all. auto.
  Qed.
  Lemma d_map_res : forall C D B C' D' B' (S : C -> D -> Prop) (at_ : R -> C -> B) (S' : C' -> D' -> Prop) (at' : R -> C' -> B') f g U u,
    Forall2 S U u -> (forall W r, S W r -> dres S' at' (f r) (fun t => g t (at_ t W))) ->
    dres (Forall2 S') (fun t => map (at' t)) (map_res f u) (fun t => map_res (g t) (map (at_ t) U)).
  Proof.
    intros C D B C' D' B' S at_ S' at' f g U u H K. induction H as [|c d U u Hcd H IH]; cbn [map_res map]; [apply d_ret with (W := []); auto|].
    eapply (@d_bind _ _ _ _ _ _ S' at' (Forall2 S') (fun t => map (at' t)) _ (fun t => g t (at_ t c)) _ (fun t b => bind (map_res (g t) (map (at_ t) U)) (fun bs => Ok (b :: bs)))); [apply K; auto|].
    intros W r Hr. eapply (@d_bind _ _ _ _ _ _ (Forall2 S') (fun t => map (at' t)) (Forall2 S') (fun t => map (at' t)) _ (fun t => map_res (g t) (map (at_ t) U)) _ (fun t bs => Ok (at' t W :: bs))); [exact IH|].
    intros Ws rs Hrs. apply d_ret with (W := W :: Ws); auto.
  Qed.
  Lemma d_map2_res : forall C D B C2 D2 B2 C' D' B' (S : C -> D -> Prop) (at_ : R -> C -> B) (S2 : C2 -> D2 -> Prop) (at2 : R -> C2 -> B2) (S' : C' -> D' -> Prop) (at' : R -> C' -> B') f g U u V v,
    Forall2 S U u -> Forall2 S2 V v -> (forall W r X x, S W r -> S2 X x -> dres S' at' (f r x) (fun t => g t (at_ t W) (at2 t X))) ->
    dres (Forall2 S') (fun t => map (at' t)) (map2_res f u v) (fun t => map2_res (g t) (map (at_ t) U) (map (at2 t) V)).
  Proof.
    intros C D B C2 D2 B2 C' D' B' S at_ S2 at2 S' at' f g U u V v H. revert V v. induction H as [|c d U u Hcd H IH]; intros V v HV K; cbn [map2_res map]; [apply d_ret with (W := []); auto|].
    destruct HV as [|c2 d2 V v Hcd2 HV]; cbn [map2_res map]; [apply d_ret with (W := []); auto|].
    eapply (@d_bind _ _ _ _ _ _ S' at' (Forall2 S') (fun t => map (at' t)) _ (fun t => g t (at_ t c) (at2 t c2)) _ (fun t b => bind (map2_res (g t) (map (at_ t) U) (map (at2 t) V)) (fun bs => Ok (b :: bs)))); [apply K; auto|].
    intros W r Hr. eapply (@d_bind _ _ _ _ _ _ (Forall2 S') (fun t => map (at' t)) (Forall2 S') (fun t => map (at' t)) _ (fun t => map2_res (g t) (map (at_ t) U) (map (at2 t) V)) _ (fun t bs => Ok (at' t W :: bs))); [apply IH; auto|].
    intros Ws rs Hrs. apply d_ret with (W := W :: Ws); auto.
  Qed.
  Local Notation cat := (fun t (c : R -> R) => c t).
  Lemma nonzero_near : forall c l, derivable_pt_lim c t0 l -> c t0 <> 0%R -> near t0 (fun t => c t <> 0%R).
  Proof.
    intros c l H N. assert (Ct : continuity_pt c t0) by (apply derivable_continuous_pt; exists l; exact H).
    destruct (continuous_neq_0 c t0 Ct N) as (e & He). exists e. split; [apply cond_pos|]. intros t Ht. replace t with (t0 + (t - t0))%R by ring. apply He. exact Ht.
  Qed.
  Lemma d_div : forall U u V v, moves t0 U u -> moves t0 V v -> dres (moves t0) cat (o_div dual_ops u v) (fun t => o_div r_ops (U t) (V t)).
  Proof.
    intros U u V v (E & H) (E' & H'). cbn. destruct (Req_EM_T (fst v) 0) as [|N]; cbn; auto. rewrite <- E' in N. exists (fun t => U t / V t)%R. split.
    - split; cbn; [congruence|]. replace ((snd u * fst v - fst u * snd v) / (fst v * fst v))%R with ((snd u * V t0 - snd v * U t0) / Rsqr (V t0))%R by (rewrite E, E'; unfold Rsqr; f_equal; ring).
      apply (derivable_pt_lim_div U V); auto.
    - eapply near_mono; [apply (nonzero_near H' N)|]. cbn. intros t Nt. destruct (Req_EM_T (V t) 0); [contradiction|reflexivity].
  Qed.
  Lemma d_v_sdiv : forall U V u v, v_moves t0 U u -> moves t0 V v -> dres (v_moves t0) v_at (v_sdiv dual_ops u v) (fun t => v_sdiv r_ops (v_at t U) (V t)).
  Proof.
    intros U V u v H K. unfold v_sdiv. rewrite v_map_res. pose proof (@d_map_res _ _ _ _ _ _ (moves t0) cat (moves t0) cat (fun x => o_div dual_ops x v) (fun t x => o_div r_ops x (V t)) U u H) as X.
    unfold dres in X. assert (Y : forall W r, moves t0 W r -> dres (moves t0) cat (o_div dual_ops r v) (fun t => o_div r_ops (W t) (V t))) by (intros; apply d_div; auto). specialize (X Y).
    unfold dres. destruct (map_res _ u); auto. destruct X as (W & HW & N). exists W. split; auto. eapply near_mono; [exact N|]. cbn. intros t Et. rewrite v_map_res. exact Et.
  Qed.
  Lemma d_v_div : forall N U V u v, length U = N -> length V = N -> v_moves t0 U u -> v_moves t0 V v -> dres (v_moves t0) v_at (v_div dual_ops N u v) (fun t => v_div r_ops N (v_at t U) (v_at t V)).
  Proof.
    intros N U V u v LU LV H K. unfold v_div. pose proof (Forall2_len H). pose proof (Forall2_len K). rewrite v_zip_map_res by congruence.
    pose proof (@d_map2_res _ _ _ _ _ _ _ _ _ (moves t0) cat (moves t0) cat (moves t0) cat (o_div dual_ops) (fun t => o_div r_ops) U u V v H K) as X.
    specialize (X ltac:(intros; apply d_div; auto)). unfold dres in *. destruct (map2_res _ u v); auto. destruct X as (W & HW & Nr). exists W. split; auto. eapply near_mono; [exact Nr|]. cbn. intros t Et.
    rewrite v_zip_map_res by (unfold v_at; rewrite map_length; auto). exact Et.
  Qed.
  Lemma d_m_sdiv : forall U V u v, m_moves t0 U u -> moves t0 V v -> dres (m_moves t0) m_at (m_sdiv dual_ops u v) (fun t => m_sdiv r_ops (m_at t U) (V t)).
  Proof.
    intros U V u v H K. unfold m_sdiv. rewrite m_map_res.
    pose proof (@d_map_res _ _ _ _ _ _ (v_moves t0) v_at (v_moves t0) v_at (map_res (fun x => o_div dual_ops x v)) (fun t => map_res (fun x => o_div r_ops x (V t))) U u H) as X.
    assert (Y : forall W r, v_moves t0 W r -> dres (v_moves t0) v_at (map_res (fun x => o_div dual_ops x v) r) (fun t => map_res (fun x => o_div r_ops x (V t)) (v_at t W))).
    { intros W r HW. apply (@d_map_res _ _ _ _ _ _ (moves t0) cat (moves t0) cat (fun x => o_div dual_ops x v) (fun t x => o_div r_ops x (V t)) W r HW). intros. apply d_div; auto. }
    specialize (X Y). unfold dres in *. destruct (map_res _ u); auto. destruct X as (W & HW & N). exists W. split; auto. eapply near_mono; [exact N|]. cbn. intros t Et. rewrite m_map_res. exact Et.
  Qed.
  Lemma rect_at : forall M N U t, rect M N U -> rect M N (m_at t U).
  Proof. intros M N U t (L & F). split; [unfold m_at; rewrite map_length; auto|]. clear L. induction F; cbn; constructor; auto. unfold v_at. rewrite map_length. auto. Qed.
  Lemma rect_moves : forall M N U u, rect M N U -> m_moves t0 U u -> rect M N u.
  Proof. intros M N U u R H. apply (m_moves_in R H). Qed.
  Lemma d_m_div : forall M N U V u v, rect M N U -> rect M N V -> m_moves t0 U u -> m_moves t0 V v -> dres (m_moves t0) m_at (m_div dual_ops M N u v) (fun t => m_div r_ops M N (m_at t U) (m_at t V)).
  Proof.
    intros M N U V u v RU RV H K. unfold m_div. rewrite m_zip_map_res by first [exact (rect_moves RU H) | exact (rect_moves RV K)].
    pose proof (@d_map2_res _ _ _ _ _ _ _ _ _ (v_moves t0) v_at (v_moves t0) v_at (v_moves t0) v_at (map2_res (o_div dual_ops)) (fun t => map2_res (o_div r_ops)) U u V v H K) as X.
    assert (Y : forall W r X x, v_moves t0 W r -> v_moves t0 X x -> dres (v_moves t0) v_at (map2_res (o_div dual_ops) r x) (fun t => map2_res (o_div r_ops) (v_at t W) (v_at t X))).
    { intros W r Z z HW HZ. apply (@d_map2_res _ _ _ _ _ _ _ _ _ (moves t0) cat (moves t0) cat (moves t0) cat (o_div dual_ops) (fun t => o_div r_ops) W r Z z HW HZ). intros. apply d_div; auto. }
    specialize (X Y). unfold dres in *. destruct (map2_res _ u v); auto. destruct X as (W & HW & Nr). exists W. split; auto. eapply near_mono; [exact Nr|]. cbn. intros t Et.
    rewrite m_zip_map_res by (apply rect_at; auto). exact Et.
  Qed.
  Lemma d_m_inv : forall N U u, rect N N U -> m_moves t0 U u -> dres (m_moves t0) m_at (m_inv dual_ops N u) (fun t => m_inv r_ops N (m_at t U)).
  Proof.
    intros N U u RU H. pose proof (rect_moves RU H) as Ru. unfold m_inv.
    eapply (@d_bind _ _ _ _ _ _ (m_moves t0) m_at (m_moves t0) m_at _ (fun t => m_adj r_ops N (m_at t U)) _ (fun t a => bind (m_det r_ops N (m_at t U)) (fun d => m_sdiv r_ops a d))).
    { eapply d_free; [intros s; apply C116_m_adj; auto|]. cbv beta. rewrite (m_moves_at H). eapply (C72_m_adj dual_hom). eauto. }
    intros A a Ha. eapply (@d_bind _ _ _ _ _ _ (moves t0) cat (m_moves t0) m_at _ (fun t => m_det r_ops N (m_at t U)) _ (fun t d => m_sdiv r_ops (m_at t A) d)).
    { eapply d_free; [intros s; apply C116_m_det; auto|]. cbv beta. rewrite (m_moves_at H). eapply (C72_m_det dual_hom). eauto. }
    intros D d Hd. apply d_m_sdiv; auto.
  Qed.
  Lemma d_c_div_s : forall U V u v, c_moves t0 U u -> moves t0 V v -> dres (c_moves t0) c_at (c_div_s dual_ops u v) (fun t => c_div_s r_ops (c_at t U) (V t)).
  Proof.
    intros [a b] V [x y] v (Hx & Hy) Hv. unfold c_div_s. eapply (@d_bind _ _ _ _ _ _ (v_moves t0) v_at (c_moves t0) c_at _ (fun t => v_sdiv r_ops (v_at t [a; b]) (V t)) _ (fun t => c_from_vector)).
    { apply d_v_sdiv; auto. repeat (apply Forall2_cons; [assumption|]). apply Forall2_nil. }
    intros W r HW. destruct HW as [|w0 r0 W r H0 HW]; [cbn; auto|]. destruct HW as [|w1 r1 W r H1 HW]; [cbn; auto|]. destruct HW as [|w2 r2 W r H2 HW]; [|cbn; auto].
    apply d_ret with (W := Cx w0 w1); [split; auto|]. reflexivity.
  Qed.
  Lemma d_q_div_s : forall U V u v, q_moves t0 U u -> moves t0 V v -> dres (q_moves t0) q_at (q_div_s dual_ops u v) (fun t => q_div_s r_ops (q_at t U) (V t)).
  Proof.
    intros [a b c d] V [w x y z] v (Hw & Hx & Hy & Hz) Hv. unfold q_div_s. eapply (@d_bind _ _ _ _ _ _ (v_moves t0) v_at (q_moves t0) q_at _ (fun t => v_sdiv r_ops (v_at t [a; b; c; d]) (V t)) _ (fun t => q_from_vector)).
    { apply d_v_sdiv; auto. repeat (apply Forall2_cons; [assumption|]). apply Forall2_nil. }
    intros W r HW. do 4 (destruct HW as [|? ? ? ? ? HW]; [cbn; auto|]). destruct HW as [|? ? ? ? ? HW]; [|cbn; auto].
    match goal with |- dres _ _ _ (fun t => q_from_vector (v_at t [?w0; ?w1; ?w2; ?w3])) => apply d_ret with (W := Qt w0 w1 w2 w3) end; [split; [|split; [|split]]; assumption|]. reflexivity.
  Qed.
  Lemma d_c_inv : forall U u, c_moves t0 U u -> dres (c_moves t0) c_at (c_inv dual_ops u) (fun t => c_inv r_ops (c_at t U)).
  Proof.
    intros U u H. unfold c_inv.
    eapply (@d_bind _ _ _ _ _ _ (c_moves t0) c_at (c_moves t0) c_at _ (fun t => c_conj r_ops (c_at t U)) _ (fun t a => bind (c_norm_sqr r_ops (c_at t U)) (fun d => c_div_s r_ops a d))).
    { eapply d_free; [intros s; apply C116_c_conj; auto|]. cbv beta. rewrite (c_moves_at H). apply (C72_c_conj dual_hom). }
    intros A a Ha. eapply (@d_bind _ _ _ _ _ _ (moves t0) cat (c_moves t0) c_at _ (fun t => c_norm_sqr r_ops (c_at t U)) _ (fun t d => c_div_s r_ops (c_at t A) d)).
    { eapply d_free; [intros s; apply C116_c_norm_sqr; auto|]. cbv beta. rewrite (c_moves_at H). apply (C72_c_norm_sqr dual_hom). }
    intros D d Hd. apply d_c_div_s; auto.
  Qed.
  Lemma d_q_inv : forall U u, q_moves t0 U u -> dres (q_moves t0) q_at (q_inv dual_ops u) (fun t => q_inv r_ops (q_at t U)).
  Proof.
    intros U u H. unfold q_inv.
    eapply (@d_bind _ _ _ _ _ _ (q_moves t0) q_at (q_moves t0) q_at _ (fun t => q_conj r_ops (q_at t U)) _ (fun t a => bind (q_norm_sqr r_ops (q_at t U)) (fun d => q_div_s r_ops a d))).
    { eapply d_free; [intros s; apply C116_q_conj; auto|]. cbv beta. rewrite (q_moves_at H). apply (C72_q_conj dual_hom). }
    intros A a Ha. eapply (@d_bind _ _ _ _ _ _ (moves t0) cat (q_moves t0) q_at _ (fun t => q_norm_sqr r_ops (q_at t U)) _ (fun t d => q_div_s r_ops (q_at t A) d)).
    { eapply d_free; [intros s; apply C116_q_norm_sqr; auto|]. cbv beta. rewrite (q_moves_at H). apply (C72_q_norm_sqr dual_hom). }
    intros D d Hd. apply d_q_div_s; auto.
  Qed.
  Lemma d_c_div : forall U V u v, c_moves t0 U u -> c_moves t0 V v -> dres (c_moves t0) c_at (c_div dual_ops u v) (fun t => c_div r_ops (c_at t U) (c_at t V)).
  Proof.
    intros U V u v H K. unfold c_div. eapply (@d_bind _ _ _ _ _ _ (c_moves t0) c_at (c_moves t0) c_at _ (fun t => c_inv r_ops (c_at t V)) _ (fun t i => c_mul r_ops (c_at t U) i)); [apply d_c_inv; auto|].
    intros I i Hi. eapply d_free; [intros s; apply C116_c_mul; auto|]. cbv beta. rewrite (c_moves_at H), (c_moves_at Hi). apply (C72_c_mul dual_hom).
  Qed.
  Lemma d_q_div : forall U V u v, q_moves t0 U u -> q_moves t0 V v -> dres (q_moves t0) q_at (q_div dual_ops u v) (fun t => q_div r_ops (q_at t U) (q_at t V)).
  Proof.
    intros U V u v H K. unfold q_div. eapply (@d_bind _ _ _ _ _ _ (q_moves t0) q_at (q_moves t0) q_at _ (fun t => q_inv r_ops (q_at t V)) _ (fun t i => q_mul r_ops (q_at t U) i)); [apply d_q_inv; auto|].
    intros I i Hi. eapply d_free; [intros s; apply C116_q_mul; auto|]. cbv beta. rewrite (q_moves_at H), (q_moves_at Hi). apply (C72_q_mul dual_hom).
  Qed.
  Lemma d_add : forall U u V v, moves t0 U u -> moves t0 V v -> moves t0 (fun t => U t + V t)%R (fst u + fst v, snd u + snd v)%R.
  Proof. intros U u V v H K. exact (or_add (moves_rel t0) _ _ _ _ H K). Qed.
  Lemma d_mul : forall U u V v, moves t0 U u -> moves t0 V v -> moves t0 (fun t => U t * V t)%R (fst u * fst v, snd u * fst v + fst u * snd v)%R.
  Proof. intros U u V v H K. exact (or_mul (moves_rel t0) _ _ _ _ H K). Qed.
  Lemma d_mo : forall U V u v, rect 2 2 U -> m_moves t0 U u -> moves t0 V v -> dres (moves t0) cat (mo_apply_self dual_ops u v) (fun t => mo_apply_self r_ops (m_at t U) (V t)).
  Proof.
    intros U V u v RU H K. destruct H as [|A A' U u HA H]; [destruct RU; discriminate|]. destruct H as [|C C' U u HC H]; [destruct RU; discriminate|]. destruct H; [|destruct RU; discriminate].
    destruct RU as (_ & F). inversion F as [|? ? LA F']; subst. inversion F' as [|? ? LC _]; subst.
    destruct HA as [|a a' A A' Ha HA]; [discriminate|]. destruct HA as [|b b' A A' Hb HA]; [discriminate|]. destruct HA; [|discriminate].
    destruct HC as [|c c' C C' Hc HC]; [discriminate|]. destruct HC as [|d d' C C' Hd HC]; [discriminate|]. destruct HC; [|discriminate].
    apply (@d_div (fun t => a t * V t + b t)%R _ (fun t => c t * V t + d t)%R _ (d_add (d_mul Ha K) Hb) (d_add (d_mul Hc K) Hd)).
  Qed.
  Lemma d_out : forall C D B (S : C -> D -> Prop) (at_ : R -> C -> B) (f : D -> B) d rr s, dres S at_ d rr -> rr t0 = rmap f d -> rr t0 = Ok s ->
    exists r W, d = Ok r /\ S W r /\ near t0 (fun t => rr t = Ok (at_ t W)).
  Proof. intros C D B S at_ f d rr s H E Es. rewrite Es in E. destruct d as [r| | |]; try discriminate E. destruct H as (W & HW & N). exists r, W. auto. Qed.
End Near.
Section C116_div.
  Context (t0 : R).
  Theorem C116_v_div : forall N U V u v s, length U = N -> length V = N -> v_moves t0 U u -> v_moves t0 V v -> v_div r_ops N (v_at t0 U) (v_at t0 V) = Ok s ->
    exists r W, v_div dual_ops N u v = Ok r /\ v_moves t0 W r /\ near t0 (fun t => v_div r_ops N (v_at t U) (v_at t V) = Ok (v_at t W)).
  Proof. intros. prep. eapply d_out with (f := (map fst)); [apply d_v_div; eassumption| |eassumption]. cbv beta. ats. eapply (C72_v_div dual_hom_div); eassumption. Qed.
  Theorem C116_v_sdiv : forall N U V u v s, length U = N -> v_moves t0 U u -> moves t0 V v -> v_sdiv r_ops (v_at t0 U) (V t0) = Ok s ->
    exists r W, v_sdiv dual_ops u v = Ok r /\ v_moves t0 W r /\ near t0 (fun t => v_sdiv r_ops (v_at t U) (V t) = Ok (v_at t W)).
  Proof. intros. prep. eapply d_out with (f := (map fst)); [apply d_v_sdiv; eassumption| |eassumption]. cbv beta. ats. eapply (C72_v_sdiv dual_hom_div); eassumption. Qed.
  Theorem C116_m_div : forall M N U V u v s, rect M N U -> rect M N V -> m_moves t0 U u -> m_moves t0 V v -> m_div r_ops M N (m_at t0 U) (m_at t0 V) = Ok s ->
    exists r W, m_div dual_ops M N u v = Ok r /\ m_moves t0 W r /\ near t0 (fun t => m_div r_ops M N (m_at t U) (m_at t V) = Ok (m_at t W)).
  Proof. intros. prep. eapply d_out with (f := (map (map fst))); [apply d_m_div; eassumption| |eassumption]. cbv beta. ats. eapply (C72_m_div dual_hom_div); eassumption. Qed.
  Theorem C116_m_sdiv : forall M N U V u v s, rect M N U -> m_moves t0 U u -> moves t0 V v -> m_sdiv r_ops (m_at t0 U) (V t0) = Ok s ->
    exists r W, m_sdiv dual_ops u v = Ok r /\ m_moves t0 W r /\ near t0 (fun t => m_sdiv r_ops (m_at t U) (V t) = Ok (m_at t W)).
  Proof. intros. prep. eapply d_out with (f := (map (map fst))); [apply d_m_sdiv; eassumption| |eassumption]. cbv beta. ats. eapply (C72_m_sdiv dual_hom_div); eassumption. Qed.
  Theorem C116_m_inv : forall N U u s, rect N N U -> m_moves t0 U u -> m_inv r_ops N (m_at t0 U) = Ok s ->
    exists r W, m_inv dual_ops N u = Ok r /\ m_moves t0 W r /\ near t0 (fun t => m_inv r_ops N (m_at t U) = Ok (m_at t W)).
  Proof. intros. prep. eapply d_out with (f := (map (map fst))); [apply d_m_inv; eassumption| |eassumption]. cbv beta. ats. eapply (C72_m_inv dual_hom dual_hom_div); eassumption. Qed.
  Theorem C116_c_inv : forall U u s, c_moves t0 U u -> c_inv r_ops (c_at t0 U) = Ok s ->
    exists r W, c_inv dual_ops u = Ok r /\ c_moves t0 W r /\ near t0 (fun t => c_inv r_ops (c_at t U) = Ok (c_at t W)).
  Proof. intros. prep. eapply d_out with (f := (c_map fst)); [apply d_c_inv; eassumption| |eassumption]. cbv beta. ats. eapply (C72_c_inv dual_hom dual_hom_div); eassumption. Qed.
  Theorem C116_c_div : forall U V u v s, c_moves t0 U u -> c_moves t0 V v -> c_div r_ops (c_at t0 U) (c_at t0 V) = Ok s ->
    exists r W, c_div dual_ops u v = Ok r /\ c_moves t0 W r /\ near t0 (fun t => c_div r_ops (c_at t U) (c_at t V) = Ok (c_at t W)).
  Proof. intros. prep. eapply d_out with (f := (c_map fst)); [apply d_c_div; eassumption| |eassumption]. cbv beta. ats. eapply (C72_c_div dual_hom dual_hom_div); eassumption. Qed.
  Theorem C116_q_inv : forall U u s, q_moves t0 U u -> q_inv r_ops (q_at t0 U) = Ok s ->
    exists r W, q_inv dual_ops u = Ok r /\ q_moves t0 W r /\ near t0 (fun t => q_inv r_ops (q_at t U) = Ok (q_at t W)).
  Proof. intros. prep. eapply d_out with (f := (q_map fst)); [apply d_q_inv; eassumption| |eassumption]. cbv beta. ats. eapply (C72_q_inv dual_hom dual_hom_div); eassumption. Qed.
  Theorem C116_q_div : forall U V u v s, q_moves t0 U u -> q_moves t0 V v -> q_div r_ops (q_at t0 U) (q_at t0 V) = Ok s ->
    exists r W, q_div dual_ops u v = Ok r /\ q_moves t0 W r /\ near t0 (fun t => q_div r_ops (q_at t U) (q_at t V) = Ok (q_at t W)).
  Proof. intros. prep. eapply d_out with (f := (q_map fst)); [apply d_q_div; eassumption| |eassumption]. cbv beta. ats. eapply (C72_q_div dual_hom dual_hom_div); eassumption. Qed.
  Theorem C116_mo_apply_self : forall U V u v s, rect 2 2 U -> m_moves t0 U u -> moves t0 V v -> mo_apply_self r_ops (m_at t0 U) (V t0) = Ok s ->
    exists r W, mo_apply_self dual_ops u v = Ok r /\ moves t0 W r /\ near t0 (fun t => mo_apply_self r_ops (m_at t U) (V t) = Ok (W t)).
  Proof. intros. prep. eapply d_out with (f := fst); [apply d_mo; eassumption| |eassumption]. cbv beta. ats. eapply (C72_mo_apply_self dual_hom dual_hom_div); eassumption. Qed.
End C116_div.

Print Assumptions C116_v_add.
Print Assumptions C116_v_sub.
Print Assumptions C116_v_mul.
Print Assumptions C116_v_neg.
Print Assumptions C116_v_smul.
Print Assumptions C116_v_sum.
Print Assumptions C116_v_dot.
Print Assumptions C116_v_square_length.
Print Assumptions C116_v_cross2.
Print Assumptions C116_v_cross3.
Print Assumptions C116_v_cross4.
Print Assumptions C116_m_add.
Print Assumptions C116_m_sub.
Print Assumptions C116_m_mul.
Print Assumptions C116_m_neg.
Print Assumptions C116_m_smul.
Print Assumptions C116_m_sum.
Print Assumptions C116_m_dot.
Print Assumptions C116_m_dot_v.
Print Assumptions C116_v_dot_m.
Print Assumptions C116_m_outer.
Print Assumptions C116_m_det.
Print Assumptions C116_m_cofactor.
Print Assumptions C116_m_adj.
Print Assumptions C116_c_add.
Print Assumptions C116_c_sub.
Print Assumptions C116_c_mul.
Print Assumptions C116_c_neg.
Print Assumptions C116_c_conj.
Print Assumptions C116_c_mul_s.
Print Assumptions C116_c_norm_sqr.
Print Assumptions C116_c_dot.
Print Assumptions C116_q_add.
Print Assumptions C116_q_sub.
Print Assumptions C116_q_mul.
Print Assumptions C116_q_neg.
Print Assumptions C116_q_conj.
Print Assumptions C116_q_mul_s.
Print Assumptions C116_q_mul_c.
Print Assumptions C116_c_mul_q.
Print Assumptions C116_q_norm_sqr.
Print Assumptions C116_q_dot.
Print Assumptions C116_rot2_apply.
Print Assumptions C116_rot3_apply.
Print Assumptions C116_v_div.
Print Assumptions C116_v_sdiv.
Print Assumptions C116_m_div.
Print Assumptions C116_m_sdiv.
Print Assumptions C116_m_inv.
Print Assumptions C116_c_inv.
Print Assumptions C116_c_div.
Print Assumptions C116_q_inv.
Print Assumptions C116_q_div.
Print Assumptions C116_mo_apply_self.
