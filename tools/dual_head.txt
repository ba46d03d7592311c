(** C116: derivatives by dual numbers.  (The list of theorems, one per operation of the API, was produced by tools/gen_dual.py;
    every statement is spelled out here.) *)
From Coq Require Import Reals Lra Lia List.
From Verif Require Import SpecFacts VFacts VecProofs MFacts MatProofs AlgFacts SquareModel SpecDet DetFacts SqProofs ComplexModel MoebiusModel TransformModel SpecMachine RealInst RelFacts PropRel PropExact PropSquare SpecDual.
Import ListNotations.
Set Implicit Arguments.
Local Open Scope list_scope.

(* ------------------------------------------------------------------------- *)
(** * Numbers that depend on time                                              *)
Definition curve_ops : Ops (R -> R) :=
  {| o_zero := fun _ => 0%R; o_one := fun _ => 1%R; o_add := fun x y => Ok (fun t => x t + y t)%R; o_sub := fun x y => Ok (fun t => x t - y t)%R;
     o_mul := fun x y => Ok (fun t => x t * y t)%R; o_div := fun _ _ => Panic; o_rem := fun _ _ => Panic; o_neg := fun x => Ok (fun t => - x t)%R;
     o_is_zero := fun _ => false; o_eq := fun _ _ => false; o_lt := fun _ _ => false; o_le := fun _ _ => false |}.
Lemma curve_hom : forall t, hom (fun c : R -> R => c t) curve_ops r_ops.
Proof. intros. constructor; reflexivity. Qed.
Lemma dual_hom : hom fst dual_ops r_ops.
Proof. constructor; reflexivity. Qed.
Lemma dual_hom_div : hom_div fst dual_ops r_ops.
Proof. intros x y. cbn. destruct (Req_EM_T (fst y) 0); reflexivity. Qed.
Lemma moves_rel : forall t0, OpsRel false (fun d c => moves t0 c d) dual_ops curve_ops.
Proof.
  intros t0. constructor.
  - split; [reflexivity|]. apply derivable_pt_lim_const.
  - split; [reflexivity|]. apply derivable_pt_lim_const.
  - intros x x' y y' (E & H) (E' & H'). cbn. split; cbn; [congruence|]. apply (derivable_pt_lim_plus x' y'); auto.
  - intros x x' y y' (E & H) (E' & H'). cbn. split; cbn; [congruence|]. apply (derivable_pt_lim_minus x' y'); auto.
  - intros x x' y y' (E & H) (E' & H'). cbn. split; cbn; [congruence|]. rewrite <- E, <- E'. apply (derivable_pt_lim_mult x' y'); auto.
  - intros x x' (E & H). cbn. split; cbn; [congruence|]. apply (derivable_pt_lim_opp x'); auto.
Qed.
Section At.
  Context (t0 : R).
  Lemma s_moves_at : forall U u, moves t0 U u -> U t0 = fst u.
  Proof. intros U u (E & _). exact E. Qed.
  Lemma v_moves_at : forall U u, v_moves t0 U u -> v_at t0 U = map fst u.
  Proof. intros U u H. induction H as [|c d U u (E & _) H IH]; cbn; auto. f_equal; auto. Qed.
  Lemma m_moves_at : forall U u, m_moves t0 U u -> m_at t0 U = map (map fst) u.
  Proof. intros U u H. induction H as [|c d U u E H IH]; cbn; auto. f_equal; auto. apply v_moves_at. auto. Qed.
  Lemma c_moves_at : forall U u, c_moves t0 U u -> c_at t0 U = c_map fst u.
  Proof. intros U u ((E & _) & (F & _)). unfold c_at, c_map. rewrite E, F. reflexivity. Qed.
  Lemma q_moves_at : forall U u, q_moves t0 U u -> q_at t0 U = q_map fst u.
  Proof. intros U u ((E & _) & (F & _) & (G & _) & (K & _)). unfold q_at, q_map. rewrite E, F, G, K. reflexivity. Qed.
  Lemma v_moves_in : forall N U u, length U = N -> v_moves t0 U u -> length u = N /\ vrel N (fun d c => moves t0 c d) u U.
  Proof.
    intros N U u L H. pose proof (Forall2_len H) as E. split; [congruence|]. split; [congruence|]. clear L E. induction H; constructor; auto.
  Qed.
  Lemma m_moves_in : forall M N U u, rect M N U -> m_moves t0 U u -> rect M N u /\ mrel M N (fun d c => moves t0 c d) u U.
  Proof.
    intros M N U u (L & F) H. pose proof (Forall2_len H) as E.
    assert (K : Forall2 (vrel N (fun d c => moves t0 c d)) u U).
    { clear L E. induction H as [|x y U u Hxy H IH]; constructor; inversion F; subst; auto. apply (@v_moves_in _ _ _ eq_refl Hxy). }
    assert (Q : mrel M N (fun d c => moves t0 c d) u U) by (split; auto; congruence). split; auto. apply (mrel_rect Q).
  Qed.
  Lemma v_moves_out : forall N (U : list (R -> R)) u, vrel N (fun d c => moves t0 c d) u U -> length U = N /\ length u = N /\ v_moves t0 U u.
  Proof. intros N U u H. destruct (vrel_length H). destruct H as (_ & F). repeat split; auto. clear - F. induction F; constructor; auto. Qed.
  Lemma m_moves_out : forall M N (U : list (list (R -> R))) u, mrel M N (fun d c => moves t0 c d) u U -> rect M N U /\ rect M N u /\ m_moves t0 U u.
  Proof.
    intros M N U u H. destruct (mrel_rect H). destruct H as (_ & F). repeat split; auto; try apply H0; try apply H1. clear - F. induction F; constructor; auto. eapply v_moves_out; eauto.
  Qed.
  (** From runs on dual numbers and on curves to the statement. *)
  Lemma both : forall D C B (S : D -> C -> Prop) (dr : res D) (cr : res C) (f : D -> B) (at_ : R -> C -> B) (rr : R -> res B) s,
    rrel false S dr cr -> (forall t, rr t = rmap (at_ t) cr) -> rr t0 = rmap f dr -> rr t0 = Ok s ->
    exists r W, dr = Ok r /\ S r W /\ forall t, rr t = Ok (at_ t W).
  Proof.
    intros D C B S dr cr f at_ rr s H A E Es. rewrite Es in E. destruct dr as [r| | |]; try discriminate E. destruct cr as [W| | |]; cbn in H; try contradiction.
    exists r, W. split; [reflexivity|]. split; [exact H|]. intros t. rewrite A. reflexivity.
  Qed.
End At.
Ltac prep := repeat match goal with
  | L : length ?U = ?N, H : v_moves ?t ?U ?u |- _ => match goal with K : vrel N _ u U |- _ => fail 1 | _ => destruct (@v_moves_in t N U u L H) as (? & ?) end
  | L : rect ?M ?N ?U, H : m_moves ?t ?U ?u |- _ => match goal with K : mrel M N _ u U |- _ => fail 1 | _ => destruct (@m_moves_in t M N U u L H) as (? & ?) end
  end.
Ltac turn H :=
  let r := fresh "r" in let W := fresh "W" in let E := fresh "E" in let S := fresh "S" in let A := fresh "A" in
  destruct H as (r & W & E & S & A); exists r, W; split; [exact E|split; [|exact A]];
  first [exact S | apply (v_moves_out S) | apply (m_moves_out S) | exact S].
Ltac ats := repeat match goal with
  | H : v_moves ?t ?U ?u |- _ => rewrite (v_moves_at H); clear H
  | H : m_moves ?t ?U ?u |- _ => rewrite (m_moves_at H); clear H
  | H : c_moves ?t ?U ?u |- _ => rewrite (c_moves_at H); clear H
  | H : q_moves ?t ?U ?u |- _ => rewrite (q_moves_at H); clear H
  | H : moves ?t ?U ?u |- _ => rewrite (s_moves_at H); clear H
  end.
