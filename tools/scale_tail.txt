(* ------------------------------------------------------------------------- *)
(** * Explicit conditions                                                       *)
Local Open Scope R_scope.
Lemma Forall2_length : forall A B (P : A -> B -> Prop) l m, Forall2 P l m -> length l = length m.
Proof. intros A B P l m H. induction H; cbn; congruence. Qed.
Lemma Forall2_vk : forall A B (P : A -> B -> Prop) N f g, Forall2 P (vk N f) (vk N g) <-> forall i, (i < N)%nat -> P (f i) (g i).
Proof.
  intros A B P N f g. unfold vk. split.
  - intros H i Hi. assert (Hi' : In i (seq 0 N)) by (apply in_seq; lia). revert H Hi'. clear. generalize (seq 0 N). intros l. induction l as [|h l IH]; cbn; intros H [].
    + subst h. inversion H; auto.
    + inversion H; auto.
  - intros H. assert (G : forall i, In i (seq 0 N) -> P (f i) (g i)) by (intros i Hi; apply in_seq in Hi; apply H; lia).
    revert G. clear. generalize (seq 0 N). intros l. induction l as [|h l IH]; cbn; intros H; constructor; auto.
Qed.
Lemma Forall2_mk : forall A B (P : A -> B -> Prop) M N f g, Forall2 (Forall2 P) (mk M N f) (mk M N g) <-> forall i j, (i < M)%nat -> (j < N)%nat -> P (f i j) (g i j).
Proof.
  intros. unfold mk. rewrite Forall2_vk. split; intros H i.
  - intros j Hi Hj. pose proof (proj1 (Forall2_vk _ _ _ _) (H i Hi)) as G. apply G. auto.
  - intros Hi. apply Forall2_vk. intros j Hj. auto.
Qed.
Lemma map_res_entries : forall A B (f : A -> res B) l r, map_res f l = Ok r -> Forall2 (fun a b => f a = Ok b) l r.
Proof.
  intros A B f. induction l as [|h l IH]; cbn [map_res]; intros r E.
  - apply Ok_inj in E. subst r. constructor.
  - destruct (f h) as [b| | |] eqn:Eb; cbn [bind] in E; try discriminate. destruct (map_res f l) as [r'| | |] eqn:Er; cbn [bind] in E; try discriminate.
    apply Ok_inj in E. subst r. constructor; auto.
Qed.
Lemma m_map_entries : forall A B (ob : Ops B) (f : A -> res B) M N h r, m_map f (mk M N h) = Ok r -> exists g, r = mk M N g /\ forall i j, (i < M)%nat -> (j < N)%nat -> f (h i j) = Ok (g i j).
Proof.
  intros A B ob f M N h r E. rewrite m_map_res in E. apply map_res_entries in E.
  assert (F : Forall2 (Forall2 (fun a b => f a = Ok b)) (mk M N h) r). { revert E. generalize (mk M N h). intros l E. induction E; constructor; auto. apply map_res_entries. auto. }
  assert (R : rect M N r).
  { pose proof (rect_mk M N h) as (L & Fr). split. { rewrite <- (Forall2_length F). auto. }
    clear - F Fr. revert F Fr. generalize (mk M N h). intros l F. induction F as [|a b l r H F IH]; intros Fr; constructor.
    - inversion Fr; subst. symmetry. apply (Forall2_length H).
    - apply IH. inversion Fr; auto. }
  destruct (mk_ex ob R) as (g & ->). exists g. split; auto. intros i j Hi Hj. apply (proj1 (Forall2_mk _ _ _ _ _) F i j Hi Hj).
Qed.
Section Explicit.
  Context (prec emax : Z) (rem : spec_float -> spec_float -> spec_float) (Hp : (0 < prec)%Z) (He : (prec < emax)%Z).
  Local Notation fo := (sf_ops prec emax rem).
  Local Notation so := (scale_ops prec emax).
  Local Notation fexp := (SpecFloat.fexp prec emax).
  Local Notation rnd := (round radix2 fexp ZnearestE).
  Local Notation number := (number_of prec emax).
  Local Notation emin := (SpecFloat.emin prec emax).
  Local Notation bp := (bpow radix2).
  Local Notation small := (bp (emin + prec - 1)).
  Local Notation sh := (shifted prec emax).
  Local Notation add := (SFadd prec emax).
  Local Notation mul := (SFmul prec emax).
  Local Notation div := (SFdiv prec emax).
  Local Instance vexpE : Valid_exp fexp. Proof. apply (@fexp_correct prec emax Hp). Qed.

  Lemma sh_value : forall e x y, sh e x y -> value y = bp e * value x.
  Proof. intros e x y (_ & _ & H). rewrite pw in H. exact H. Qed.
  Lemma sh_intro : forall e x y, number x -> number y -> value y = bp e * value x -> sh e x y.
  Proof. intros e x y N1 N2 H. split; auto. split; auto. rewrite pw. exact H. Qed.
  Lemma add_shift : forall e x y x' y', sh e x x' -> sh e y y' -> finite (add x y) = true -> finite (add x' y') = true -> sh e (add x y) (add x' y').
  Proof.
    intros e x y x' y' H1 H2 F F'. pose proof (sh_value H1) as V1. pose proof (sh_value H2) as V2. destruct H1 as (Nx & Nx' & _), H2 as (Ny & Ny' & _).
    apply sh_intro; try (split; auto; apply add_valid; try apply Nx; try apply Ny; try apply Nx'; try apply Ny'; auto).
    rewrite !(@add_round prec emax Hp He) by (auto; try apply Nx; try apply Ny; try apply Nx'; try apply Ny'). rewrite V1, V2, <- Rmult_plus_distr_l.
    apply (@rnd_scale_plus prec emax Hp); try rewrite <- V1; try rewrite <- V2; apply fmt; auto; try apply Nx; try apply Ny; try apply Nx'; try apply Ny'.
  Qed.
  Lemma fs_shift : forall k f g e, (forall i, (i <= k)%nat -> sh e (f i) (g i)) -> finite (fs prec emax k f) = true -> finite (fs prec emax k g) = true ->
    sh e (fs prec emax k f) (fs prec emax k g).
  Proof.
    induction k as [|k IH]; intros f g e H F F'; cbn [fs] in *; [apply H; lia|].
    destruct (add_fin _ _ _ _ F) as (F1 & F2), (add_fin _ _ _ _ F') as (F1' & F2'). apply add_shift; auto.
  Qed.
  Lemma mul_shift : forall e f x y x' y', sh e x x' -> sh f y y' -> value x = 0 \/ value y = 0 \/ no_underflow prec emax (e + f) (mul x y) = true ->
    finite (mul x y) = true -> finite (mul x' y') = true -> sh (e + f) (mul x y) (mul x' y').
  Proof.
    intros e f x y x' y' H1 H2 H F F'. pose proof (sh_value H1) as V1. pose proof (sh_value H2) as V2. destruct H1 as (Nx & Nx' & _), H2 as (Ny & Ny' & _).
    assert (N : number (mul x y)) by (split; auto; apply mul_valid; try apply Nx; try apply Ny; auto).
    assert (N' : number (mul x' y')) by (split; auto; apply mul_valid; try apply Nx'; try apply Ny'; auto).
    assert (W : value (mul x y) = rnd (value x * value y)) by (apply (@mul_round prec emax Hp He); try apply Nx; try apply Ny; auto).
    assert (W' : value (mul x' y') = rnd (value x' * value y')) by (apply (@mul_round prec emax Hp He); try apply Nx'; try apply Ny'; auto).
    apply sh_intro; auto. rewrite W'. replace (value x' * value y') with (bp (e + f) * (value x * value y)) by (rewrite V1, V2, bpow_plus; ring).
    destruct H as [H|[H|H]].
    - rewrite W, H, Rmult_0_l, Rmult_0_r. rewrite (round0 prec emax). ring.
    - rewrite W, H, !Rmult_0_r. rewrite (round0 prec emax). ring.
    - destruct (@far_value prec emax Hp _ _ N H) as (S1 & S2). rewrite W in *. apply (@rnd_scale_far prec emax Hp); auto.
  Qed.

  (** Sums: only overflow matters. *)
  Theorem C114_sum : forall e x y s s', length x <> 0%nat -> Forall2 (sh e) x y -> v_sum fo x = Ok s -> v_sum fo y = Ok s' ->
    finite s = true -> finite s' = true -> sh e s s'.
  Proof.
    intros e x y s s' L H E E' F F'. pose proof (Forall2_length H) as L'. remember (length x) as N eqn:Q. symmetry in Q, L'. destruct N as [|k]; [congruence|].
    destruct (vk_ex fo x Q) as (f & ->), (vk_ex fo y L') as (g & ->). rewrite v_sum_fs in E, E'. apply Ok_inj in E, E'. subst s s'.
    apply fs_shift; auto. intros i Hi. apply (proj1 (Forall2_vk _ _ _ _) H). lia.
  Qed.
  (** Dot products: no product of non-zero numbers may come near the subnormal numbers. *)
  Theorem C114_dot : forall N e f x y x' y' s s', N <> 0%nat -> length x = N -> length y = N -> Forall2 (sh e) x x' -> Forall2 (sh f) y y' ->
    Forall2 (fun a b => value a = 0 \/ value b = 0 \/ no_underflow prec emax (e + f) (mul a b) = true) x y ->
    v_dot fo N x y = Ok s -> v_dot fo N x' y' = Ok s' -> finite s = true -> finite s' = true -> sh (e + f) s s'.
  Proof.
    intros N e f x y x' y' s s' HN Lx Ly H1 H2 HU E E' F F'. destruct N as [|k]; [congruence|].
    pose proof (Forall2_length H1) as L1. rewrite Lx in L1. pose proof (Forall2_length H2) as L2. rewrite Ly in L2. symmetry in L1, L2.
    destruct (vk_ex fo x Lx) as (a & ->), (vk_ex fo y Ly) as (b & ->), (vk_ex fo x' L1) as (a' & ->), (vk_ex fo y' L2) as (b' & ->).
    rewrite v_dot_fs in E, E'. apply Ok_inj in E, E'. subst s s'. apply fs_shift; auto. intros i Hi.
    apply mul_shift; [apply (proj1 (Forall2_vk _ _ _ _) H1); lia|apply (proj1 (Forall2_vk _ _ _ _) H2); lia|apply (proj1 (Forall2_vk _ _ _ _) HU); lia|..].
    - apply (@fs_fin prec emax k _ F i Hi).
    - apply (@fs_fin prec emax k _ F' i Hi).
  Qed.
  Lemma square_length_dot : forall x, v_square_length fo x = v_dot fo (length x) x x.
  Proof.
    intros x. destruct (vk_ex fo x eq_refl) as (f & E). rewrite E at 1 3 4. generalize (length x). clear. intros [|k]; [reflexivity|]. rewrite v_sq_fs, v_dot_fs. reflexivity.
  Qed.
  Theorem C114_square_length : forall e x y s s', length x <> 0%nat -> Forall2 (sh e) x y ->
    Forall (fun a => value a = 0 \/ no_underflow prec emax (e + e) (mul a a) = true) x ->
    v_square_length fo x = Ok s -> v_square_length fo y = Ok s' -> finite s = true -> finite s' = true -> sh (e + e) s s'.
  Proof.
    intros e x y s s' L H HU E E' F F'. rewrite square_length_dot in E, E'. pose proof (Forall2_length H) as L'. rewrite <- L' in E'.
    eapply (@C114_dot (length x) e e x x y y); eauto. clear - HU. induction HU; constructor; tauto || auto.
  Qed.

  Lemma sqrt_shift : forall e s s', sh (e + e) s s' -> 0 <= value s -> sh e (SFsqrt prec emax s) (SFsqrt prec emax s').
  Proof.
    intros e s s' H P. pose proof (sh_value H) as V. destruct H as ((Vs & Fs) & (Vs' & Fs') & _).
    assert (P' : 0 <= value s'). { rewrite V. apply Rmult_le_pos; auto. apply bpow_ge_0. }
    destruct (@sqrt_round prec emax Hp He s Vs Fs P) as (F1 & W1), (@sqrt_round prec emax Hp He s' Vs' Fs' P') as (F2 & W2).
    apply sh_intro; try (split; auto; apply sqrt_valid; auto). rewrite W1, W2.
    assert (Q : sqrt (value s') = bp e * sqrt (value s)).
    { rewrite V, bpow_plus. rewrite sqrt_mult; auto; [|apply Rmult_le_pos; apply bpow_ge_0]. rewrite sqrt_square by apply bpow_ge_0. reflexivity. }
    destruct (Req_dec (value s) 0) as [Z|Z]. { rewrite Q, Z, sqrt_0, Rmult_0_r, (round0 prec emax). ring. }
    assert (B : forall t, valid_binary prec emax t = true -> finite t = true -> 0 < value t -> small <= Rabs (sqrt (value t))).
    { intros t Vt Ft Pt. rewrite Rabs_pos_eq by apply sqrt_pos. pose proof (@pos_ge prec emax t Vt Ft Pt) as G.
      apply Rle_trans with (sqrt (small * small)). { rewrite sqrt_square by apply bpow_ge_0. apply Rle_refl. }
      apply sqrt_le_1_alt. eapply Rle_trans; [|exact G]. rewrite <- bpow_plus. apply bpow_le. unfold SpecFloat.emin. lia. }
    pose proof (B s Vs Fs ltac:(lra)) as B1.
    assert (B2 : small <= Rabs (sqrt (value s'))). { apply B; auto. rewrite V. apply Rmult_lt_0_compat; [apply bpow_gt_0|lra]. }
    rewrite (@rnd_x prec emax _ B2), (@rnd_x prec emax _ B1), Q. apply (@xrnd_scale prec).
  Qed.
  Theorem C114_length : forall e x y s s', length x <> 0%nat -> Forall2 (sh e) x y ->
    Forall (fun a => value a = 0 \/ no_underflow prec emax (e + e) (mul a a) = true) x ->
    v_square_length fo x = Ok s -> v_square_length fo y = Ok s' -> finite s = true -> finite s' = true ->
    exists l l', v_length fo (SFsqrt prec emax) x = Ok l /\ v_length fo (SFsqrt prec emax) y = Ok l' /\ sh e l l'.
  Proof.
    intros e x y s s' L H HU E E' F F'. pose proof (@C114_square_length e x y s s' L H HU E E' F F') as S.
    exists (SFsqrt prec emax s), (SFsqrt prec emax s'). unfold v_length. rewrite E, E'. split; auto. split; auto. apply sqrt_shift; auto.
    destruct (vk_ex fo x eq_refl) as (f & Ef). destruct (length x) as [|k] eqn:Q; [congruence|]. rewrite Ef, v_sq_fs in E. apply Ok_inj in E. subst s.
    assert (Vf : forall i, (i <= k)%nat -> valid_binary prec emax (f i) = true).
    { intros i Hi. assert (G : Forall number x). { clear - H. induction H as [|? ? ? ? (? & _)]; constructor; auto. }
      rewrite Ef in G. apply (proj1 (Forall_vk _ _ _)) with (i := i) in G; [apply G|lia]. }
    apply fs_nonneg; auto.
    - intros i Hi. pose proof (@fs_fin prec emax k _ F i Hi) as Fi. rewrite (@mul_round prec emax Hp He) by auto. rewrite <- (round0 prec emax). apply (@rnd_le prec emax Hp). nra.
    - intros i Hi. apply mul_valid; auto.
  Qed.
  (** Normalization does not depend on the unit of length. *)
  Theorem C114_normalize : forall e x y s s' l, length x <> 0%nat -> Forall2 (sh e) x y ->
    Forall (fun a => value a = 0 \/ no_underflow prec emax (e + e) (mul a a) = true) x ->
    v_square_length fo x = Ok s -> v_square_length fo y = Ok s' -> finite s = true -> finite s' = true ->
    v_length fo (SFsqrt prec emax) x = Ok l -> value l <> 0 ->
    exists n n', v_normalize fo (SFsqrt prec emax) x = Ok n /\ v_normalize fo (SFsqrt prec emax) y = Ok n' /\
      length n = length x /\ Forall2 (fun a b => (finite a = true <-> finite b = true) /\ (finite a = true -> value a = value b)) n n'.
  Proof.
    intros e x y s s' l L H HU E E' F F' El Zl. destruct (@C114_length e x y s s' L H HU E E' F F') as (l0 & l' & El0 & El' & Sl).
    rewrite El in El0. apply Ok_inj in El0. subst l0. unfold v_normalize. rewrite El, El'. cbn [bind].
    exists (map (fun a => div a l) x), (map (fun a => div a l') y). split; [apply v_map_pure|]. split; [apply v_map_pure|]. split; [apply map_length|].
    pose proof (sh_value Sl) as Vl. destruct Sl as (Nl & Nl' & _). pose proof (bpow_gt_0 radix2 e) as Pe.
    assert (Zl' : value l' <> 0). { rewrite Vl. intros Q. apply Rmult_integral in Q. destruct Q; [lra|contradiction]. }
    clear - H Vl Nl Nl' Zl Zl' Pe Hp He. induction H as [|a b x y Hab H IH]; cbn [map]; constructor; auto. clear IH H.
    pose proof (sh_value Hab) as V. destruct Hab as (Na & Nb & _).
    assert (Q : value b / value l' = value a / value l). { rewrite V, Vl. field. split; [auto|lra]. }
    assert (D : forall a l, number a -> number l -> value l <> 0 -> finite (div a l) = true -> number (div a l) /\ value (div a l) = rnd (value a / value l)).
    { intros u v (Vu & Fu) (Vv & Fv) Zv Fd. split; [split; auto; apply div_valid; auto|]. apply (@div_round prec emax Hp He); auto. }
    split; [split|]; intros Fd.
    - destruct (D a l Na Nl Zl Fd) as (Nd & W). pose proof (@number_lt prec emax _ Nd) as Bd. rewrite W, <- Q in Bd. destruct (@div_in prec emax Hp He b l' Nb Nl' Zl' Bd) as ((_ & ?) & _). auto.
    - destruct (D b l' Nb Nl' Zl' Fd) as (Nd & W). pose proof (@number_lt prec emax _ Nd) as Bd. rewrite W, Q in Bd. destruct (@div_in prec emax Hp He a l Na Nl Zl Bd) as ((_ & ?) & _). auto.
    - destruct (D a l Na Nl Zl Fd) as (Nd & W). pose proof (@number_lt prec emax _ Nd) as Bd. rewrite W, <- Q in Bd. destruct (@div_in prec emax Hp He b l' Nb Nl' Zl' Bd) as (_ & W').
      rewrite W, W', Q. reflexivity.
  Qed.

  (** ** Rows and columns of a matrix may have different units *)
  Definition total (a : nat -> Z) (l : list nat) : Z := fold_right (fun i s => a i + s)%Z 0%Z l.
  Lemma total_remove : forall a l k, (k < length l)%nat -> total a l = (a (nth k l 0%nat) + total a (remove_at k l))%Z.
  Proof.
    intros a. induction l as [|h t IH]; intros [|k] H; cbn [length] in H; try lia; [reflexivity|]. cbn [nth remove_at].
    change (total a (h :: t)) with (a h + total a t)%Z. change (total a (h :: remove_at k t)) with (a h + total a (remove_at k t))%Z. rewrite (IH k) by lia. lia.
  Qed.
  Lemma remove_at_in : forall k (l : list nat) x, In x (remove_at k l) -> In x l.
  Proof. induction k; intros [|h l] x H; cbn in *; auto. destruct H; auto. Qed.
  Lemma so_add : forall x y r, o_add so x y = Ok r -> common z_units (snd x) (snd y) = Ok (snd r).
  Proof.
    intros [x a] [y b] r. cbn [o_add scale_ops fst snd]. destruct (common z_units a b) as [c| | |]; cbn [bind]; try discriminate. unfold keep. destruct (_ && _)%bool; [|discriminate].
    intros E. apply Ok_inj in E. subst r. reflexivity.
  Qed.
  Lemma so_mul : forall x y r, o_mul so x y = Ok r -> snd r = times z_units (snd x) (snd y).
  Proof.
    intros [x a] [y b] r. cbn [o_mul scale_ops fst snd]. unfold keep. destruct (_ || _)%bool; [|discriminate]. intros E. apply Ok_inj in E. subst r. reflexivity.
  Qed.
  Lemma so_div : forall x y r h, snd y = Some h -> o_div so x y = Ok r -> snd r = times z_units (snd x) (Some (- h)%Z).
  Proof.
    intros [x a] [y b] r h Eb. cbn [snd] in Eb. subst b. cbn [o_div scale_ops fst snd]. destruct (zero_float y); [discriminate|]. unfold keep. destruct (_ || _)%bool; [|discriminate].
    intros E. apply Ok_inj in E. subst r. reflexivity.
  Qed.
  Lemma so_neg : forall k c r, rneg so k c = Ok r -> snd r = snd c.
  Proof. intros k c r. unfold rneg. destruct (_ =? _)%nat; intros E; [|cbn in E]; apply Ok_inj in E; subst r; reflexivity. Qed.
  Lemma fold_unit : forall (X : Type) (body : X -> res (quantity spec_float Z)) t (l : list X) acc r,
    (forall k p, In k l -> body k = Ok p -> snd p = Some t) -> (snd acc = None \/ snd acc = Some t) ->
    fold_res (fun a k => let! p := body k in o_add so a p) acc l = Ok r -> (l = [] -> snd acc = Some t) -> snd r = Some t.
  Proof.
    intros X body t. induction l as [|k l IH]; intros acc r H A E N; cbn [fold_res] in E.
    - apply Ok_inj in E. subst r. auto.
    - destruct (body k) as [p| | |] eqn:Eb; cbn [bind] in E; try discriminate. destruct (o_add so acc p) as [a'| | |] eqn:Ea; cbn [bind] in E; try discriminate.
      pose proof (H k p ltac:(left; auto) Eb) as Ep. apply so_add in Ea. rewrite Ep in Ea.
      assert (S : snd a' = Some t). { destruct A as [A|A]; rewrite A in Ea; cbn in Ea. { apply Ok_inj in Ea. auto. } rewrite Z.eqb_refl in Ea. apply Ok_inj in Ea. auto. }
      eapply IH; [|right; exact S|exact E|auto]. intros. eapply H; eauto. right. auto.
  Qed.
  Lemma bind_assoc' : forall (A B C : Type) (x : res A) (f : A -> res B) (g : B -> res C), bind (bind x f) g = bind x (fun a => bind (f a) g).
  Proof. intros A B C [ | | | ] f g; reflexivity. Qed.
  Lemma rdet_unit : forall (q : list (list (quantity spec_float Z))) (a b : nat -> Z) rows cols r,
    (forall i j, In i rows -> In j cols -> exists x, m_index q (i, j) = Ok ((x, Some (a i + b j)%Z) : quantity spec_float Z)) -> length rows = length cols ->
    rdet so q rows cols = Ok r -> snd r = Some (total a rows + total b cols)%Z.
  Proof.
    intros q a b. induction rows as [|i rows IH]; intros cols r H L E.
    - destruct cols; [|discriminate]. cbn in E. apply Ok_inj in E. subst r. reflexivity.
    - cbn [rdet] in E. set (body := fun k => let! x := m_index q (i, nth k cols 0%nat) in let! c := rdet so q rows (remove_at k cols) in let! c1 := rneg so k c in o_mul so x c1).
      assert (E' : fold_res (fun a k => let! p := body k in o_add so a p) (o_zero so) (seq 0 (length cols)) = Ok r).
      { rewrite <- E. apply fold_res_ext. intros acc k _. unfold body. rewrite !bind_assoc'. apply bind_ext. intros ? _. rewrite !bind_assoc'. apply bind_ext. intros ? _. rewrite !bind_assoc'. apply bind_ext. reflexivity. }
      refine (@fold_unit nat body _ (seq 0 (length cols)) (o_zero so) r _ (or_introl eq_refl) E' _).
      + intros k p Hk Eb. apply in_seq in Hk. cbn [length] in L. unfold body in Eb. destruct (H i (nth k cols 0%nat)) as (x & Ex); [left; auto|apply nth_In; lia|]. rewrite Ex in Eb. cbn [bind] in Eb.
        destruct (rdet so q rows (remove_at k cols)) as [c| | |] eqn:Ec; cbn [bind] in Eb; try discriminate. destruct (rneg so k c) as [c1| | |] eqn:En; cbn [bind] in Eb; try discriminate.
        apply so_neg in En. apply so_mul in Eb. rewrite En in Eb. cbn [snd] in Eb. rewrite Eb. erewrite IH; [| | |exact Ec].
        * cbn [times z_units u_mul]. f_equal. rewrite (@total_remove b cols k) by lia. cbn [total fold_right]. fold (total a rows). lia.
        * intros i' j' Hi Hj. apply H; [right; auto|]. eapply remove_at_in; eauto.
        * rewrite remove_at_length by lia. lia.
      + intros Q. destruct cols; [discriminate L|]. discriminate Q.
  Qed.

  Lemma tagged : forall N a b x y, rect N N x -> rect N N y ->
    (forall i j, (i < N)%nat -> (j < N)%nat -> sh (a i + b j) (mget fo x i j) (mget fo y i j)) ->
    let q := mk N N (fun i j => (mget fo x i j, Some (a i + b j)%Z)) in rect N N q /\ m_bare q x /\ m_rescaled prec emax q y.
  Proof.
    intros N a b x y Rx Ry H q. split; [apply rect_mk|]. destruct (mk_ex fo Rx) as (f & ->), (mk_ex fo Ry) as (g & ->). unfold q. split; apply Forall2_mk.
    - intros. unfold bare. cbn [fst]. apply mget_mk; auto.
    - intros i j Hi Hj. specialize (H i j Hi Hj). rewrite (@mget_mk _ fo N N g) in H by auto. exact H.
  Qed.
  (** If row i is multiplied by 2^(a i) and column j by 2^(b j), det is multiplied by all these factors ... *)
  Theorem C114_det : forall N a b x y, rect N N x -> rect N N y ->
    (forall i j, (i < N)%nat -> (j < N)%nat -> sh (a i + b j) (mget fo x i j) (mget fo y i j)) ->
    (exists r, m_det so N (mk N N (fun i j => (mget fo x i j, Some (a i + b j)%Z))) = Ok r) ->
    exists d d', m_det fo N x = Ok d /\ m_det fo N y = Ok d' /\ sh (total a (seq 0 N) + total b (seq 0 N)) d d'.
  Proof.
    intros N a b x y Rx Ry H (r & Er). set (q := mk N N (fun i j => (mget fo x i j, Some (a i + b j)%Z))) in *.
    destruct (@tagged N a b x y Rx Ry H) as (Rq & Bq & Sq). fold q in Rq, Bq, Sq.
    destruct (@C114_float_m_det prec emax rem Hp He N q x y r Rq Bq Sq Er) as ((d & Ed & Bd) & (d' & Ed' & Sd)).
    exists d, d'. split; auto. split; auto. unfold rescaled in Sd. rewrite m_det_spec in Er. erewrite rdet_unit in Sd; [| | |exact Er]; auto.
    { unfold bare in Bd. rewrite Bd in Sd. exact Sd. }
    intros i j Hi Hj. apply in_seq in Hi, Hj. eexists. unfold q. rewrite m_index_mk by lia. reflexivity.
  Qed.
  (** ... and element (i, j) of the inverse is divided by the factors of column i and row j. *)
  Theorem C114_inv : forall N a b x y, rect N N x -> rect N N y ->
    (forall i j, (i < N)%nat -> (j < N)%nat -> sh (a i + b j) (mget fo x i j) (mget fo y i j)) ->
    (exists r, m_inv so N (mk N N (fun i j => (mget fo x i j, Some (a i + b j)%Z))) = Ok r) ->
    exists c c', m_inv fo N x = Ok c /\ m_inv fo N y = Ok c' /\ rect N N c /\ rect N N c' /\
      forall i j, (i < N)%nat -> (j < N)%nat -> sh (- (a j + b i)) (mget fo c i j) (mget fo c' i j).
  Proof.
    intros N a b x y Rx Ry H (r & Er). set (q := mk N N (fun i j => (mget fo x i j, Some (a i + b j)%Z))) in *.
    destruct (@tagged N a b x y Rx Ry H) as (Rq & Bq & Sq). fold q in Rq, Bq, Sq.
    destruct (@C114_float_m_inv prec emax rem Hp He N q x y r Rq Bq Sq Er) as ((c & Ec & Bc) & (c' & Ec' & Sc)).
    exists c, c'. split; auto. split; auto.
    unfold m_inv in Er. destruct (m_adj so N q) as [A| | |] eqn:EA; cbn [bind] in Er; try discriminate. destruct (m_det so N q) as [D| | |] eqn:ED; cbn [bind] in Er; try discriminate.
    rewrite m_det_spec in ED. assert (Iq : forall i j, (i < N)%nat -> (j < N)%nat -> exists z, m_index q (i, j) = Ok (z, Some (a i + b j)%Z)).
    { intros i j Hi Hj. eexists. unfold q. rewrite m_index_mk by lia. reflexivity. }
    apply (@rdet_unit q a b) in ED; auto. 2:{ intros i j Hi Hj. apply in_seq in Hi, Hj. apply Iq; lia. }
    unfold m_adj in EA. rewrite m_indices_mk in EA. cbn [bind] in EA. apply (m_map_entries so) in EA as (g & -> & Hg).
    unfold m_sdiv in Er. apply (m_map_entries so) in Er as (h & -> & Hh).
    assert (Rc : rect N N c /\ rect N N c').
    { assert (X : forall (P : quantity spec_float Z -> spec_float -> Prop) m', Forall2 (Forall2 P) (mk N N h) m' -> rect N N m').
      { intros P m' F. pose proof (rect_mk N N h) as (L & Fr). split. { rewrite <- (Forall2_length F). auto. }
        clear - F Fr. revert F Fr. generalize (mk N N h). intros l F. induction F as [|u v l s Huv F IH]; intros Fr; constructor.
        - inversion Fr; subst. symmetry. apply (Forall2_length Huv).
        - apply IH. inversion Fr; auto. }
      split; [eapply X; exact Bc|eapply X; exact Sc]. }
    destruct Rc as (Rc & Rc'). split; auto. split; auto. intros i j Hi Hj.
    destruct (mk_ex fo Rc) as (f1 & ->), (mk_ex fo Rc') as (f2 & ->). rewrite !mget_mk by auto.
    pose proof (proj1 (Forall2_mk _ _ _ _ _) Bc i j Hi Hj) as B1. pose proof (proj1 (Forall2_mk _ _ _ _ _) Sc i j Hi Hj) as S1. cbv beta in B1, S1.
    pose proof (Hg i j Hi Hj) as G1. cbn beta iota in G1. rewrite m_cofactor_spec in G1 by auto.
    destruct (rdet so q (remove_at j (seq 0 N)) (remove_at i (seq 0 N))) as [C| | |] eqn:EC; cbn [bind] in G1; try discriminate.
    apply so_neg in G1. apply (@rdet_unit q a b) in EC.
    2:{ intros i' j' Hi' Hj'. apply remove_at_in, in_seq in Hi', Hj'. apply Iq; lia. }
    2:{ rewrite !remove_at_length; rewrite ?seq_length; auto. }
    pose proof (Hh i j Hi Hj) as H1. apply (so_div _ _ ED) in H1. rewrite G1, EC in H1. cbn [times z_units u_mul] in H1.
    unfold rescaled in S1. rewrite H1 in S1. unfold bare in B1. rewrite B1 in S1.
    replace (- (a j + b i))%Z with (total a (remove_at j (seq 0 N)) + total b (remove_at i (seq 0 N)) + - (total a (seq 0 N) + total b (seq 0 N)))%Z; [exact S1|].
    rewrite (@total_remove a (seq 0 N) j), (@total_remove b (seq 0 N) i) by (rewrite seq_length; auto). rewrite !seq_nth by auto. cbn [Nat.add]. lia.
  Qed.
End Explicit.

(* ------------------------------------------------------------------------- *)
(** * Examples                                                                  *)
Section Ex114.
  Local Notation o64 := (sf_ops 53 1024 (fun x _ => x)).
  Definition ldexp (e : Z) (x : spec_float) : spec_float := match x with S754_finite s m k => S754_finite s m (k + e) | _ => x end.
  Lemma ldexp_shifted : forall e s m k, valid_binary 53 1024 (S754_finite s m k) = true -> valid_binary 53 1024 (ldexp e (S754_finite s m k)) = true ->
    shifted 53 1024 e (S754_finite s m k) (ldexp e (S754_finite s m k)).
  Proof.
    intros e s m k V V'. split; [split; auto|]. split; [split; auto|]. unfold value, ldexp. rewrite powerRZ_add by lra. destruct s; lra.
  Qed.
  (** det of [[3,5],[7,-2]] = -41; row 0 times 4 and column 1 divided by 2. *)
  Definition ex_rows (i : nat) : Z := match i with O => 2 | _ => 0 end.
  Definition ex_cols (j : nat) : Z := match j with O => 0 | _ => -1 end.
  Example C114_ex_det : exists d d', m_det o64 2 [[f64_3; f64_5]; [f64_7; f64_m2]] = Ok d /\
    m_det o64 2 [[ldexp 2 f64_3; ldexp 1 f64_5]; [f64_7; ldexp (-1) f64_m2]] = Ok d' /\ shifted 53 1024 1 d d'.
  Proof.
    destruct (@C114_det 53 1024 (fun x _ => x) ltac:(lia) ltac:(lia) 2 ex_rows ex_cols [[f64_3; f64_5]; [f64_7; f64_m2]] [[ldexp 2 f64_3; ldexp 1 f64_5]; [ldexp 0 f64_7; ldexp (-1) f64_m2]]) as (d & d' & E & E' & S).
    - split; [reflexivity|repeat constructor].
    - split; [reflexivity|repeat constructor].
    - intros [|[|i]] [|[|j]] Hi Hj; try lia; apply ldexp_shifted; reflexivity.
    - eexists. vm_compute. reflexivity.
    - exists d, d'. split; auto.
  Qed.
  (** 3 m + 7 s is refused. *)
  Example C114_ex_mismatch : v_sum (scale_ops 53 1024) [(f64_3, Some 1%Z); (f64_7, Some 2%Z)] = Panic.
  Proof. vm_compute. reflexivity. Qed.
  (** Work = force . way over the reals, with metres replaced by centimetres and kilograms by grams: units are pairs of exponents. *)
  Definition si : units (Z * Z) := Units (0, 0)%Z (fun a b => (fst a + fst b, snd a + snd b)%Z) (fun a => (- fst a, - snd a)%Z) (fun a b => (Z.eqb (fst a) (fst b) && Z.eqb (snd a) (snd b))%bool).
  Definition cgs (a : Z * Z) : R := powerRZ 100 (fst a) * powerRZ 1000 (snd a).
  Lemma cgs_change : change r_field si cgs.
  Proof.
    constructor; unfold cgs; cbn.
    - ring.
    - intros g h. rewrite !powerRZ_add by lra. ring.
    - intros (a & b). cbn. replace 1 with (powerRZ 100 (- a + a) * powerRZ 1000 (- b + b)); [rewrite !powerRZ_add by lra; ring|]. rewrite !Z.add_opp_diag_l. cbn. ring.
    - intros (a & b) (c & d) H. cbn in *. apply andb_prop in H as (H1 & H2). apply Z.eqb_eq in H1, H2. subst. reflexivity.
  Qed.
  Example C114_ex_work : forall f g x y : R, exists w w', v_dot r_ops 2 [f; g] [x; y] = Ok w /\
    v_dot r_ops 2 [100000 * f; 100000 * g] [100 * x; 100 * y] = Ok w' /\ w' = 10000000 * w.
  Proof.
    intros f g x y. pose (N := Some (1, 1)%Z : option (Z * Z)). pose (L := Some (1, 0)%Z : option (Z * Z)).
    destruct (@C114_units_v_dot R _ r_ops r_field si cgs cgs_change 2 [(f, N); (g, N)] [(x, L); (y, L)] [f; g] [x; y] [100000 * f; 100000 * g] [100 * x; 100 * y] (f * x + g * y, Some (2, 1)%Z))
      as ((w & E & B) & (w' & E' & S)); try reflexivity; try (repeat constructor; fail).
    - apply Forall2_cons; [|apply Forall2_cons; [|apply Forall2_nil]]; unfold scaled, cgs, N, L; cbn; rewrite ?Pos2Nat.inj_1; cbn; ring.
    - apply Forall2_cons; [|apply Forall2_cons; [|apply Forall2_nil]]; unfold scaled, cgs, N, L; cbn; rewrite ?Pos2Nat.inj_1; cbn; ring.
    - exists w, w'. split; auto. split; auto. unfold bare in B. cbn in B. subst w. unfold scaled, cgs in S. cbn in S. rewrite S. change (Pos.to_nat 2) with 2%nat. change (Pos.to_nat 1) with 1%nat. cbn. ring.
  Qed.
End Ex114.
