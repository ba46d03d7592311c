(* ------------------------------------------------------------------------- *)
(** * C116: with division; the denominators stay away from zero for some time *)
Section Near.
  Context (t0 : R).
  Lemma near_and : forall (P Q : R -> Prop), near t0 P -> near t0 Q -> near t0 (fun t => P t /\ Q t).
  Proof.
    intros P Q (d & Hd & H) (e & He & K). exists (Rmin d e). split; [apply Rmin_glb_lt; auto|]. intros t Ht. pose proof (Rmin_l d e). pose proof (Rmin_r d e).
    split; [apply H|apply K]; lra.
  Qed.
  Lemma near_all : forall (P : R -> Prop), (forall t, P t) -> near t0 P.
  Proof. intros P H. exists 1%R. split; [lra|auto]. Qed.
  Lemma near_mono : forall (P Q : R -> Prop), near t0 P -> (forall t, P t -> Q t) -> near t0 Q.
  Proof. intros P Q (d & Hd & H) K. exists d. auto. Qed.
  (** The run on dual numbers returns the values and derivatives of what the run on reals returns, for some time. *)
  Definition dres {C D B : Type} (S : C -> D -> Prop) (at_ : R -> C -> B) (d : res D) (b : R -> res B) : Prop :=
    match d with Ok r => exists W, S W r /\ near t0 (fun t => b t = Ok (at_ t W)) | _ => True end.
  Lemma d_bind : forall C D B C' D' B' (S : C -> D -> Prop) (at_ : R -> C -> B) (S' : C' -> D' -> Prop) (at' : R -> C' -> B') d b f g,
    dres S at_ d b -> (forall W r, S W r -> dres S' at' (f r) (fun t => g t (at_ t W))) -> dres S' at' (bind d f) (fun t => bind (b t) (g t)).
  Proof.
    intros C D B C' D' B' S at_ S' at' d b f g H K. destruct d as [r| | |]; cbn; auto. destruct H as (W & Hs & Hn). specialize (K W r Hs).
    unfold dres in *. destruct (f r) as [r'| | |]; auto. destruct K as (W' & Hs' & Hn'). exists W'. split; auto. eapply near_mono; [apply (near_and Hn Hn')|]. cbn. intros t (-> & E). exact E.
  Qed.
  Lemma d_ret : forall C D B (S : C -> D -> Prop) (at_ : R -> C -> B) W r b, S W r -> (forall t, b t = Ok (at_ t W)) -> dres S at_ (Ok r) b.
  Proof. intros. exists W. split; auto. apply near_all. auto. Qed.
  Lemma d_free : forall C D B (S : C -> D -> Prop) (at_ : R -> C -> B) (f : D -> B) d rr,
    (forall s, rr t0 = Ok s -> exists r W, d = Ok r /\ S W r /\ forall t, rr t = Ok (at_ t W)) -> rr t0 = rmap f d -> dres S at_ d rr.
  Proof.
    intros C D B S at_ f d rr H E. unfold dres. destruct d as [r| | |] eqn:Ed; auto. destruct (H _ E) as (r' & W & Er & Hs & Ha). apply Ok_inj in Er. subst r'. exists W. split; auto. apply near_all. auto.
  Qed.
  Lemma d_map_res : forall C D B C' D' B' (S : C -> D -> Prop) (at_ : R -> C -> B) (S' : C' -> D' -> Prop) (at' : R -> C' -> B') f g U u,
    Forall2 S U u -> (forall W r, S W r -> dres S' at' (f r) (fun t => g t (at_ t W))) ->
    dres (Forall2 S') (fun t => map (at' t)) (map_res f u) (fun t => map_res (g t) (map (at_ t) U)).
  Proof.
    intros C D B C' D' B' S at_ S' at' f g U u H K. induction H as [|c d U u Hcd H IH]; cbn [map_res map]; [apply d_ret with (W := []); auto|].
    eapply (@d_bind _ _ _ _ _ _ S' at' (Forall2 S') (fun t => map (at' t)) _ (fun t => g t (at_ t c)) _ (fun t b => bind (map_res (g t) (map (at_ t) U)) (fun bs => Ok (b :: bs)))); [apply K; auto|].
    intros W r Hr. eapply (@d_bind _ _ _ _ _ _ (Forall2 S') (fun t => map (at' t)) (Forall2 S') (fun t => map (at' t)) _ (fun t => map_res (g t) (map (at_ t) U)) _ (fun t bs => Ok (at' t W :: bs))); [exact IH|].
    intros Ws rs Hrs. apply d_ret with (W := W :: Ws); auto.
  Qed.
  Lemma d_map2_res : forall C D B C2 D2 B2 C' D' B' (S : C -> D -> Prop) (at_ : R -> C -> B) (S2 : C2 -> D2 -> Prop) (at2 : R -> C2 -> B2) (S' : C' -> D' -> Prop) (at' : R -> C' -> B') f g U u V v,
    Forall2 S U u -> Forall2 S2 V v -> (forall W r X x, S W r -> S2 X x -> dres S' at' (f r x) (fun t => g t (at_ t W) (at2 t X))) ->
    dres (Forall2 S') (fun t => map (at' t)) (map2_res f u v) (fun t => map2_res (g t) (map (at_ t) U) (map (at2 t) V)).
  Proof.
    intros C D B C2 D2 B2 C' D' B' S at_ S2 at2 S' at' f g U u V v H. revert V v. induction H as [|c d U u Hcd H IH]; intros V v HV K; cbn [map2_res map]; [apply d_ret with (W := []); auto|].
    destruct HV as [|c2 d2 V v Hcd2 HV]; cbn [map2_res map]; [apply d_ret with (W := []); auto|].
    eapply (@d_bind _ _ _ _ _ _ S' at' (Forall2 S') (fun t => map (at' t)) _ (fun t => g t (at_ t c) (at2 t c2)) _ (fun t b => bind (map2_res (g t) (map (at_ t) U) (map (at2 t) V)) (fun bs => Ok (b :: bs)))); [apply K; auto|].
    intros W r Hr. eapply (@d_bind _ _ _ _ _ _ (Forall2 S') (fun t => map (at' t)) (Forall2 S') (fun t => map (at' t)) _ (fun t => map2_res (g t) (map (at_ t) U) (map (at2 t) V)) _ (fun t bs => Ok (at' t W :: bs))); [apply IH; auto|].
    intros Ws rs Hrs. apply d_ret with (W := W :: Ws); auto.
  Qed.
  Local Notation cat := (fun t (c : R -> R) => c t).
  Lemma nonzero_near : forall c l, derivable_pt_lim c t0 l -> c t0 <> 0%R -> near t0 (fun t => c t <> 0%R).
  Proof.
    intros c l H N. assert (Ct : continuity_pt c t0) by (apply derivable_continuous_pt; exists l; exact H).
    destruct (continuous_neq_0 c t0 Ct N) as (e & He). exists e. split; [apply cond_pos|]. intros t Ht. replace t with (t0 + (t - t0))%R by ring. apply He. exact Ht.
  Qed.
  Lemma d_div : forall U u V v, moves t0 U u -> moves t0 V v -> dres (moves t0) cat (o_div dual_ops u v) (fun t => o_div r_ops (U t) (V t)).
  Proof.
    intros U u V v (E & H) (E' & H'). cbn. destruct (Req_EM_T (fst v) 0) as [|N]; cbn; auto. rewrite <- E' in N. exists (fun t => U t / V t)%R. split.
    - split; cbn; [congruence|]. replace ((snd u * fst v - fst u * snd v) / (fst v * fst v))%R with ((snd u * V t0 - snd v * U t0) / Rsqr (V t0))%R by (rewrite E, E'; unfold Rsqr; f_equal; ring).
      apply (derivable_pt_lim_div U V); auto.
    - eapply near_mono; [apply (nonzero_near H' N)|]. cbn. intros t Nt. destruct (Req_EM_T (V t) 0); [contradiction|reflexivity].
  Qed.
  Lemma d_v_sdiv : forall U V u v, v_moves t0 U u -> moves t0 V v -> dres (v_moves t0) v_at (v_sdiv dual_ops u v) (fun t => v_sdiv r_ops (v_at t U) (V t)).
  Proof.
    intros U V u v H K. unfold v_sdiv. rewrite v_map_res. pose proof (@d_map_res _ _ _ _ _ _ (moves t0) cat (moves t0) cat (fun x => o_div dual_ops x v) (fun t x => o_div r_ops x (V t)) U u H) as X.
    unfold dres in X. assert (Y : forall W r, moves t0 W r -> dres (moves t0) cat (o_div dual_ops r v) (fun t => o_div r_ops (W t) (V t))) by (intros; apply d_div; auto). specialize (X Y).
    unfold dres. destruct (map_res _ u); auto. destruct X as (W & HW & N). exists W. split; auto. eapply near_mono; [exact N|]. cbn. intros t Et. rewrite v_map_res. exact Et.
  Qed.
  Lemma d_v_div : forall N U V u v, length U = N -> length V = N -> v_moves t0 U u -> v_moves t0 V v -> dres (v_moves t0) v_at (v_div dual_ops N u v) (fun t => v_div r_ops N (v_at t U) (v_at t V)).
  Proof.
    intros N U V u v LU LV H K. unfold v_div. pose proof (Forall2_len H). pose proof (Forall2_len K). rewrite v_zip_map_res by congruence.
    pose proof (@d_map2_res _ _ _ _ _ _ _ _ _ (moves t0) cat (moves t0) cat (moves t0) cat (o_div dual_ops) (fun t => o_div r_ops) U u V v H K) as X.
    specialize (X ltac:(intros; apply d_div; auto)). unfold dres in *. destruct (map2_res _ u v); auto. destruct X as (W & HW & Nr). exists W. split; auto. eapply near_mono; [exact Nr|]. cbn. intros t Et.
    rewrite v_zip_map_res by (unfold v_at; rewrite map_length; auto). exact Et.
  Qed.
  Lemma d_m_sdiv : forall U V u v, m_moves t0 U u -> moves t0 V v -> dres (m_moves t0) m_at (m_sdiv dual_ops u v) (fun t => m_sdiv r_ops (m_at t U) (V t)).
  Proof.
    intros U V u v H K. unfold m_sdiv. rewrite m_map_res.
    pose proof (@d_map_res _ _ _ _ _ _ (v_moves t0) v_at (v_moves t0) v_at (map_res (fun x => o_div dual_ops x v)) (fun t => map_res (fun x => o_div r_ops x (V t))) U u H) as X.
    assert (Y : forall W r, v_moves t0 W r -> dres (v_moves t0) v_at (map_res (fun x => o_div dual_ops x v) r) (fun t => map_res (fun x => o_div r_ops x (V t)) (v_at t W))).
    { intros W r HW. apply (@d_map_res _ _ _ _ _ _ (moves t0) cat (moves t0) cat (fun x => o_div dual_ops x v) (fun t x => o_div r_ops x (V t)) W r HW). intros. apply d_div; auto. }
    specialize (X Y). unfold dres in *. destruct (map_res _ u); auto. destruct X as (W & HW & N). exists W. split; auto. eapply near_mono; [exact N|]. cbn. intros t Et. rewrite m_map_res. exact Et.
  Qed.
  Lemma rect_at : forall M N U t, rect M N U -> rect M N (m_at t U).
  Proof. intros M N U t (L & F). split; [unfold m_at; rewrite map_length; auto|]. clear L. induction F; cbn; constructor; auto. unfold v_at. rewrite map_length. auto. Qed.
  Lemma rect_moves : forall M N U u, rect M N U -> m_moves t0 U u -> rect M N u.
  Proof. intros M N U u R H. apply (m_moves_in R H). Qed.
  Lemma d_m_div : forall M N U V u v, rect M N U -> rect M N V -> m_moves t0 U u -> m_moves t0 V v -> dres (m_moves t0) m_at (m_div dual_ops M N u v) (fun t => m_div r_ops M N (m_at t U) (m_at t V)).
  Proof.
    intros M N U V u v RU RV H K. unfold m_div. rewrite m_zip_map_res by first [exact (rect_moves RU H) | exact (rect_moves RV K)].
    pose proof (@d_map2_res _ _ _ _ _ _ _ _ _ (v_moves t0) v_at (v_moves t0) v_at (v_moves t0) v_at (map2_res (o_div dual_ops)) (fun t => map2_res (o_div r_ops)) U u V v H K) as X.
    assert (Y : forall W r X x, v_moves t0 W r -> v_moves t0 X x -> dres (v_moves t0) v_at (map2_res (o_div dual_ops) r x) (fun t => map2_res (o_div r_ops) (v_at t W) (v_at t X))).
    { intros W r Z z HW HZ. apply (@d_map2_res _ _ _ _ _ _ _ _ _ (moves t0) cat (moves t0) cat (moves t0) cat (o_div dual_ops) (fun t => o_div r_ops) W r Z z HW HZ). intros. apply d_div; auto. }
    specialize (X Y). unfold dres in *. destruct (map2_res _ u v); auto. destruct X as (W & HW & Nr). exists W. split; auto. eapply near_mono; [exact Nr|]. cbn. intros t Et.
    rewrite m_zip_map_res by (apply rect_at; auto). exact Et.
  Qed.
  Lemma d_m_inv : forall N U u, rect N N U -> m_moves t0 U u -> dres (m_moves t0) m_at (m_inv dual_ops N u) (fun t => m_inv r_ops N (m_at t U)).
  Proof.
    intros N U u RU H. pose proof (rect_moves RU H) as Ru. unfold m_inv.
    eapply (@d_bind _ _ _ _ _ _ (m_moves t0) m_at (m_moves t0) m_at _ (fun t => m_adj r_ops N (m_at t U)) _ (fun t a => bind (m_det r_ops N (m_at t U)) (fun d => m_sdiv r_ops a d))).
    { eapply d_free; [intros s; apply C116_m_adj; auto|]. cbv beta. rewrite (m_moves_at H). eapply (C72_m_adj dual_hom). eauto. }
    intros A a Ha. eapply (@d_bind _ _ _ _ _ _ (moves t0) cat (m_moves t0) m_at _ (fun t => m_det r_ops N (m_at t U)) _ (fun t d => m_sdiv r_ops (m_at t A) d)).
    { eapply d_free; [intros s; apply C116_m_det; auto|]. cbv beta. rewrite (m_moves_at H). eapply (C72_m_det dual_hom). eauto. }
    intros D d Hd. apply d_m_sdiv; auto.
  Qed.
  Lemma d_c_div_s : forall U V u v, c_moves t0 U u -> moves t0 V v -> dres (c_moves t0) c_at (c_div_s dual_ops u v) (fun t => c_div_s r_ops (c_at t U) (V t)).
  Proof.
    intros [a b] V [x y] v (Hx & Hy) Hv. unfold c_div_s. eapply (@d_bind _ _ _ _ _ _ (v_moves t0) v_at (c_moves t0) c_at _ (fun t => v_sdiv r_ops (v_at t [a; b]) (V t)) _ (fun t => c_from_vector)).
    { apply d_v_sdiv; auto. repeat (apply Forall2_cons; [assumption|]). apply Forall2_nil. }
    intros W r HW. destruct HW as [|w0 r0 W r H0 HW]; [cbn; auto|]. destruct HW as [|w1 r1 W r H1 HW]; [cbn; auto|]. destruct HW as [|w2 r2 W r H2 HW]; [|cbn; auto].
    apply d_ret with (W := Cx w0 w1); [split; auto|]. reflexivity.
  Qed.
  Lemma d_q_div_s : forall U V u v, q_moves t0 U u -> moves t0 V v -> dres (q_moves t0) q_at (q_div_s dual_ops u v) (fun t => q_div_s r_ops (q_at t U) (V t)).
  Proof.
    intros [a b c d] V [w x y z] v (Hw & Hx & Hy & Hz) Hv. unfold q_div_s. eapply (@d_bind _ _ _ _ _ _ (v_moves t0) v_at (q_moves t0) q_at _ (fun t => v_sdiv r_ops (v_at t [a; b; c; d]) (V t)) _ (fun t => q_from_vector)).
    { apply d_v_sdiv; auto. repeat (apply Forall2_cons; [assumption|]). apply Forall2_nil. }
    intros W r HW. do 4 (destruct HW as [|? ? ? ? ? HW]; [cbn; auto|]). destruct HW as [|? ? ? ? ? HW]; [|cbn; auto].
    match goal with |- dres _ _ _ (fun t => q_from_vector (v_at t [?w0; ?w1; ?w2; ?w3])) => apply d_ret with (W := Qt w0 w1 w2 w3) end; [split; [|split; [|split]]; assumption|]. reflexivity.
  Qed.
  Lemma d_c_inv : forall U u, c_moves t0 U u -> dres (c_moves t0) c_at (c_inv dual_ops u) (fun t => c_inv r_ops (c_at t U)).
  Proof.
    intros U u H. unfold c_inv.
    eapply (@d_bind _ _ _ _ _ _ (c_moves t0) c_at (c_moves t0) c_at _ (fun t => c_conj r_ops (c_at t U)) _ (fun t a => bind (c_norm_sqr r_ops (c_at t U)) (fun d => c_div_s r_ops a d))).
    { eapply d_free; [intros s; apply C116_c_conj; auto|]. cbv beta. rewrite (c_moves_at H). apply (C72_c_conj dual_hom). }
    intros A a Ha. eapply (@d_bind _ _ _ _ _ _ (moves t0) cat (c_moves t0) c_at _ (fun t => c_norm_sqr r_ops (c_at t U)) _ (fun t d => c_div_s r_ops (c_at t A) d)).
    { eapply d_free; [intros s; apply C116_c_norm_sqr; auto|]. cbv beta. rewrite (c_moves_at H). apply (C72_c_norm_sqr dual_hom). }
    intros D d Hd. apply d_c_div_s; auto.
  Qed.
  Lemma d_q_inv : forall U u, q_moves t0 U u -> dres (q_moves t0) q_at (q_inv dual_ops u) (fun t => q_inv r_ops (q_at t U)).
  Proof.
    intros U u H. unfold q_inv.
    eapply (@d_bind _ _ _ _ _ _ (q_moves t0) q_at (q_moves t0) q_at _ (fun t => q_conj r_ops (q_at t U)) _ (fun t a => bind (q_norm_sqr r_ops (q_at t U)) (fun d => q_div_s r_ops a d))).
    { eapply d_free; [intros s; apply C116_q_conj; auto|]. cbv beta. rewrite (q_moves_at H). apply (C72_q_conj dual_hom). }
    intros A a Ha. eapply (@d_bind _ _ _ _ _ _ (moves t0) cat (q_moves t0) q_at _ (fun t => q_norm_sqr r_ops (q_at t U)) _ (fun t d => q_div_s r_ops (q_at t A) d)).
    { eapply d_free; [intros s; apply C116_q_norm_sqr; auto|]. cbv beta. rewrite (q_moves_at H). apply (C72_q_norm_sqr dual_hom). }
    intros D d Hd. apply d_q_div_s; auto.
  Qed.
  Lemma d_c_div : forall U V u v, c_moves t0 U u -> c_moves t0 V v -> dres (c_moves t0) c_at (c_div dual_ops u v) (fun t => c_div r_ops (c_at t U) (c_at t V)).
  Proof.
    intros U V u v H K. unfold c_div. eapply (@d_bind _ _ _ _ _ _ (c_moves t0) c_at (c_moves t0) c_at _ (fun t => c_inv r_ops (c_at t V)) _ (fun t i => c_mul r_ops (c_at t U) i)); [apply d_c_inv; auto|].
    intros I i Hi. eapply d_free; [intros s; apply C116_c_mul; auto|]. cbv beta. rewrite (c_moves_at H), (c_moves_at Hi). apply (C72_c_mul dual_hom).
  Qed.
  Lemma d_q_div : forall U V u v, q_moves t0 U u -> q_moves t0 V v -> dres (q_moves t0) q_at (q_div dual_ops u v) (fun t => q_div r_ops (q_at t U) (q_at t V)).
  Proof.
    intros U V u v H K. unfold q_div. eapply (@d_bind _ _ _ _ _ _ (q_moves t0) q_at (q_moves t0) q_at _ (fun t => q_inv r_ops (q_at t V)) _ (fun t i => q_mul r_ops (q_at t U) i)); [apply d_q_inv; auto|].
    intros I i Hi. eapply d_free; [intros s; apply C116_q_mul; auto|]. cbv beta. rewrite (q_moves_at H), (q_moves_at Hi). apply (C72_q_mul dual_hom).
  Qed.
  Lemma d_add : forall U u V v, moves t0 U u -> moves t0 V v -> moves t0 (fun t => U t + V t)%R (fst u + fst v, snd u + snd v)%R.
  Proof. intros U u V v H K. exact (or_add (moves_rel t0) _ _ _ _ H K). Qed.
  Lemma d_mul : forall U u V v, moves t0 U u -> moves t0 V v -> moves t0 (fun t => U t * V t)%R (fst u * fst v, snd u * fst v + fst u * snd v)%R.
  Proof. intros U u V v H K. exact (or_mul (moves_rel t0) _ _ _ _ H K). Qed.
  Lemma d_mo : forall U V u v, rect 2 2 U -> m_moves t0 U u -> moves t0 V v -> dres (moves t0) cat (mo_apply_self dual_ops u v) (fun t => mo_apply_self r_ops (m_at t U) (V t)).
  Proof.
    intros U V u v RU H K. destruct H as [|A A' U u HA H]; [destruct RU; discriminate|]. destruct H as [|C C' U u HC H]; [destruct RU; discriminate|]. destruct H; [|destruct RU; discriminate].
    destruct RU as (_ & F). inversion F as [|? ? LA F']; subst. inversion F' as [|? ? LC _]; subst.
    destruct HA as [|a a' A A' Ha HA]; [discriminate|]. destruct HA as [|b b' A A' Hb HA]; [discriminate|]. destruct HA; [|discriminate].
    destruct HC as [|c c' C C' Hc HC]; [discriminate|]. destruct HC as [|d d' C C' Hd HC]; [discriminate|]. destruct HC; [|discriminate].
    apply (@d_div (fun t => a t * V t + b t)%R _ (fun t => c t * V t + d t)%R _ (d_add (d_mul Ha K) Hb) (d_add (d_mul Hc K) Hd)).
  Qed.
  Lemma d_out : forall C D B (S : C -> D -> Prop) (at_ : R -> C -> B) (f : D -> B) d rr s, dres S at_ d rr -> rr t0 = rmap f d -> rr t0 = Ok s ->
    exists r W, d = Ok r /\ S W r /\ near t0 (fun t => rr t = Ok (at_ t W)).
  Proof. intros C D B S at_ f d rr s H E Es. rewrite Es in E. destruct d as [r| | |]; try discriminate E. destruct H as (W & HW & N). exists r, W. auto. Qed.
End Near.
Section C116_div.
  Context (t0 : R).
  Theorem C116_v_div : forall N U V u v s, length U = N -> length V = N -> v_moves t0 U u -> v_moves t0 V v -> v_div r_ops N (v_at t0 U) (v_at t0 V) = Ok s ->
    exists r W, v_div dual_ops N u v = Ok r /\ v_moves t0 W r /\ near t0 (fun t => v_div r_ops N (v_at t U) (v_at t V) = Ok (v_at t W)).
  Proof. intros. prep. eapply d_out with (f := (map fst)); [apply d_v_div; eassumption| |eassumption]. cbv beta. ats. eapply (C72_v_div dual_hom_div); eassumption. Qed.
  Theorem C116_v_sdiv : forall N U V u v s, length U = N -> v_moves t0 U u -> moves t0 V v -> v_sdiv r_ops (v_at t0 U) (V t0) = Ok s ->
    exists r W, v_sdiv dual_ops u v = Ok r /\ v_moves t0 W r /\ near t0 (fun t => v_sdiv r_ops (v_at t U) (V t) = Ok (v_at t W)).
  Proof. intros. prep. eapply d_out with (f := (map fst)); [apply d_v_sdiv; eassumption| |eassumption]. cbv beta. ats. eapply (C72_v_sdiv dual_hom_div); eassumption. Qed.
  Theorem C116_m_div : forall M N U V u v s, rect M N U -> rect M N V -> m_moves t0 U u -> m_moves t0 V v -> m_div r_ops M N (m_at t0 U) (m_at t0 V) = Ok s ->
    exists r W, m_div dual_ops M N u v = Ok r /\ m_moves t0 W r /\ near t0 (fun t => m_div r_ops M N (m_at t U) (m_at t V) = Ok (m_at t W)).
  Proof. intros. prep. eapply d_out with (f := (map (map fst))); [apply d_m_div; eassumption| |eassumption]. cbv beta. ats. eapply (C72_m_div dual_hom_div); eassumption. Qed.
  Theorem C116_m_sdiv : forall M N U V u v s, rect M N U -> m_moves t0 U u -> moves t0 V v -> m_sdiv r_ops (m_at t0 U) (V t0) = Ok s ->
    exists r W, m_sdiv dual_ops u v = Ok r /\ m_moves t0 W r /\ near t0 (fun t => m_sdiv r_ops (m_at t U) (V t) = Ok (m_at t W)).
  Proof. intros. prep. eapply d_out with (f := (map (map fst))); [apply d_m_sdiv; eassumption| |eassumption]. cbv beta. ats. eapply (C72_m_sdiv dual_hom_div); eassumption. Qed.
  Theorem C116_m_inv : forall N U u s, rect N N U -> m_moves t0 U u -> m_inv r_ops N (m_at t0 U) = Ok s ->
    exists r W, m_inv dual_ops N u = Ok r /\ m_moves t0 W r /\ near t0 (fun t => m_inv r_ops N (m_at t U) = Ok (m_at t W)).
  Proof. intros. prep. eapply d_out with (f := (map (map fst))); [apply d_m_inv; eassumption| |eassumption]. cbv beta. ats. eapply (C72_m_inv dual_hom dual_hom_div); eassumption. Qed.
  Theorem C116_c_inv : forall U u s, c_moves t0 U u -> c_inv r_ops (c_at t0 U) = Ok s ->
    exists r W, c_inv dual_ops u = Ok r /\ c_moves t0 W r /\ near t0 (fun t => c_inv r_ops (c_at t U) = Ok (c_at t W)).
  Proof. intros. prep. eapply d_out with (f := (c_map fst)); [apply d_c_inv; eassumption| |eassumption]. cbv beta. ats. eapply (C72_c_inv dual_hom dual_hom_div); eassumption. Qed.
  Theorem C116_c_div : forall U V u v s, c_moves t0 U u -> c_moves t0 V v -> c_div r_ops (c_at t0 U) (c_at t0 V) = Ok s ->
    exists r W, c_div dual_ops u v = Ok r /\ c_moves t0 W r /\ near t0 (fun t => c_div r_ops (c_at t U) (c_at t V) = Ok (c_at t W)).
  Proof. intros. prep. eapply d_out with (f := (c_map fst)); [apply d_c_div; eassumption| |eassumption]. cbv beta. ats. eapply (C72_c_div dual_hom dual_hom_div); eassumption. Qed.
  Theorem C116_q_inv : forall U u s, q_moves t0 U u -> q_inv r_ops (q_at t0 U) = Ok s ->
    exists r W, q_inv dual_ops u = Ok r /\ q_moves t0 W r /\ near t0 (fun t => q_inv r_ops (q_at t U) = Ok (q_at t W)).
  Proof. intros. prep. eapply d_out with (f := (q_map fst)); [apply d_q_inv; eassumption| |eassumption]. cbv beta. ats. eapply (C72_q_inv dual_hom dual_hom_div); eassumption. Qed.
  Theorem C116_q_div : forall U V u v s, q_moves t0 U u -> q_moves t0 V v -> q_div r_ops (q_at t0 U) (q_at t0 V) = Ok s ->
    exists r W, q_div dual_ops u v = Ok r /\ q_moves t0 W r /\ near t0 (fun t => q_div r_ops (q_at t U) (q_at t V) = Ok (q_at t W)).
  Proof. intros. prep. eapply d_out with (f := (q_map fst)); [apply d_q_div; eassumption| |eassumption]. cbv beta. ats. eapply (C72_q_div dual_hom dual_hom_div); eassumption. Qed.
  Theorem C116_mo_apply_self : forall U V u v s, rect 2 2 U -> m_moves t0 U u -> moves t0 V v -> mo_apply_self r_ops (m_at t0 U) (V t0) = Ok s ->
    exists r W, mo_apply_self dual_ops u v = Ok r /\ moves t0 W r /\ near t0 (fun t => mo_apply_self r_ops (m_at t U) (V t) = Ok (W t)).
  Proof. intros. prep. eapply d_out with (f := fst); [apply d_mo; eassumption| |eassumption]. cbv beta. ats. eapply (C72_mo_apply_self dual_hom dual_hom_div); eassumption. Qed.
End C116_div.
