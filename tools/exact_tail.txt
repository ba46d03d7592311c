(* ------------------------------------------------------------------------- *)
(** * Non-trivial cases                                                        *)
(** An i32 determinant that does not overflow is the f64 determinant: |3 5; 7 -2| = -41. *)
Example C92_ex : exists s, m_det (sf_ops 53 1024 (fun x _ => x)) 2 [[f64_3; f64_5]; [f64_7; f64_m2]] = Ok s /\ is_int 53 1024 s (-41).
Proof.
  destruct int_3_5_7 as (I3 & I5 & I7 & I2).
  apply (@C92_m_det 53 1024 (fun x _ => x) eq_refl eq_refl true 32) with (u := [[3; 5]; [7; -2]]%Z).
  - cbn. lia.
  - cbn. lia.
  - split; repeat constructor.
  - repeat (apply Forall2_cons || apply Forall2_nil || assumption).
  - vm_compute. reflexivity.
Qed.
(** f64 represents the numbers 1/2, 3/2 and 3/4, so that 1/2 * 3/2 is computed exactly. *)
Lemma dyadic : forall m e, valid_binary 53 1024 (S754_finite false m e) = true -> representable 53 1024 (IZR (Z.pos m) * powerRZ 2 e).
Proof. intros m e V. exists (S754_finite false m e). split; auto. split; auto. unfold value. ring. Qed.
Local Open Scope R_scope.
Lemma p2_53 : powerRZ 2 (-53) = / 9007199254740992.
Proof. unfold powerRZ. rewrite pow_IZR. (match goal with |- / IZR ?b = _ => let v := eval vm_compute in b in replace b with v by (vm_compute; reflexivity) end). reflexivity. Qed.
Example C91_ex : forall Hp He, v_mul (@exact_ops 53 1024 Hp He) 2 [/ 2; 3 / 2] [3 / 2; / 2] = Ok [3 / 4; 3 / 4] /\
  (exists x y, v_denotes 53 1024 [/ 2; 3 / 2] x /\ v_denotes 53 1024 [3 / 2; / 2] y).
Proof.
  intros Hp He.
  assert (A : representable 53 1024 (/ 2)). { pose proof (@dyadic 4503599627370496 (-53) eq_refl) as H. rewrite p2_53 in H. replace (/ 2) with (4503599627370496 * / 9007199254740992) by lra. exact H. }
  assert (B : representable 53 1024 (3 / 2)). { pose proof (@dyadic 6755399441055744 (-52) eq_refl) as H. replace (powerRZ 2 (-52)) with (2 * powerRZ 2 (-53)) in H. 2: { replace (-52)%Z with (1 + -53)%Z by lia. rewrite powerRZ_add by lra. rewrite powerRZ_1. reflexivity. } rewrite p2_53 in H. replace (3 / 2) with (6755399441055744 * (2 * / 9007199254740992)) by lra. exact H. }
  assert (C : representable 53 1024 (3 / 4)). { pose proof (@dyadic 6755399441055744 (-53) eq_refl) as H. rewrite p2_53 in H. replace (3 / 4) with (6755399441055744 * / 9007199254740992) by lra. exact H. }
  split.
  - assert (E : forall x y, x * y = 3 / 4 -> (if representable_dec Hp He (x * y) then Ok (x * y) else Panic) = Ok (3 / 4)). { intros x y ->. destruct (representable_dec Hp He (3 / 4)); [reflexivity|contradiction]. }
    unfold v_mul. cbn [o_mul exact_ops]. unfold v_zip_map. cbn. unfold exactly. rewrite v_map_res. cbn [map_res]. rewrite !E by lra. reflexivity.
  - destruct A as (a & A), B as (b & B). exists [a; b], [b; a]. split; repeat (apply Forall2_cons || apply Forall2_nil || assumption).
Qed.
