(** C101: machine-word arithmetic on lengths.  [w] is the width of [usize], [checks] whether overflow is checked. *)
From Verif Require Import SpecFacts VFacts VecProofs MFacts MatProofs WordModel.
Set Implicit Arguments.

(** No object is larger than [isize::MAX] bytes: for elements of [size] bytes, [M * N * size < 2^(w-1)]. *)
Definition type_exists (w size M N : nat) : Prop := M * N * size < 2 ^ (w - 1).

Lemma fits : forall w size M N, 0 < size -> type_exists w size M N -> M * N < 2 ^ w.
Proof.
  intros w size M N H E. unfold type_exists in E. apply Nat.le_lt_trans with (M * N * size).
  - rewrite <- (Nat.mul_1_r (M * N)) at 1. apply Nat.mul_le_mono_l. lia.
  - eapply Nat.lt_le_trans; [exact E|]. apply Nat.pow_le_mono_r; lia.
Qed.
Lemma mul_fits : forall w c M N, M * N < 2 ^ w -> usize_mul w c M N = Ok (M * N).
Proof. intros. unfold usize_mul. rewrite (proj2 (Nat.ltb_lt _ _)) by auto. reflexivity. Qed.

(** For every type of matrix whose elements occupy memory, the conversion from a slice is the one of C19: the machine
    product cannot overflow, with or without checks. *)
Theorem C101_slice : forall T w c size M N (s : list T), 0 < size -> type_exists w size M N ->
  (length s = M * N -> exists m, m_try_from_slice_w w c M N s = Ok (Some m) /\ rect M N m /\ concat m = s) /\
  (length s <> M * N -> m_try_from_slice_w w c M N s = Ok None).
Proof.
  intros T w c size M N s H E. unfold m_try_from_slice_w. rewrite mul_fits by (exact (fits H E)). cbn [bind].
  exact (m_slice_spec M N s).
Qed.
(** The matrix of indices holds pairs of machine words, so it never overflows. *)
Theorem C101_indices : forall w c size M N, 0 < size -> type_exists w size M N ->
  exists m, m_indices_w w c M N = Ok m /\ rect M N m /\ forall i j, i < M -> j < N -> elt m i j = Some (i, j).
Proof.
  intros w c size M N H E. unfold m_indices_w. rewrite mul_fits by (exact (fits H E)). cbn [bind].
  exact (m_indices_spec M N).
Qed.
(** Elements that occupy no memory: the product may overflow.  Checked: a panic, whatever the slice. *)
Theorem C101_overflow_checked : forall T w M N (s : list T), 2 ^ w <= M * N -> m_try_from_slice_w w true M N s = Panic.
Proof.
  intros T w M N s H. unfold m_try_from_slice_w, usize_mul. rewrite (proj2 (Nat.ltb_ge _ _)) by auto. reflexivity.
Qed.
(** Unchecked: a slice whose length is the wrapped product panics instead of being refused; every other slice is
    refused.  No slice (its length is a machine word) converts. *)
Theorem C101_overflow_unchecked : forall T w M N (s : list T), 2 ^ w <= M * N ->
  (length s = (M * N) mod 2 ^ w -> m_try_from_slice_w w false M N s = Panic) /\
  (length s <> (M * N) mod 2 ^ w -> m_try_from_slice_w w false M N s = Ok None).
Proof.
  intros T w M N s H. unfold m_try_from_slice_w, usize_mul. rewrite (proj2 (Nat.ltb_ge _ _)) by auto. cbn [bind].
  pose proof (Nat.pow_nonzero 2 w ltac:(lia)) as P. pose proof (Nat.mod_upper_bound (M * N) (2 ^ w) P) as B.
  split; intros L.
  - rewrite L, Nat.eqb_refl. rewrite m_try_from_iter_pull, pull_list.
    rewrite (firstn_all2 (n := M * N)) by lia. cbn [bind].
    rewrite (proj2 (Nat.eqb_neq _ _)) by lia. reflexivity.
  - apply Nat.eqb_neq in L. rewrite L. reflexivity.
Qed.
Theorem C101_never_wrong : forall T w c M N (s : list T) m, m_try_from_slice_w w c M N s = Ok (Some m) -> rect M N m /\ concat m = s.
Proof.
  intros T w c M N s m E. destruct (Nat.lt_ge_cases (M * N) (2 ^ w)) as [H|H].
  - unfold m_try_from_slice_w in E. rewrite mul_fits in E by auto. cbn [bind] in E.
    destruct (m_slice_spec M N s) as (A & B). fold (m_try_from_slice M N s) in E.
    destruct (Nat.eq_dec (length s) (M * N)) as [L|L].
    + destruct (A L) as (m' & E' & R). rewrite E' in E. injection E as <-. auto.
    + rewrite (B L) in E. discriminate.
  - destruct c.
    + rewrite C101_overflow_checked in E by auto. discriminate.
    + destruct (@C101_overflow_unchecked _ w M N s H) as (A & B). destruct (Nat.eq_dec (length s) ((M * N) mod 2 ^ w)) as [L|L].
      * rewrite (A L) in E. discriminate.
      * rewrite (B L) in E. discriminate.
Qed.

(** A 4-bit word: [Matrix<(), 4, 5>] wraps to length 4; [Matrix<u8, 2, 3>] exists and converts. *)
Example C101_ex : m_try_from_slice_w 4 false 4 5 [tt; tt; tt; tt] = Panic /\ m_try_from_slice_w 4 false 4 5 [tt] = Ok None /\
  m_try_from_slice_w 4 true 4 5 [tt] = Panic /\ type_exists 4 1 2 3 /\
  m_try_from_slice_w 4 false 2 3 [1; 2; 3; 4; 5; 6] = Ok (Some [[1; 2; 3]; [4; 5; 6]]).
Proof. repeat split; vm_compute; lia. Qed.

Print Assumptions C101_slice.
Print Assumptions C101_indices.
Print Assumptions C101_overflow_checked.
Print Assumptions C101_overflow_unchecked.
Print Assumptions C101_never_wrong.
