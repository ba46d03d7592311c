(** Model of [src/matrix/square.rs]: identity, diagonal, determinant, cofactor, adjugate, inverse. *)
From Verif Require Export MatrixModel.
Set Implicit Arguments.

(** square.rs:47-49 [IndexMask]; line 53 [new]. *)
Definition index_mask_new (N : nat) : list bool := repeat true N.

(** square.rs:55-62 [IndexMask::find]: the loop; [self.data[i]] panics out of bounds. *)
Fixpoint mask_find (fuel : nat) (data : list bool) (i : nat) : res nat :=
  match fuel with
  | O => Fuel
  | S k => let! b := index data i in if b then Ok i else mask_find k data (S i)
  end.

(** square.rs:77-81 [SubmatrixMask]. *)
Record smask : Type := SMask { sm_col : list bool; sm_row : list bool; sm_deg : nat }.

(** square.rs:84-90 [SubmatrixMask::new]. *)
Definition smask_new (N : nat) : smask := SMask (index_mask_new N) (index_mask_new N) N.
(** square.rs:91-95 [exclude]; [self.deg -= 1] panics on underflow when overflow checks are on. *)
Definition smask_exclude (s : smask) (i j : nat) : res smask :=
  let! c := index_set (sm_col s) i false in
  let! r := index_set (sm_row s) j false in
  match sm_deg s with
  | O => Panic
  | S d => Ok (SMask c r d)
  end.
(** square.rs:96-100 [include]. *)
Definition smask_include (s : smask) (i j : nat) : res smask :=
  let! c := index_set (sm_col s) i true in
  let! r := index_set (sm_row s) j true in
  Ok (SMask c r (S (sm_deg s))).

Section Det.
  Context {T : Type} (o : Ops T) (N : nat) (m : list (list T)).

  (** square.rs:118-126 [Determinator::cofactor]; [rec] is the call [self.det()]. *)
  Definition d_cofactor (rec : smask -> res (smask * T)) (s : smask) (iri jrj : nat * nat)
    : res (smask * T) :=
    let '(i, ri) := iri in
    let '(j, rj) := jrj in
    let! s1 := smask_exclude s i j in
    let! (s2, a) := rec s1 in
    let! a1 := (if (ri + rj) mod 2 =? 0 then Ok a else o_neg o a) in
    let! s3 := smask_include s2 i j in
    Ok (s3, a1).

  (** square.rs:134-138, the loop of [det]: [left] iterations remain, the next has number [rj]. *)
  Fixpoint d_loop (rec : smask -> res (smask * T)) (left rj i j : nat) (s : smask) (a : T)
    : res (smask * T) :=
    match left with
    | O => Ok (s, a)
    | S l =>
        let! j1 := mask_find (S N) (sm_row s) j in
        let! x := m_index m (i, j1) in
        let! (s1, c) := d_cofactor rec s (i, 0) (j1, rj) in
        let! p := o_mul o x c in
        let! a1 := o_add o a p in
        d_loop rec l (S rj) i (S j1) s1 a1
    end.

  (** square.rs:127-141 [Determinator::det]. *)
  Fixpoint d_det (fuel : nat) (s : smask) : res (smask * T) :=
    match fuel with
    | O => Fuel
    | S k =>
        if sm_deg s =? 0 then Ok (s, o_one o)
        else
          let! i := mask_find (S N) (sm_col s) 0 in
          d_loop (d_det k) (sm_deg s) 0 i 0 s (o_zero o)
    end.

  (** square.rs:155-157 [det]. *)
  Definition m_det : res T := let! (_, a) := d_det (S N) (smask_new N) in Ok a.
  (** square.rs:149-152 [cofactor]. *)
  Definition m_cofactor (i j : nat) : res T :=
    if (i <? N) && (j <? N) then
      let! (_, a) := d_cofactor (d_det (S N)) (smask_new N) (i, i) (j, j) in Ok a
    else Panic.
  (** square.rs:160-162 [adj]. *)
  Definition m_adj : res (list (list T)) :=
    let! ix := m_indices N N in m_map (fun '(i, j) => m_cofactor j i) ix.
  (** square.rs:165-167 [inv]. *)
  Definition m_inv : res (list (list T)) :=
    let! a := m_adj in let! d := m_det in m_sdiv o a d.
  (** square.rs:176-178 [Inv::inv]. *)
  Definition m_Inv_inv : res (list (list T)) :=
    let! a := m_adj in let! d := m_det in m_sdiv o a d.
End Det.

(** square.rs:10-19 [diagonal]: the closure owns the iterator over [diag]. *)
Definition m_diagonal {T : Type} (o : Ops T) (N : nat) (diag : list T) : res (list (list T)) :=
  let! ix := m_indices N N in
  let! (_, r) :=
    m_map_st (fun (it : list T) '(i, j) =>
      if i =? j then
        let! (it1, x) := list_next it in let! y := unwrap x in Ok (it1, y)
      else Ok (it, o_zero o)) diag ix in
  Ok r.
(** square.rs:26-28 [One::one]. *)
Definition m_one {T : Type} (o : Ops T) (N : nat) : res (list (list T)) :=
  let! ix := m_indices N N in
  m_map (fun '(i, j) => Ok (if i =? j then o_one o else o_zero o)) ix.
