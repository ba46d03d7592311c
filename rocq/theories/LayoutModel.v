(** Model of the raw memory behind vectors and matrices and of the [unsafe] casts:
    [src/vector/base/{mod,init}.rs], [src/matrix/base/{mod,init,convert}.rs], [src/matrix/transpose.rs].
    Memory is a list of bytes [B], one of which ([undef]) stands for an uninitialised byte; values may have any number of
    bytes.  Layout rules of Rust used (trusted): an array is its elements one after the other; a [repr(transparent)] struct
    is laid out as its field; [MaybeUninit<T>] has the size of [T] and any bytes; reading bytes that are not those of a
    value, or outside the object, is undefined behaviour.  Alignment and pointer provenance are not modelled. *)
From Verif Require Export MatrixModel.
Set Implicit Arguments.

(** The layout of a Rust type: its size, the bytes of a value, the value some bytes represent (if they represent one). *)
Record layout (B T : Type) := Layout { size : nat; bytes_of : T -> list B; of_bytes : list B -> option T }.

Section Layouts.
  Context {B : Type}.

  (** The layout of [[T; N]] (Rust reference): the elements one after the other. *)
  Definition array_bytes {T : Type} (l : layout B T) (v : list T) : list B := flat_map (bytes_of l) v.
  (** Reading [n] consecutive elements. *)
  Fixpoint array_parse {T : Type} (l : layout B T) (n : nat) (b : list B) : option (list T) :=
    match n with
    | O => match b with [] => Some [] | _ => None end
    | S k =>
        match of_bytes l (firstn (size l) b), array_parse l k (skipn (size l) b) with
        | Some x, Some t => Some (x :: t)
        | _, _ => None
        end
    end.
  (** The layout of [[T; N]]. *)
  Definition array_layout {T : Type} (N : nat) (l : layout B T) : layout B (list T) := Layout (N * size l) (array_bytes l) (array_parse l N).
  (** [#[repr(transparent)]], vector/base/mod.rs:11, matrix/base/mod.rs:10. *)
  Definition transparent {T : Type} (l : layout B T) : layout B T := l.
  (** The layout of [MaybeUninit<T>]: any bytes. *)
  Definition maybe_uninit {T : Type} (l : layout B T) : layout B (list B) :=
    Layout (size l) (fun b => b) (fun b => if length b =? size l then Some b else None).
  (** vector/base/mod.rs:11-15; matrix/base/mod.rs:10-14. *)
  Definition vector_layout {T : Type} (N : nat) (l : layout B T) : layout B (list T) := transparent (array_layout N l).
  (** matrix/base/mod.rs:10-14. *)
  Definition matrix_layout {T : Type} (M N : nat) (l : layout B T) : layout B (list (list T)) := transparent (vector_layout M (vector_layout N l)).

  (** A pointer into the bytes [mem] of an object is a byte offset: [*p], [*p = x], [p.add(k)]. *)
  Definition ptr_read {T : Type} (l : layout B T) (mem : list B) (p : nat) : res T :=
    if p + size l <=? length mem then match of_bytes l (firstn (size l) (skipn p mem)) with Some x => Ok x | None => UB end else UB.
  (** [*p = x]. *)
  Definition ptr_write {T : Type} (l : layout B T) (mem : list B) (p : nat) (x : T) : res (list B) :=
    if p + size l <=? length mem then Ok (firstn p mem ++ bytes_of l x ++ skipn (p + size l) mem) else UB.
  (** [p.add(k)]. *)
  Definition ptr_add {T : Type} (l : layout B T) (p k : nat) : nat := p + k * size l.
  (** vector/base/init.rs:152-158 [as_ptr], [as_mut_ptr]: the start of the array. *)
  Definition v_as_ptr : nat := 0.
  (** matrix/base/init.rs:109-115 [as_ptr], [as_mut_ptr]: [self.data.as_ptr() as *const T]. *)
  Definition m_as_ptr : nat := v_as_ptr.
  (** matrix/base/convert.rs:95-100 [as_array_of_arrays]: a cast of the address of the matrix; what is read through it. *)
  Definition m_as_array_of_arrays_raw {T : Type} (M N : nat) (l : layout B T) (mem : list B) : res (list (list T)) :=
    ptr_read (array_layout M (array_layout N l)) mem 0.

  (** [MaybeUninit::assume_init]. *)
  Definition mu_assume_init {T : Type} (l : layout B T) (b : list B) : res T := match of_bytes l b with Some x => Ok x | None => UB end.
  (** vector/base/init.rs:12-20 [from_uninit], [into_uninit]. *)
  Definition v_from_uninit {T : Type} (N : nat) (l : layout B T) (u : list B) : res (list (list B)) :=
    ptr_read (vector_layout N (maybe_uninit l)) (bytes_of (maybe_uninit (vector_layout N l)) u) 0.
  (** vector/base/init.rs:17-20 [into_uninit]. *)
  Definition v_into_uninit {T : Type} (N : nat) (l : layout B T) (c : list (list B)) : res (list B) :=
    ptr_read (maybe_uninit (vector_layout N l)) (bytes_of (vector_layout N (maybe_uninit l)) c) 0.
  (** vector/base/init.rs:24-26 [uninit], 30-32 [assume_init]. *)
  Definition v_uninit_raw {T : Type} (undef : B) (N : nat) (l : layout B T) : res (list (list B)) :=
    v_from_uninit N l (repeat undef (size (vector_layout N l))).
  (** vector/base/init.rs:30-32 [assume_init]. *)
  Definition v_assume_init_raw {T : Type} (N : nat) (l : layout B T) (c : list (list B)) : res (list T) :=
    let! u := v_into_uninit N l c in mu_assume_init (vector_layout N l) u.
  (** matrix/base/init.rs:12-20 [from_uninit], [into_uninit]; 24-26 [uninit], 30-32 [assume_init]. *)
  Definition m_from_uninit {T : Type} (M N : nat) (l : layout B T) (u : list B) : res (list (list (list B))) :=
    ptr_read (matrix_layout M N (maybe_uninit l)) (bytes_of (maybe_uninit (matrix_layout M N l)) u) 0.
  (** matrix/base/init.rs:17-20 [into_uninit]. *)
  Definition m_into_uninit {T : Type} (M N : nat) (l : layout B T) (c : list (list (list B))) : res (list B) :=
    ptr_read (maybe_uninit (matrix_layout M N l)) (bytes_of (matrix_layout M N (maybe_uninit l)) c) 0.
  (** matrix/base/init.rs:24-26 [uninit]. *)
  Definition m_uninit_raw {T : Type} (undef : B) (M N : nat) (l : layout B T) : res (list (list (list B))) :=
    m_from_uninit M N l (repeat undef (size (matrix_layout M N l))).
  (** matrix/base/init.rs:30-32 [assume_init]. *)
  Definition m_assume_init_raw {T : Type} (M N : nat) (l : layout B T) (c : list (list (list B))) : res (list (list T)) :=
    let! u := m_into_uninit M N l c in mu_assume_init (matrix_layout M N l) u.
  (** matrix/transpose.rs:9: [ptr::read(&self as *const _ as *const Matrix<MaybeUninit<T>, M, N>)]. *)
  Definition transpose_source {T : Type} (M N : nat) (l : layout B T) (m : list (list T)) : res (list (list (list B))) :=
    ptr_read (matrix_layout M N (maybe_uninit l)) (bytes_of (matrix_layout M N l) m) 0.
End Layouts.
