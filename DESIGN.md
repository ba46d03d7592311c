# Formal model of vecmat-rs in Rocq (Coq 8.16.1) - design

## 1. Approach

The crate is a generic library: every operation is a function of a scalar type `T` and of the
trait operations `T` provides.  The model is a set of total, computable Gallina functions, one per
Rust function, parameterised by a record of scalar operations (`Ops T`) whose members may panic.

* `res A := Ok a | Panic | UB | Fuel`.  `Panic` is a Rust panic (failed unwrap, index out of range,
  arithmetic overflow / division by zero in the scalar type, `unimplemented!`).  `UB` is undefined
  behaviour (assume_init of an uninitialised cell, unchecked access out of bounds).  `Fuel` marks
  exhausted recursion fuel.  Theorems that say `= Ok ...` therefore also say "no panic, no UB,
  terminates".
* `Vector<T,N>` is `list T` of length `N`; the const parameter `N` is an explicit argument wherever
  the code uses it.  `Matrix<T,M,N>` is the list of its `M` rows.  `Complex`, `Quaternion` are records.
  `Moebius` is its 2x2 matrix.  Wrapper structs `Shift`, `Linear`, `Rotation2/3`, `Scale` are their field;
  `Chain` is a pair.
* Iterators are state machines `next : S -> res (S * option A)`; closures `FnMut` are state passing
  functions `C -> A -> res (C * B)`.
* `MaybeUninit<T>` cells are `option T`; drops are recorded in a log.
* Theorems about the generic code are stated at four levels of scalar laws:
  none (structure only), commutativity of `+`/`*` (valid for floats), commutative ring
  (`ring_theory` of the standard library, or mathcomp `comRingType` for determinants), field / reals.
* Scalar back ends: exact `Z`, checked and wrapping machine integers of any width, the stdlib reals,
  IEEE floats (stdlib `SpecFloat`), rounded reals (Flocq).

## 2. Plan per property

| Property | Modelled | Proof idea |
|---|---|---|
| C01-C05 | vector/base/{init,iter}.rs with arbitrary iterators and closures, uninit cells and drop log | induction on cells / calls |
| C06-C07 | fold_first, sum, max, min | induction; NaN witness in SpecFloat by computation |
| C08-C13 | vector ops | reduction of zip+map to pointwise map; ring laws pointwise |
| C14-C16 | dot, norms, cross | induction, `ring`; Cauchy-Schwarz over R |
| C17-C18 | spec.rs, format.rs | computation, induction |
| C19-C25 | matrix base, iter, transpose, ops | row-major lemmas (`concat`), loop invariant for transpose |
| C26-C29 | product.rs, diagonal, one | sums over indices |
| C30-C34 | square.rs incl. mask mutation | invariant: mask selects a submatrix; equality with mathcomp `\det`; transfer to any commutative ring through a polynomial ring |
| C35-C36 | format.rs, math.rs | pointwise |
| C37-C47 | complex_.rs, quaternion.rs | `ring` / `field` |
| C48-C54 | moebius.rs | non-commutative algebra of complex-coefficient quaternions; limits over R; witnesses by computation |
| C55-C69 | transform/*.rs | group-action laws as one record of laws, generic Chain theorem, instances |
| C70-C72 | checked / wrapping back ends | relational parametricity lemma for every function |
| C73 | SpecFloat (binary formats, any precision) | commutativity / sign-symmetry lemmas; refutations by computation |
| C74, C78 | the same scalar back end, related to reals through Flocq | standard error analysis by induction on the length; exactness on integers that fit |
| C75-C76 | distr.rs | state-passing generator; fuelled rejection loop: theorems quantify over all fuels |
| C77 | approx.rs and the AbsDiffEq impls | pointwise |
| C79, C80 | traits.rs impls for the primitive types (TraitsModel.v) at the checked, wrapping and IEEE back ends | induction on the length; comparison through Flocq |
| C81 | accessors and From impls of Moebius, Chain and the wrappers (ViewModel.v) | computation on the 2x2 shape |
| C82 | the functions of complex_.rs delegated to num_complex (NumModel.v); num_complex is a record of arbitrary functions | computation |
| C83 | the same at R, with the record meeting the contract `textbook` of SpecNum.v (shown satisfiable: C83_contract_met) | exponential identities on pairs of reals, Coquelicot's C |
| C84 | accessors, conversions, equality and text in complex_.rs, quaternion.rs, format.rs | computation |
| C85 | mo_apply_q, mo_det over any formally real field, then at R | polynomial identity on the components (ring), then the metric on the upper half space |
| C86 | mo_apply_self, mo_det over any field | field; a quadratic with three roots vanishes |
| C87 | FmtModel: every write of Display/Debug, over any writer state, failing or panicking anywhere | induction on the loops; the list of writes, then their text |
| C88 | OwnModel: each consuming method with the log of what it drops, failure at any call; a destructor that panics in try_from_iter | inductions over the elements; outcome equal to the functional model; log equal to what was not passed on |
| C89 | LayoutModel: bytes of an object, layouts of arrays, transparent structs and MaybeUninit, pointers as byte offsets, the unsafe casts | induction over the elements; the cell model of VectorModel/MatrixModel is recovered from the bytes |
| C90 | TransformModel rot2/rot3 chain and apply on the spec_float instance | per-product bound from C74 and Cauchy-Schwarz, then an error-propagation induction over the chain |
| C91 | the same generic functions run on real arithmetic that fails when a result is not representable, and on floats | the parametricity lemmas of RelFacts (lax relation); per-operation exactness from Flocq; theorems generated by tools/gen_exact.py |
| C92 | the same generic functions run on checked integers of SpecMachine and on floats | as C91 with integers |
| C93 | the same generic functions run on (exact number, error bound) pairs, on reals and on floats | parametricity lemmas of RelFacts (lax relation); one-step soundness from Flocq; theorems generated by tools/gen_bound.py |
| C94 | MathModel.normal_float on the reals, draws as free variables | the event is an interval of u for each angle; its average is computed from the Gaussian integral (GaussFacts, Coquelicot) |
| C95 | uniform_rot2 on the reals | substitution in a periodic integral (Coquelicot) |
| C96 | uniform_rot3 on the reals, axis fixed, angle averaged | Rodrigues' formula (C61) and integrals of sine and cosine |
| C97 | nonzero_v, unit_v on the reals | rejection loop (C76) related draw by draw; normalisation commutes with length-preserving maps |
| C98 | DeriveModel: derived Clone, PartialEq, Default with stateful scalar functions that may panic | one predicate per trait, composed over arrays and chains by induction |
| C99 | DeriveModel: derived Debug over the writers of FmtModel | text of a sequence of writes, composed |
| C100 | sf_ops, the determinant code on floats | first-row expansion as a float recursion; forward error by induction on the number of rows (sum from zero, one product per term), the permanent as the recursion without signs |
| C101 | WordModel: `M * N` on words of any width, checked or wrapping | no overflow for types that exist; otherwise the wrapped length is too short |
| C102 | r_ops, affine / rigid transforms; maps of R^n as arbitrary functions | an isometry fixing 0 keeps dot products, hence is linear (the residual has length 0); a rotation matrix is a quaternion's by the largest of the four squares; uniqueness from the ten products |
| C103 | `UnitModel.v`: the provided methods of `Zero`, `One` (`is_one`, `set_zero`, `set_one`); the constructors and `*`, `+` of the other models | ring laws on index functions; the fold from one() keeps off-diagonal zeros (induction on the factors); is_one through C84 and the element-wise meaning of == |
| C104 | the generic code of the other models; scalars: any operations that hand on a bad operand, `FloatInst.v` (IEEE) | the code is run on booleans ("is it bad?", every operation is `or`) next to the real run; C70's relation between the two runs reduces each claim to a boolean computation; the determinant by induction on the expansion (any element survives in some cofactor); NaN and "not finite" by cases on the IEEE operations; counterexamples on f64 |
| C105 | the generic code of the other models, on any scalars whose operations return (`sf_ops`, `wrapping_ops`) | the expressions are written out as small functions (`left_sum`, `det_expr`, ...) in the file; each model function is rewritten to its expression without using any law of the scalars; det by induction on the rows left; its cost by running the model on scalars that count |
| C106 | `reject_loop`, `nonzero_v`, `unit_v`, `invertible_m`, `invertible_cm`, `uniform_rot3`, `normal_float` with the generator a tape of words (`SpecCount.v`: probability = proportion of tapes) | count the tapes by their first round: a recurrence for the number that end with a given event; solved as a geometric series; limits with Coquelicot. The finite alphabet stands for the bits of the generator; that the words of a real generator are independent and uniform is the assumption, not a claim |
| C107 | all functions of the model that return `res` (one theorem each, generated by `tools/gen_safe.py`); `SpecSafe.v`: `sound P r` = not UB, and a returned value satisfies P; dimensions and membership by `vec_of`, `mat_of`, `cx_of`, `qt_of`; `closed`: scalar operations that stay in a set | each function's code is followed step by step with the theorems of the functions it calls; loops by induction; instances for machine integers, floats, any scalar type. Of the parts with their own result types (drops, ownership, layout) C03, C05, C88, C89 speak |
| C108 | `m_det`, `m_inv`, `m_dot_v`, `v_dot_m`, `m_transpose`, `linear_transform`, `affine_transform`; systems as `solves m x b` (m·x returns b) | elimination on functions of two indices by induction on the number of columns gives a kernel vector or a left inverse (`gauss`), hence a kernel for every singular and every wide matrix; Cramer by Laplace expansion along the replaced column (any commutative ring); isometries by evaluation at unit vectors |
| C109 | every arithmetic operation with `range_ops` (interval arithmetic on words, `SpecRange.v`), `checked_ops` (debug), `wrapping_ops` (release) and `z_ops` (exact) | one generated theorem per operation: relational parametricity (`rr_*`) with the relation "inside the range", then C70 and C71; closed-form sizes by evaluating the operations on constant ranges, det and adj by induction on the Laplace expansion |
| C110 | every arithmetic operation with `frange_ops` (interval arithmetic with rounding to nearest, `SpecFRange.v`) and with `sf_ops` | one generated theorem per operation: relational parametricity with "between the ends", by monotonicity of rounding (Flocq) and evaluation at the corners; closed forms because k·2^a with k ≤ 2^prec is representable, so rounding does not pass it |
| C111 | `v_fmt`, `m_fmt`, `c_fmt`, `q_fmt`, the derived `Debug` of DeriveModel on a writer that appends to a string | `readable fmt`: text followed by a separator splits uniquely; holds for separator-free injective texts and is preserved by each container (induction on the list of elements; decimal sizes end at a non-digit) |
| C112 | `m_det`, `m_dot` with `m_transpose`, `v_square_length`, `v_length` over the reals; `m_det` over checked and wrapping integers | Gram-Schmidt by induction on the number of rows: a unit triangular L with L m = B, rows of B orthogonal and not longer; det of L G L^T. Debug build: induction over the recursion of det, every partial sum is a determinant of a matrix with entries set to zero |
| C113 | `mo_apply` on complex numbers, `mo_apply_q` on quaternions, `mo_det` | the image sphere is written down explicitly (a Hermitian form transformed by the adjugate); one polynomial identity per equation and for the discriminant; over the reals centre and radius by completing the square, inside/outside by the sign of the leading coefficient |
| C114 | all generic arithmetic: vectors, matrices, complex numbers, quaternions, rotations, Möbius | the operations run on numbers paired with units (`unit_ops`, `scale_ops` in SpecScale.v, failing on a mismatch or when overflow/underflow threatens) are related to the plain run in the old and in the new units by the parametricity theorems of C70 (RelFacts); for floats each operation is shown exact under shifting exponents with Flocq's rounding lemmas; closed forms for sum, dot, square_length, length, normalize, det, inv by following units through the expansion; dimensional consistency (PropDim.v) by running the operations on units in an abelian group, for det along the Laplace expansion |
| C115 | all generic arithmetic on floats | signs are units with two elements (`sign_units` in SpecSign.v): the parametricity theorems of C70 relate the run on floats tagged with signs to the plain runs before and after the change; symmetry of SpecFloat's rounding under negation; closed forms by following the tags through sums and the expansion of det |
| C116 | all generic arithmetic on reals and on dual numbers | the run on curves is related to the runs on dual numbers and on reals at each time by the parametricity theorems of C70/C72 (`moves` is a relation kept by the operations, by the rules of Coq's `derivable_pt_lim`); the rules for det and inv from the Leibniz formula over the ring of dual numbers (`d_ring`) and adj(m) m = det(m), length by the chain rule |
| C117 | sums, products, lengths, norms and normalize on IEEE floats | infinities as the power of two beyond the largest float and overflow as clamping make each operation the rounding of the real one, which is monotone; the square root of a rounded square is the absolute value in radix 2 (`root_square_R`, by bounding the error of the square by half an ulp in both halves of the binade); induction over the left-to-right sums |
| C118 | sum, dot, products, length, affine application, complex product on IEEE floats against the same operations on the reals | each rounding is a factor 1+d with \|d\| <= u (Flocq; sums need no underflow condition); the factors of a left-to-right sum are collected on the components of one argument, and the perturbed argument is fed to the real instance of the same model function |
| C119 | det, adj, inv of products, block matrices and rank-one updates, over commutative rings and fields | Cauchy-Binet by expanding both Leibniz sums over maps and grouping the injective ones by their range; blocks by Laplace expansion and induction; Sylvester and the determinant lemma by multiplying a bordered matrix with unit triangular ones; Sherman-Morrison by uniqueness of the inverse (C33) |
| C120 | Affine, Shift, Scale against all maps of N-space; det of edge matrices | formulas for apply (MFacts); the converse evaluates the map at the origin and the unit vectors; general position: the inverse (C33) of the matrix of differences; volumes by multiplicativity of the Leibniz sum |
| C121 | look_at / look_at_any against all rotation matrices and unit quaternions | columns of a rotation matrix (the first is the cross product of the others); conj(look_at_any) * r' fixes -z, so it is a turn about z (atan2); cos of the angle is 2 w^2 - 1; explicit values of look_at_any |
| C122 | round trips `(x + v) - v`, `x * k / k`, `x / k * k`, Shift and inv, Scale and inv, in sf_ops | Reiser-Knuth (TAOCP 4.2.2 D): a trip that moves up twice would need two midpoints to be tied with even neighbours or a change of spacing at a power of two (DriftFacts); signs of zeros; the reciprocal case by explicit rounding of the three operations |
| C123 | det(x 1 - A) by the model's own `m_det` run on polynomials (`poly_ops`) | polynomials with finitely many coefficients form a commutative ring; the adjugate identity there gives Cayley-Hamilton by a telescoping sum; reversal of coefficients and Sylvester's identity for AB / BA; evaluation is a homomorphism (RelFacts) |
| C124 | `rot3_new`, `rot3_angle`, chain, inv, apply of Rotation3 over R | quaternion products as polynomial identities; spherical triangle inequality by Cauchy-Schwarz and monotonicity of cos; the double cover (C102) for commuting; polar forms for Euler angles; for z-y-x, match the image of x and use that a rotation fixing x is a turn about x |
| C125 | `m_norm_l2`, `v_norm_l2`, `m_dot`, `m_dot_v`, `v_dot_m`, `m_outer`, `m_inv`, `m_det` over R | Frobenius norm as a root of sums (C15), Cauchy-Schwarz per entry; regularity of A + E from the kernel criterion C108; inv(A + E) - inv A = - inv A E inv(A + E) |
| C126 | `v_dot`, `v_smul`, `v_sub`, `m_dot`, `m_dot_v`, `v_dot_m`, `m_transpose`, `m_inv`, `m_det`, `m_outer` over R | completing squares of inner products; moving a matrix to the other side of a dot product; a quadratic that is never negative; C112 for independence; Sylvester's identity for the determinant of a reflection |
| C127 | `m_dot`, `m_outer`, `v_dot`, `m_one`, `m_transpose`, `m_det` over R | induction on the number of columns that differ from those of one(): the reflection along (column - unit vector) repairs one and keeps the rest; determinants by C31 and C126; isometries by C102 |
| C128 | `m_det`, `m_inv`, `m_dot`, `m_dot_v`, `v_dot`, `m_transpose` over R | induction on N, bordering: det of the bordered matrix is det times the Schur complement (multiply by a triangular matrix, block determinants of C119), the quadratic form is a completed square; the inverse by the substitution x = A y |
| C129 | `m_dot`, `m_transpose`, `v_dot` over R | induction on N: the new row solves a triangular system, the last pivot is the value of the quadratic form at (-y, 1); uniqueness because triangular matrices with positive diagonals are regular; QR from the Cholesky factor of the Gram matrix |
| C130 | `m_dot`, `m_det` over R | induction on N: the bordered matrix is factored by solving two triangular systems; the leading minors of the product by the product rule for determinants; uniqueness by induction on N: the new column and row solve triangular systems with nonzero determinant |
| C131 | `m_mul`, `m_add`, `m_smul`, `m_det` over R | the Cholesky factor of A writes the form of A * B as a sum of values of the form of B; the determinant bounds by induction with the Schur complement of C128, which is the least value of the form at a vector ending in 1 |

Every property is expressible in the model; none is marked not_applicable.

## 3. File map

| Model | Code |
|---|---|
| `Res.v` | no crate code: outcomes, indexing, the scalar operations record |
| `VectorModel.v` | `src/vector/{base/*,ops/*,dot,spec}.rs` |
| `MatrixModel.v` | `src/matrix/{base/*,ops/*,product,transpose}.rs` |
| `SquareModel.v` | `src/matrix/square.rs` |
| `ComplexModel.v` | `src/complex/{complex_,quaternion}.rs` |
| `MoebiusModel.v` | `src/complex/moebius.rs` |
| `TransformModel.v` | `src/transform/*.rs` |
| `MathModel.v` | `src/{vector,matrix}/{math,approx,format,distr}.rs`, `src/complex/{approx,format,distr}.rs`, `src/distr.rs`, samplers and AbsDiffEq impls of `src/transform` |
| `TraitsModel.v` | `src/traits.rs` (impls for primitive types) |
| `ViewModel.v` | accessors and conversions of `src/complex/moebius.rs`, `src/transform/*.rs` |
| `NumModel.v` | `src/complex/complex_.rs:33-48, 470-640` (delegation to num_complex) |
| `DropModel.v` | `Matrix::try_from_iter` and `GroupIter` with the values they drop |
| `FmtModel.v` | `Display`/`Debug` of vectors, matrices, complex numbers, quaternions on a writer that may fail |
| `OwnModel.v` | ownership of elements when closures or operators panic (`src/{vector,matrix}/base/{init,iter}.rs`, `ops/base.rs`) |
| `LayoutModel.v` | memory layout, pointers and uninitialised cells of vectors and matrices |
| `WordModel.v` | the two products of dimensions in `src/matrix/base/{convert,iter}.rs` with machine words |
| `DeriveModel.v` | derived `Clone`, `PartialEq`, `Default`, `Debug` |
| `SpecMachine.v`, `Instances.v`, `RealInst.v`, `FloatInst.v` | scalar back ends (not crate code): machine integers, Z, Qc, R, IEEE floats |

Specifications, kept apart from the model: `Spec.v` (in-order calls, positions, failures), `SpecRing.v` (rings, fields,
finite sums), `SpecDet.v` (permutation-free definition of the determinant), `SpecTransform.v` (group actions, derivatives),
`SpecDir.v` (directions, normals), `SpecMachine.v` (machine integers, homomorphisms), `SpecDistr.v` (rejection sampling,
tolerances), `SpecRound.v` (values and rounding units of floats),
`SpecNum.v` (complex elementary functions; the contract of num_complex), `SpecLaw.v` (probabilities of events, the
standard normal law, averages over a turn), `SpecCount.v` (tapes of words, proportions of tapes, conditional laws),
`SpecSafe.v` (no undefined behaviour, dimensions, closed sets of scalars), `SpecRange.v` and `SpecFRange.v` (ranges of integers and floats),
`SpecDual.v` (dual numbers, curves), `SpecBackward.v` (relative distance), `SpecRank.v` (choices of columns), `SpecAffGeo.v`
(weighted points), `SpecDrift.v` (iteration), `SpecPoly.v` (polynomials as scalars, powers of a matrix).
`PropExamples.v` collects worked instances of the theorems' hypotheses.
Theorems are in `Prop*.v`, named `Cxx_...`;
lemmas in the other files.

## 4. Trusted base

1. Coq 8.16.1's kernel, and `vm_compute` where a proof uses it (conversion inside the kernel).
2. The axioms `Print Assumptions` lists.  `ASSUMPTIONS.md` gives them for each theorem (generated from a build log by
   `tools/assumptions.py`; each `Prop*.v` ends with the `Print Assumptions` commands that print them).  Most theorems
   are closed under the global context.  Those about real numbers or IEEE rounding use axioms of the standard library
   only: `ClassicalDedekindReals.sig_forall_dec`, `ClassicalDedekindReals.sig_not_dec` (construction of the reals),
   `FunctionalExtensionality.functional_extensionality_dep`, and `Classical_Prop.classic` (through the standard
   library's analysis and Flocq).  No other axiom, in particular none of another library.
3. The model: that the Gallina functions say what the Rust functions do.  Each carries the file and lines it
   transcribes.  Simplifications, stated at the definitions and collected here:
   * `usize` is `nat`; the products `M * N` are not reduced modulo the word size, except in WordModel (C101), which shows that
     this makes no difference for matrix types whose elements occupy memory.
   * A type-level length is an explicit argument; a `list` of another length is outside every theorem's hypotheses.
   * Destructors do not panic (except in C88_panicking_destructor); closures and iterators are arbitrary state-passing
     functions that may panic, but do not diverge.  What is dropped (also by unwinding) is recorded by `tfi`, DropModel
     and OwnModel; the latter trusts the documented drop behaviour of `array::map`, `array::IntoIter` and `MaybeUninit`.
   * By-reference and by-value variants of an operation share one definition; `*_mut` accessors are modelled as
     "followed by a write".
   * The scalar operations are a record of functions that may panic; evaluation order of operands is modelled
     (`lift2`), so which panic comes first is meaningful.
   * Formatting ignores width/precision flags, as the crate does; failing writers are modelled in FmtModel (C87).
   * Rejection loops and the mutual recursion of `Rotation3::look_at_any` take a fuel argument.
4. For C73, C74 and C78: `SpecFloat` of the standard library is the semantics of `f32`/`f64` arithmetic
   (round to nearest, ties to even, one NaN).

## 5. What is not modelled

* External crates: `num_complex` (a record of arbitrary functions; C83 assumes, as a hypothesis, that they compute
  the textbook functions over the reals), `num_integer` (floor division is a parameter,
  with its contract as a hypothesis where needed), `libm`/`std` transcendental functions for floats (parameters; the
  reals of the standard library in the theorems over R), `rand` (a generator is any state-passing function), `approx`
  (the scalar comparison is a parameter).
* `src/matrix/dot.rs`: not part of the module tree (dead code).
* Trait plumbing without behaviour (`Borrow`, `AsRef`, type aliases, re-exports, `prelude`, derived `Copy`), the
  alternate form `{:#?}` of derived `Debug`; alignment and pointer provenance (the rest of the memory layout is C89).
* Complexity, code size, compile-time behaviour, `no_std` configuration.

## 6. Findings (behaviour proved of the code that a user may not expect)

* `Vector` of length 0: `sum`, `max`, `min`, `dot`, `Display`, `Debug`, `NonZero` panic.  `Matrix` with no rows: `iter`,
  `iter_mut`, `into_iter`, `+=`, `abs_diff_eq` panic although `a + b` does not (C06, C09, C18, C20, C76, C77).  A matrix
  product panics exactly when the inner dimension is 0 and the result is not empty (C26).
* `FlatIter` stops at the first empty inner sequence after the first one it entered (C21).
* `max`/`min` with NaN depend on positions; `max` returns the first of several maxima, `min` the last of several minima
  (C07).
* In release builds `norm_l_inf` of a vector with an element equal to the least value of its signed type is always too
  small, because `abs` wraps (C79); debug builds panic.
* `Scale::apply_dir` and `apply_normal` return their argument, which is the opposite direction for negative factors
  (C68, C69); `Shift` and `Scale` do not normalise while `Linear` does.
* `Moebius::normalize` divides by the determinant, so the new determinant is 1/det, not 1; for quaternion arguments the
  result is another transformation unless det is real (C51).
* `Moebius<Quaternion>::inv` is not an inverse (C54).
* `Rotation2`/`Rotation3::inv` invert, and `Rotation3::to_linear` agrees with `apply`, only for unit values (C58-C60).
* `Linear::look_at_any` is documented to rotate `dir` to -z; it maps -z to `dir` (C63).  `look_at` divides by zero when
  `dir` and `up` are parallel (C62).  The `dot < 0` branch of `Rotation3::look_at_any_cont` is never taken (C64).
* Quaternion `%` and `from_str_radix` always panic (C47).
* In IEEE arithmetic associativity, distributivity, `x + 0 = x` bitwise and `one() * m = m` (infinities) fail (C73).
* `Uniform` on `Rotation3` (documented as uniform over all possible values) draws a uniform axis and a uniform angle; that
  law is not invariant under composition with a fixed rotation: the trace averages to 1 instead of 0 (C96).
* `look_at_any` turns by the smallest angle only if dir.z < 0 or dir.x = 0; `look_at_any_cont`, documented to have no
  discontinuities except at z = 1, jumps as well (C121).
* `Scale::apply` followed by `apply` of its `inv`, repeated, drifts in floating point, by up to a third; `Shift` does not,
  nor do `*` and `/` by a scalar (C122).
* `AbsDiffEq for Chain` requires the component's `Epsilon` to be the position type, so it never applies to `Affine`.
* If the closure of `init` or `scan`, or the iterator of `try_from_iter`, panics, elements already stored are leaked (not
  dropped); this is safe (C88).

## 7. Testing the theorems

`seeded/mutations.py` lists wrong programs (one edit of one model definition each); `tools/mutate.py` applies each in a
scratch copy, re-checks every lemma that depends on the edited definition, and reports the theorems that fail and
those that mention the edited definition and survive.  `seeded/LOG.jsonl` has one line per attempt.
