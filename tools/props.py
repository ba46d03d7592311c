#!/usr/bin/env python3
"""Source of /verif/properties.jsonl.  Run: python3 tools/props.py  (rewrites properties.jsonl)."""
import json, os
P = []
def p(title, statement, quantifier, why, *anchors):
    P.append(dict(id="C%02d" % (len(P)+1), title=title, statement=statement,
                  quantifier=quantifier, why_tests_cant=why, anchors=list(anchors)))

VB="src/vector/base/"; VO="src/vector/ops/"; MB="src/matrix/base/"; MO="src/matrix/ops/"; CX="src/complex/"; TR="src/transform/"

# ---- vectors -------------------------------------------------------------
p("Vector construction and indexed access",
  "from_array/from/into_array/as_array round-trip; init calls its closure exactly N times in index order; fill(v)/default give N copies; v[i] returns the i-th element for i<N and panics for i>=N; writing v[i]=x changes exactly element i, and panics without effect for i>=N.",
  "every N, element type, array, index, written value and (stateful, possibly panicking) closure",
  "tests use N in 2..16 and a few literals; N, the index and the closure are unbounded",
  VB+"init.rs: Vector::init, fill, default, new, from_array, into_array, as_array, Index, IndexMut")
p("try_from_iter takes exactly the first N items",
  "Vector::try_from_iter(it) calls next at most N times; it returns Some exactly when the first N calls all yield items, and then the vector holds these items in order and the iterator has been advanced by exactly N calls; if a call yields None before that, the result is None and next is not called again.",
  "every N and every iterator, including stateful, non-fused, infinite and panicking ones",
  "the iterator is an arbitrary state machine; tests use ranges of length 8 and 16",
  VB+"iter.rs: Vector::try_from_iter, TryFrom<&[T]>")
p("No element is leaked, duplicated or dropped twice; no uninitialised read",
  "For element types with destructors: when try_from_iter fails each item already taken is dropped exactly once and nothing else is dropped; when it succeeds none is dropped; when the user's iterator or closure panics nothing is dropped twice (the items taken so far are leaked). init, try_from_iter, unzip and transpose never assume an uninitialised cell to be initialised and never access out of bounds.",
  "every N, M, every iterator and closure, including those that panic half-way",
  "undefined behaviour is not observable by unit tests, and leak/double drop depend on where in the sequence the failure happens",
  VB+"init.rs: uninit, assume_init, init", VB+"iter.rs: try_from_iter, unzip", "src/matrix/transpose.rs")
p("map, for_each, fold, scan, zip, unzip, enumerate act by position and in order",
  "map/for_each/fold/scan call the closure once per element in increasing index order, threading its state; zip pairs equal positions and never panics; unzip is the inverse of zip; enumerate pairs each element with its own index; indices() is 0..N-1.",
  "every N, vectors, closures with state and panics",
  "holds for every closure and every N; order of effects is only sampled by tests",
  VB+"iter.rs: map, for_each, zip, unzip, enumerate, indices, fold, scan")
p("GroupIter chunks its source",
  "GroupIter over a source yields consecutive groups of N elements in order: for a source of L elements and N>0 the k-th call yields elements kN..kN+N-1 for k < L/N, and None afterwards with the incomplete tail consumed and dropped; for N=0 it yields empty vectors forever.",
  "every source list, every N, every number of calls",
  "unbounded source lengths and N; no unit test of GroupIter exists",
  VB+"iter.rs: GroupIter")
p("sum, max, min reduce the whole vector",
  "sum adds all elements from left to right; for a total order max/min return an element of the vector that is an upper/lower bound of all elements; all three panic exactly when N=0.",
  "every N, every vector, every total order / every addition",
  "quantifies over all vectors and orders",
  VO+"base.rs: Vector::sum, max, min", VB+"iter.rs: fold_first")
p("max and min in the presence of incomparable values (NaN)",
  "One would expect max/min (and norm_l_inf) not to depend on the order of the elements. With NaN they do: max keeps a leading NaN but skips later ones, min returns the value after the last NaN; for values where < is a strict weak order they are order-insensitive up to ties.",
  "every vector over a type whose < is only partial",
  "the outcome depends on the position of the incomparable value",
  VO+"base.rs: Vector::max, min, norm_l_inf")
p("Element-wise arithmetic",
  "+,-,*,/,% of two vectors, unary -, and *,/,% by a scalar act component by component (component i of the result is the scalar operation on components i, operands in order), and panic exactly when one of the scalar operations panics; scalar*vector equals vector*scalar.",
  "every N, every vector pair, every scalar type, including panicking scalar operations",
  "component-wise for all N and values; panic condition is universally quantified",
  VO+"base.rs: Neg, Add, Sub, Mul, Div, Rem, Mul<T>, Div<T>, Rem<T>, reverse_mul")
p("Compound assignment agrees with the binary operator",
  "a op= b leaves in a the value of a op b for vectors, matrices (element by element), complex numbers and quaternions, whenever the scalar op= agrees with the scalar op. (On matrices with no rows op= panics.)",
  "every value pair, every N, M",
  "the two are implemented by different code paths (iterator zip vs. zip+map)",
  VO+"base.rs: *Assign", VO+"bit.rs: *Assign", MO+"base.rs: *Assign", CX+"complex_.rs: *Assign", CX+"quaternion.rs: *Assign")
p("zero, is_zero, Sum and Product",
  "zero() has every component zero; is_zero is true exactly when all components are zero; summing / multiplying an iterator of vectors or matrices gives component-wise sums / products, zero / all-ones for an empty iterator.",
  "every N, every finite sequence of vectors",
  "unbounded sequence length",
  VO+"base.rs: Zero", VO+"iter.rs: Sum, Product", MO+"iter.rs: Sum, Product")
p("Bitwise operators, any, all and element-wise comparison",
  "&,|,^,! act component-wise; all()/any() are universal/existential quantification (true/false on the empty vector); veq/vne/vlt/vle/vgt/vge compare component-wise; a==b iff a.veq(b).all(), and De Morgan holds.",
  "every N and vectors",
  "quantifies over all vectors",
  VO+"bit.rs", VO+"vcmp.rs")
p("Floor division of integer vectors",
  "div_floor and mod_floor satisfy x = d*y + m component-wise with m=0 or m of the sign of y and |m|<|y|; div_mod_floor returns the pair (div_floor, mod_floor); a zero divisor in any component panics.",
  "every N and integer vectors",
  "all sign combinations and sizes",
  VO+"int.rs", MO+"int.rs")
p("Vectors form a module over a commutative ring of scalars",
  "Addition is commutative and associative with zero and negation; scalar multiplication distributes over both additions, is associative, and 1 acts as identity; a-b = a+(-b).",
  "every N, all vectors and scalars of any commutative ring",
  "algebraic laws over all values",
  VO+"base.rs")
p("Dot product is a symmetric bilinear form",
  "a.dot(b) is the sum of a_i*b_i; it is symmetric, additive and homogeneous in each argument, and a.dot(a)=square_length; it panics exactly when N=0. Symmetry only needs scalar * commutative, so it holds bit-for-bit for floats.",
  "every N>=1, all vectors, any commutative ring (symmetry: any commutative multiplication)",
  "algebraic law over all values",
  "src/vector/dot.rs: Dot, square_length")
p("Norms on real vectors and matrices",
  "Over the reals norm_l1, norm_l2 and norm_l_inf are norms: non-negative, zero only at zero, absolutely homogeneous, triangle inequality; norm_l2 satisfies Cauchy-Schwarz with dot, length = norm_l2, and l_inf <= l2 <= l1; normalize of a non-zero vector has length 1 and is a positive multiple of it. In floating point, normalising a vector whose computed length is zero yields NaN for zero components and infinities for the others.",
  "every N>=1, all real vectors (exact arithmetic)",
  "inequalities over all reals",
  VO+"base.rs: NormL1, NormL2, NormLInf", "src/vector/dot.rs: length, normalize", MO+"base.rs: NormL1, NormL2, NormLInf")
p("Cross products",
  "The 3D cross product is anti-commutative, bilinear, orthogonal to both arguments, satisfies Lagrange's identity |a x b|^2=|a|^2|b|^2-(a.b)^2 and Jacobi; the 4D one acts on the first three components and has w=0; the 2D one is the determinant of the two vectors.",
  "all vectors over any commutative ring",
  "algebraic identities over all values",
  "src/vector/spec.rs: cross")
p("xyzw accessors and tuple conversions",
  "x(),y(),z(),w() (and _ref/_mut) address components 0,1,2,3, in bounds, for N=2,3,4; writing through *_mut changes only that component; from_tuple/into_tuple and from_array agree and round-trip.",
  "every element type and values",
  "parametric in element type; unchecked accesses must be in bounds",
  "src/vector/spec.rs")
p("Vector text output",
  "Display/Debug of a vector with N>=1 is `VectorN(e0, e1, ..., eN-1)` with exactly one separator between elements; formatting a zero-length vector panics.",
  "every N and element renderings",
  "all N",
  VB+"format.rs")

# ---- matrices ---------------------------------------------------------------
p("Matrix construction, conversion and row-major layout",
  "from/into arrays of arrays, arrays of vectors and vectors of vectors round-trip; try_from_iter fills in row-major order from exactly M*N items; TryFrom<&[T]> succeeds iff the slice length is M*N and TryFrom<&[Vector]> iff it is M; indices() holds (i,j) at (i,j); init calls the closure M*N times row-major.",
  "every M, N, element type, slice and iterator",
  "all sizes",
  MB+"convert.rs", MB+"init.rs", MB+"iter.rs: indices")
p("Matrix iteration is row-major and complete",
  "iter, iter_mut and into_iter yield the M*N elements once each in row-major order and then None for ever; they panic exactly when M=0 (also for any/all/is_zero).",
  "every M, N, matrix, and every number of next calls",
  "all sizes and numbers of calls",
  MB+"iter.rs: FlatIter, iter, iter_mut, IntoIterator")
p("FlatIter flattens any sequence of sequences",
  "FlatIter should yield the concatenation of the inner sequences. This holds when no inner sequence is empty, and is false otherwise: iteration reports None early at an empty inner sequence.",
  "all sequences of sequences",
  "needs jagged inputs including empty inner sequences",
  MB+"iter.rs: FlatIter::next")
p("Matrix map, zip, unzip, fold, fold_first, scan, for_each",
  "These act on elements in row-major order exactly like the corresponding list functions on the flattened matrix, threading closure state across rows; unzip inverts zip; fold_first panics iff M=0 or N=0.",
  "every M, N, matrices and stateful, possibly panicking closures",
  "closures and sizes are arbitrary",
  MB+"iter.rs")
p("Matrix element, row and column access",
  "m[(i,j)] is column j of row i and panics iff i>=M or j>=N; row(i) is the i-th row, col(j) collects m[(i,j)] over i; writing m[(i,j)] changes only that element.",
  "every M,N,matrix,indices",
  "all sizes and indices",
  MB+"init.rs: Index, IndexMut, row, col")
p("Transpose",
  "transpose never touches uninitialised or out-of-bounds cells, drops nothing, and its (j,i) element is the (i,j) element of the source; transposing twice is the identity; transpose commutes with +, and reverses products.",
  "every M, N and element type, including non-Copy ones",
  "unsafe swap loop; correctness for all sizes",
  "src/matrix/transpose.rs")
p("Matrix element-wise operators and reductions",
  "Matrix +,-,*,/,% (both by matrix and scalar), negation, bitwise and comparison operators act element-wise; sum/max/min/any/all reduce all M*N elements as for the flattened vector.",
  "every M,N and matrices",
  "all sizes and values",
  MO+"base.rs", MO+"bit.rs", MO+"vcmp.rs")
p("Matrix multiplication is associative, distributive and unital",
  "(A.B).C = A.(B.C), A.(B+C)=A.B+A.C, (A+B).C=A.C+B.C, one().A = A = A.one(), scalars move through products; element (i,j) of A.B is the sum over k of A(i,k)B(k,j); the product panics iff the inner dimension is 0 and the result is non-empty.",
  "every conforming sizes and matrices over any ring of scalars (commutative where needed)",
  "algebraic laws at all sizes",
  "src/matrix/product.rs: Dot", "src/matrix/square.rs: One")
p("Matrix-vector products",
  "A.dot(v) and v.dot(A) are the products by a column / row vector: linear in both arguments, (A.B).v = A.(B.v), v.dot(A) = A^T.dot(v), and (A.dot(v)).dot(w) = v.dot(A^T.dot(w)).",
  "every sizes, matrices and vectors",
  "algebraic laws at all sizes",
  "src/matrix/product.rs")
p("Outer product",
  "u.outer(v) has element u_i*v_j at (i,j); (u.outer(v)).dot(w) = u*(v.dot(w)); its transpose is v.outer(u).",
  "every M,N, vectors",
  "all sizes",
  "src/matrix/product.rs: Outer")
p("Identity and diagonal matrices",
  "one() has ones exactly on the diagonal; diagonal(d) has d_i at (i,i) and zero elsewhere, consuming d in order and never panicking; diagonal(d).dot(v) = d*v component-wise.",
  "every N and d",
  "stateful closure relies on row-major order; all N",
  "src/matrix/square.rs: diagonal, one")
p("det computes the determinant and always terminates",
  "For a matrix over a commutative ring det() returns the Leibniz determinant (sum over permutations of signed products); the masked recursion never panics, indexes out of range or loops, for every N including 0.",
  "every N and N x N matrix over any commutative ring",
  "recursive algorithm with mutable mask; tests go to 4x4",
  "src/matrix/square.rs: Determinator, IndexMask, SubmatrixMask, Matrix::det")
p("Algebra of the determinant",
  "det(one)=1, det(A.B)=det A * det B, det(A^T)=det A, scaling a matrix by c scales det by c^N, and two equal rows give 0.",
  "every N, matrices over any commutative ring",
  "algebraic law at all sizes",
  "src/matrix/square.rs")
p("Cofactor and adjugate",
  "cofactor(i,j) is (-1)^(i+j) times the determinant of the matrix with row i and column j removed and panics iff i>=N or j>=N; adj() is the transposed cofactor matrix and A.adj(A) = adj(A).A = det(A)*I.",
  "every N, indices and matrices over any commutative ring",
  "all sizes",
  "src/matrix/square.rs: cofactor, adj")
p("inv is the two-sided inverse over a field",
  "If det(A) is not zero, A.inv() exists and A.inv().A = A.A.inv() = one(); (A.B).inv() = B.inv().A.inv(); inv(inv A)=A; both inv methods agree.",
  "every N>=1 and invertible matrices over any field",
  "algebraic law at all sizes",
  "src/matrix/square.rs: inv, Inv")
p("inv of integer matrices",
  "For integer matrices inv divides the adjugate by the determinant with truncation: it panics when det=0 and N>=1, is the exact inverse when det is 1 or -1, and if it is an inverse then det is 1 or -1.",
  "every N and integer matrices",
  "number-theoretic statement over all matrices",
  "src/matrix/square.rs: inv")
p("Matrix text output",
  "Display/Debug of a matrix is a newline, `MatrixMxN(` line, one line per row indented by two spaces with every element followed by `, `, and `)` line.",
  "every M,N",
  "all sizes",
  "src/matrix/format.rs")
p("Broadcast and float functions are element-wise",
  "Every function of vector/math.rs and matrix/math.rs applies the scalar function to each element; scalar, vector (per-row) and matrix arguments are broadcast along missing axes; clamp(a,b) is min(max(s,a),b): for floats with f64's min and max it lies in [a,b] whenever a<=b, is s itself if s does, the nearer bound otherwise, the lower bound if s is NaN, and the upper bound if b<a.",
  "every N, M, scalar functions and arguments",
  "all sizes, all broadcast forms",
  "src/vector/math.rs", "src/matrix/math.rs", "src/traits.rs: Broadcast")

# ---- complex ---------------------------------------------------------------
p("Complex numbers form a commutative ring",
  "Complex +,-,*,neg,zero,one satisfy the commutative ring laws, i*i=-1, and (a+bi)*(c+di) = (ac-bd)+(ad+bc)i.",
  "all complex numbers over any commutative ring",
  "algebraic laws",
  CX+"complex_.rs")
p("Complex inverse and division",
  "If norm_sqr(z) is invertible (over the reals: z non-zero) then z*z.inv()=1 and (w/z)*z=w; scalar/complex equals the complex quotient of the embedded scalar.",
  "all complex numbers over any field in which x^2+y^2=0 only for x=y=0, in particular the reals",
  "algebraic law",
  CX+"complex_.rs: inv, Div")
p("Complex conjugation and norm",
  "conj is an involutive ring automorphism; z*conj(z)=norm_sqr(z); norm_sqr (and over the reals norm) is multiplicative; normalize gives norm 1 for z != 0.",
  "all complex numbers",
  "algebraic law",
  CX+"complex_.rs: conj, norm_sqr, norm, normalize")
p("Complex to matrix is a ring homomorphism",
  "into_matrix maps complex product to matrix product, sum to sum, one to identity, and det(into_matrix(z))=norm_sqr(z); into_matrix(z).dot(w as vector) is z*w.",
  "all complex numbers over a commutative ring",
  "algebraic law",
  CX+"complex_.rs: into_matrix")
p("Mixed scalar/complex/quaternion arithmetic is consistent with the embeddings",
  "Adding, subtracting, multiplying or dividing a complex or quaternion by a scalar (either side), and a quaternion by a complex (either side), equals the homogeneous operation after embedding the smaller operand.",
  "all operands over any commutative ring (field for division)",
  "separate hand-written formulas for each of the 20+ overloads",
  CX+"complex_.rs", CX+"quaternion.rs")
p("Polar form of complex numbers",
  "Over the reals from_polar(to_polar(z)) = z, from_polar(r,t) has norm |r|, and from_polar(r,a)*from_polar(s,b) = from_polar(r*s,a+b).",
  "all real r,t and complex z",
  "trigonometric law over all reals",
  CX+"complex_.rs: to_polar, from_polar, arg")
p("Quaternions form a ring with Hamilton's relations",
  "Quaternion +,* are associative and distributive with zero and one; i^2=j^2=k^2=ijk=-1; multiplication is not commutative; real quaternions are central.",
  "all quaternions over any commutative ring",
  "16-term product formula; algebraic law over all values",
  CX+"quaternion.rs: Mul, One, i, j, k")
p("Quaternion conjugation and norm",
  "conj is an involutive anti-automorphism; q*conj(q)=conj(q)*q=norm_sqr(q); norm_sqr is multiplicative (Euler's four-square identity); over the reals norm is too, and normalize gives norm 1 for q != 0.",
  "all quaternions",
  "algebraic law",
  CX+"quaternion.rs: conj, norm_sqr, norm, normalize")
p("Quaternion inverse and division",
  "If norm_sqr(q) is invertible then q*q.inv() = q.inv()*q = 1, (p/q)*q = p and (p*q).inv() = q.inv()*p.inv().",
  "all quaternions over a field / the reals",
  "algebraic law",
  CX+"quaternion.rs: inv, Div")
p("Quaternion to matrix is a ring homomorphism",
  "into_matrix(p).dot(q as vector) is p*q as vector, into_matrix(p*q)=into_matrix(p).dot(into_matrix(q)), and the conjugate maps to the transpose.",
  "all quaternions over a commutative ring",
  "algebraic law",
  CX+"quaternion.rs: into_matrix")
p("Unimplemented quaternion operations panic",
  "Quaternion % and Quaternion::from_str_radix panic on every input (although Quaternion implements Num).",
  "all inputs",
  "universal",
  CX+"quaternion.rs: Rem, Num")

# ---- moebius ----------------------------------------------------------------
p("Moebius transformations compose on complex numbers",
  "A.chain(B).apply(x) = A.apply(B.apply(x)) and identity().apply(x)=x, wherever the denominators are non-zero; apply is (a x + b)/(c x + d).",
  "all Moebius matrices over complex numbers with real components, all points off the poles",
  "rational identity over all values",
  CX+"moebius.rs: chain, apply, identity")
p("Moebius transformations with complex coefficients compose on quaternions",
  "The same composition and identity laws hold when complex-coefficient transformations act on quaternions (non-commutative).",
  "all complex Moebius matrices, all quaternion points off the poles",
  "non-commutative rational identity",
  CX+"moebius.rs: apply", TR+"moebius.rs")
p("Moebius inverse",
  "If det != 0, M.inv().apply(M.apply(x)) = x = M.apply(M.inv().apply(x)) off the poles, for complex and for quaternion points, and M.chain(M.inv()) = identity.",
  "all invertible complex Moebius matrices and points",
  "rational identity",
  CX+"moebius.rs: inv, det")
p("Moebius normalize",
  "normalize does not change the transformation (of points of the coefficient type; on quaternion points it does in general); one would expect the normalized determinant to be 1, but it is 1/det.",
  "all invertible Moebius matrices",
  "universal; expected normal form is refuted by a witness",
  CX+"moebius.rs: Normalize")
p("Moebius complex derivative",
  "deriv(p) is the complex derivative of apply at p: the difference quotient converges to it as the step tends to zero (for c p + d != 0), and equals det/(cp+d)^2.",
  "all complex Moebius matrices, points off the pole",
  "a limit over all directions of approach",
  CX+"moebius.rs: deriv", TR+"moebius.rs")
p("Moebius directional derivative on quaternions",
  "deriv_dir(p,v) is the derivative at t=0 of t -> apply(p+t v), component by component, for quaternion p, v with c p + d != 0.",
  "all complex Moebius matrices, quaternion points and directions",
  "a limit; tests use finite differences at random points",
  CX+"moebius.rs: deriv_dir")
p("Moebius over quaternion coefficients is not invertible by inv",
  "One would expect M.chain(M.inv()) = identity for invertible 2x2 quaternion matrices, since Moebius<Quaternion> offers inv; it fails because adj/det assumes commutativity.",
  "2x2 matrices over quaternions",
  "needs a non-commuting witness",
  CX+"moebius.rs: inv", "src/matrix/square.rs: inv")

# ---- transforms -------------------------------------------------------------
p("Shift is a group action",
  "identity().apply(x)=x, a.chain(b).apply(x)=a.apply(b.apply(x)), a.inv().apply(a.apply(x))=x and vice versa; deriv(x,d)=d.",
  "every N, shifts and points over any commutative ring",
  "algebraic law, all N",
  TR+"shift.rs")
p("Scale is a group action",
  "As for Shift, with inverses for non-zero magnitude over a field; deriv(x,d)=apply(d).",
  "every N, scales and points",
  "algebraic law, all N",
  TR+"scale.rs")
p("Linear is a group action",
  "identity, chain and apply laws over any commutative ring; inverse laws over a field when det != 0; apply is linear; deriv(x,d)=apply(d).",
  "every N, matrices and points",
  "algebraic law, all N",
  TR+"linear.rs")
p("Rotation2 is a group of isometries",
  "chain composes, identity is neutral; for unit complex numbers inv is inverse, apply preserves dot products and orientation; unit-ness is preserved by chain and inv; to_linear has the same action and turns chain into chain. For non-unit numbers inv is not the inverse.",
  "all unit complex numbers, all points over a commutative ring",
  "algebraic law",
  TR+"rotation.rs: Rotation2")
p("Rotation3 is a group of isometries",
  "chain composes, identity is neutral; for unit quaternions inv is inverse, apply preserves dot and cross products; q and -q act equally; unit-ness is preserved by chain and inv.",
  "all unit quaternions, all points over a commutative ring",
  "algebraic law",
  TR+"rotation.rs: Rotation3")
p("Rotation3::to_linear",
  "For unit quaternions to_linear().apply(x) = apply(x), to_linear turns chain into chain, and the matrix is orthogonal with determinant 1; for non-unit quaternions the two actions differ.",
  "all unit quaternions",
  "algebraic law",
  TR+"rotation.rs: Rotation3::to_linear")
p("Rotation angle and axis",
  "Rotation2::new(a) is a unit complex number that rotates by a, new(a).chain(new(b))=new(a+b), and angle() recovers a in (-pi,pi]; Rotation3::new(axis,a) with unit axis is a unit quaternion that acts by Rodrigues' formula, fixes the axis, and axis()/angle() recover axis and a for a in (0,2pi).",
  "all real angles and unit axes",
  "trigonometric law over all reals",
  TR+"rotation.rs: new, axis, angle")
p("Linear::look_at",
  "For a unit dir not parallel to up, look_at(dir,up) is orthogonal with determinant 1, maps -z to dir, and maps y to the component of up orthogonal to dir, normalised (to up itself if up is a unit vector orthogonal to dir).",
  "all real unit dir and up not parallel",
  "geometric law over all vectors",
  TR+"linear.rs: look_at")
p("Linear::look_at_any",
  "For every unit dir look_at_any(dir) is a rotation matrix mapping -z to dir (the documentation says the converse, which is false).",
  "all real unit vectors",
  "must have no bad direction on the whole sphere",
  TR+"linear.rs: look_at_any")
p("Rotation3::look_at_any",
  "For every unit dir the recursion terminates and look_at_any(dir) is a unit quaternion whose rotation maps -z to dir.",
  "all real unit vectors",
  "must hold on the whole sphere including the branch boundary z=0 and both poles",
  TR+"rotation.rs: look_at_any, look_at_any_cont")
p("Reordering shifts with linear parts",
  "For every implemented pair (Shift with Scale, Linear, Rotation2, Rotation3, both orders), reorder(A,B) = (B',A') satisfies A(B(x)) = B'(A'(x)) for all x (shift-first requires the other to be invertible).",
  "all transformations and points",
  "algebraic law",
  TR+"chain.rs: Reorder", TR+"linear.rs", TR+"scale.rs", TR+"rotation.rs")
p("Chain and Affine are group actions",
  "For any two transformation kinds satisfying the Transform and Reorder laws, Chain satisfies them too: identity neutral, chain composes, inv is inverse; in particular Affine, rigid motions and similarity transforms. Affine chain is associative.",
  "all lawful component kinds; all affine transformations with invertible linear part for inv",
  "generic in the component types",
  TR+"chain.rs", TR+"affine.rs")
p("Chain rule for derivatives",
  "deriv of a Chain is the derivative of the outer at the inner image applied to the derivative of the inner; for Shift, Scale, Linear, Rotation and Affine deriv is the exact difference apply(x+d)-apply(x).",
  "all transformations, points and directions",
  "algebraic law",
  TR+"chain.rs: deriv", TR+"linear.rs: deriv", TR+"shift.rs: deriv", TR+"scale.rs: deriv", TR+"rotation.rs: deriv")
p("Normals stay orthogonal to transformed tangents",
  "For invertible A: normal_transform(A).apply(n).dot(A.apply(v)) = n.dot(v); hence apply_normal maps normals of a surface to unit normals of the image, also through Affine; for rotations apply_normal agrees with apply_dir.",
  "every N, invertible matrices, vectors",
  "algebraic law at all N",
  TR+"linear.rs: normal_transform, apply_normal", TR+"chain.rs: apply_normal", TR+"rotation.rs")
p("Direction transformation",
  "apply_dir is the normalised derivative for Linear and Moebius, the derivative for rotations; for Scale it is only so for positive magnitude and unit directions - for negative magnitude apply_dir returns the unreversed direction.",
  "all transformations, points, directions",
  "the exceptional case is a sign",
  TR+"mod.rs: Directional", TR+"scale.rs: apply_dir", TR+"linear.rs: apply_dir", TR+"rotation.rs: apply_dir")

# ---- numeric back ends ----------------------------------------------------
p("Integer arithmetic with overflow checks is never silently wrong",
  "With checked machine integers (debug builds), if an operation (element-wise arithmetic, dot, products, determinant, complex and quaternion arithmetic) returns normally, its result equals the exact integer result.",
  "every width, every N, all inputs",
  "overflow depends on values; universal over widths",
  "src/vector/dot.rs", "src/matrix/product.rs", "src/matrix/square.rs", CX+"complex_.rs", CX+"quaternion.rs")
p("Wrapping integer arithmetic is exact modulo 2^w",
  "With wrapping machine integers (release builds), the ring operations (sums, products, dot, matrix product, determinant, adjugate, complex and quaternion product) return the exact result reduced to the word, never panicking.",
  "every width, every N, all inputs",
  "universal over widths and values",
  "src/vector/dot.rs", "src/matrix/product.rs", "src/matrix/square.rs", CX+"complex_.rs", CX+"quaternion.rs")
p("Operations commute with ring homomorphisms",
  "Dot, matrix product, determinant, adjugate, complex and quaternion arithmetic commute with any homomorphism of scalars applied element-wise.",
  "all rings and homomorphisms",
  "quantifies over rings",
  "src/vector/dot.rs", "src/matrix/product.rs", "src/matrix/square.rs", CX+"quaternion.rs")
p("What survives in IEEE-754 arithmetic",
  "For f64/f32 (IEEE semantics incl. NaN, infinities and signed zeros): vector addition and component-wise product commute bit for bit, dot is symmetric, complex multiplication is commutative, negation and conjugation are involutive, transpose reverses products and v.dot(A)=A^T.dot(v) exactly.",
  "all floating point values, all N",
  "2^64 values per component",
  VO+"base.rs", "src/vector/dot.rs", CX+"complex_.rs", "src/matrix/product.rs")
p("Rounding error of the floating point dot product",
  "If the computed dot product is finite it differs from the exact one by at most ((1+u)^N-1) * sum |a_i b_i| plus N(1+u)^(N-1) half ulps of the smallest float (no such term without underflow), hence by gamma_N * sum |a_i b_i|; likewise sums, every element of matrix products, complex products; length and normalize have a small relative error.",
  "every N, all real inputs, round to nearest with any precision",
  "a bound over all inputs",
  "src/vector/dot.rs", "src/matrix/product.rs")

# ---- distributions / approx -----------------------------------------------
p("Component-wise random sampling",
  "VectorDistribution/MatrixDistribution/Normal draw exactly N (M*N) inner samples in index (row-major) order, so equal generator states give equal results and generator states.",
  "every N, M, generator and inner distribution",
  "all generators",
  "src/vector/distr.rs", "src/matrix/distr.rs", CX+"distr.rs")
p("Rejection samplers honour their promise",
  "Whenever NonZero returns, the length exceeds epsilon and it is the first such draw; Unit returns a vector of length 1 (exact arithmetic); Invertible returns the first matrix whose determinant is not within epsilon of 0, hence invertible; Uniform rotations are unit.",
  "every generator stream and every number of rejections",
  "unbounded rejection loop",
  "src/vector/distr.rs: NonZero, Unit", "src/matrix/distr.rs: Invertible", TR+"rotation.rs: Uniform")
p("Approximate comparison",
  "abs_diff_eq on vectors, matrices, complex numbers, quaternions, Moebius and the transformation types holds iff it holds for every component; so it is reflexive for eps>=0, symmetric, monotone in eps, and eps-chains add up, over the reals.",
  "every N, M, values, eps",
  "universal",
  "src/vector/approx.rs", "src/matrix/approx.rs", CX+"approx.rs", TR+"shift.rs", TR+"scale.rs", TR+"linear.rs", TR+"rotation.rs")
p("Floating point is exact on small integers",
  "For floats of precision p whose values are integers, vector sum, dot product, matrix products, complex and quaternion products and the cross product return exactly the integer result as long as the sum of the absolute values of the terms is at most 2^p.",
  "every precision and exponent range, every N, all integer-valued inputs within the bound",
  "all inputs and all partial sums",
  "src/vector/dot.rs", "src/vector/base/iter.rs: sum", "src/matrix/product.rs", CX+"complex_.rs: Mul", CX+"quaternion.rs: Mul")
p("Norms of machine integers and of vectors and matrices of them",
  "In debug builds, for vectors of u8..i64: norm_l1, square_length and norm_l_inf return the exact sum of absolute values / sum of squares / largest absolute value whenever that fits the type and panic otherwise (in particular norm_l_inf panics iff N = 0 or some element is the least value of a signed type). In release builds norm_l1 is the exact sum reduced modulo 2^w, and norm_l_inf is exact unless some element is the least value, when it is always too small. The norms of a matrix are those of the vector of its elements.",
  "every width and signedness, every N and M, all values",
  "universal over values and sizes; the failing inputs are single points of a large space",
  "src/traits.rs: derive_primitive_unsigned, derive_primitive_signed", "src/vector/ops/base.rs: norm_l1, norm_l_inf", "src/matrix/ops/base.rs: norm_l1, norm_l_inf")
p("Comparison, max, min and norms of floats in terms of real numbers",
  "For finite floats < <= == compare the numbers denoted; max and min return an element denoting the largest/smallest number; norm_l_inf is exactly the largest absolute value; norm_l1 is the sum of absolute values with relative error at most (1+u)^(N-1)-1; is_epsilon holds iff the float is finite with absolute value at most 2^(1-prec), and is false for infinities and NaN.",
  "every precision and exponent range, every N, all finite floats",
  "all floats",
  "src/traits.rs: derive_primitive_float", "src/vector/base/iter.rs: max, min", "src/vector/ops/base.rs: norm_l1, norm_l_inf")

p("Parts of Moebius transformations, chains and wrappers",
  "A Moebius transformation built from a, b, c, d (by new, from a tuple, or from a 2x2 array) gives back exactly those four through a(), b(), c(), d(), the *_ref accessors, into_tuple and into_array; writing one coefficient through *_mut changes that one only, and writes to different coefficients commute; a Chain built from (outer, inner) gives both back, replacing one keeps the other, and application uses inner first; Shift, Scale, Linear and the rotations return what they were built from.",
  "all values of every type",
  "universal over values and operations",
  CX+"moebius.rs: a, b, c, d, a_ref, a_mut, From impls", TR+"chain.rs: inner, outer, From impls", TR+"shift.rs", TR+"scale.rs", TR+"linear.rs", TR+"rotation.rs: from_complex, from_quaternion")
p("Complex functions delegated to num_complex see and return the right parts",
  "exp, ln, sqrt, cbrt, powf, log, powc, expf, powu, powi, the (inverse) trigonometric and hyperbolic functions, finv, fdiv, % and from_str_radix return exactly what the function of the same name in num_complex returns for the number with the same real and imaginary parts and the same further arguments in the same order (and fail exactly when it does); conversion to and from num_complex is the identity on both sides.",
  "every element type, every behaviour of num_complex, all arguments",
  "all inputs of 25 functions, any behaviour of the dependency",
  CX+"complex_.rs: from_num, into_num, powu, powi, exp, ln, sqrt, ...")
p("Laws of the complex elementary functions",
  "Over the reals, if num_complex computes the textbook functions: exp turns sums into products and exp(ln z) = z, ln(exp z) = z on the principal strip; sqrt squared and cbrt cubed give z back; powu is repeated multiplication, powi/powf/powc obey the exponent laws and agree where they overlap; expf and log are inverse; sin, cos, sinh, cosh have their real/imaginary closed forms, Pythagorean and addition laws and Euler's formula; tan and tanh are quotients; asin, acos, atan, asinh, acosh, atanh are right inverses; finv and fdiv agree with inv and /; % leaves a remainder smaller than sqrt 2 times the divisor; Rotation2 by t equals exp(i t).",
  "all complex numbers in the domain of each function, all exponents",
  "identities over the complex plane",
  CX+"complex_.rs: powu, powi, exp, ln, ...", TR+"rotation.rs: Rotation2::new")

p("Components, equality and text of complex numbers and quaternions",
  "A complex number or quaternion built from its components (by new, tuple, array, vector, or scalar and 3-vector) gives back exactly those through every accessor and conversion; writing one component through *_mut changes that one only; == holds iff all components are equal and is_zero iff all components are zero; norm_l1 adds the components' norms; Display and Debug print Complex(re, im) and Quaternion(w, x, y, z).",
  "every element type and all component values",
  "universal over values; each accessor must pick the right component",
  CX+"complex_.rs: new, re, im, From impls, Zero::is_zero, derive(PartialEq), NormL1", CX+"quaternion.rs: new, w, x, y, z, xyz, From impls", CX+"format.rs")

p("Complex Moebius transformations are isometries of hyperbolic space",
  "Acting on quaternions, with D the determinant and u = c q + d: |m(p) - m(q)|^2 |c p + d|^2 |c q + d|^2 = |D|^2 |p - q|^2, and the pair of j and k components, read as a complex number, is multiplied by D / |u|^2; if D is not zero no quaternion outside the complex plane is a pole; if D is a positive real the upper half space (k = 0, j > 0) is mapped to itself and hyperbolic distance is preserved.",
  "all 2x2 complex matrices and quaternions over a formally real field; real upper half space for the metric statement",
  "geometric law over all points",
  CX+"moebius.rs: apply, det")
p("Moebius transformations preserve cross-ratios and are determined by three points",
  "(m(x) - m(y)) (c x + d) (c y + d) = det(m) (x - y); the cross-ratio of four points equals that of their images; with non-zero determinant distinct points have distinct images; two transformations that agree at three distinct points agree at every point where both are defined.",
  "every field, all matrices and points off the poles; complex numbers as an instance",
  "algebraic law over all points",
  CX+"moebius.rs: apply, det")

p("Printing to a writer that fails",
  "Display and Debug of vectors, matrices, complex numbers and quaternions write their pieces in order, return an error iff some write returned one, and write nothing after it; if each write appends (a beginning of) its piece, then what ends up written is a beginning of the full text, and all of it if Ok is returned; if no write fails the result is Ok; a vector of no elements panics once its header is written.",
  "every writer (any state, failing or panicking at any write), element type, shape and values",
  "the failure can strike at any write of any length of output",
  "src/vector/base/format.rs", "src/matrix/format.rs", "src/complex/format.rs")

p("No element is dropped twice when user code panics",
  "If a closure or scalar operation panics during map, fold, for_each, fold_first, scan or a component-wise operator of vectors and matrices, the operand elements not yet passed to it are dropped, each exactly once, and those already passed are not touched again; map and the operators drop the results so far exactly once, scan and init leak them; a compound assignment drops the rest of its right operand and keeps the left one; zip drops nothing; dropping the owning iterator of a matrix drops exactly what it has not yielded; if a destructor panics while try_from_iter discards the elements taken, no element is dropped twice. Without a panic none of these drop anything.",
  "every element type, closure with state, operation, length and shape, and every point at which the failure strikes",
  "needs ownership accounting at every possible failure point",
  "src/vector/base/iter.rs", "src/vector/base/init.rs", "src/matrix/base/iter.rs", "src/matrix/base/init.rs", "src/vector/ops/base.rs", "src/matrix/ops/base.rs")

p("Raw pointers and unsafe casts see the elements in row-major order",
  "With any layout of the element type, the k-th element after as_ptr() of a vector is element k and the (i*N+j)-th after as_ptr() of a matrix is element (i, j); writing there through as_mut_ptr() changes exactly that element; beyond the last one it is undefined behaviour. The cast in as_array_of_arrays reads the matrix. The casts between a MaybeUninit of a vector or matrix and a vector or matrix of MaybeUninit are inverse to each other and keep every byte, so that uninit() is all empty cells, assume_init() gives the stored values if every cell was written and is undefined behaviour if one was not, and transpose starts from the elements of its operand.",
  "every element type and layout (any size, including 0), all N, M, values and positions",
  "undefined behaviour and memory layout are not observable by tests; universal over sizes",
  "src/vector/base/init.rs: as_ptr, as_mut_ptr, from_uninit, into_uninit, uninit, assume_init", "src/matrix/base/init.rs: as_ptr, as_mut_ptr, from_uninit, into_uninit, uninit, assume_init", "src/matrix/base/convert.rs: as_array_of_arrays", "src/matrix/transpose.rs")

p("Chained floating point rotations drift only as rounding allows",
  "Chaining n rotations of the plane or of space in floating point, on either side, never fails, and if the result is finite it lies within size * rho^n * ((1+c)^n - 1) + t * (1 + ... + ((1+c) rho)^(n-1)) of the exact product, where rho bounds the norms of the rotations, c is 2((1+u)^4 - 1) for quaternions and sqrt 2 * ((1+u)^2 - 1) for complex numbers, u the unit roundoff and t a few times half the smallest float; its norm is within the same distance of the product of the norms. For unit rotations this is at most 2 n (c + t) while n c <= 1/2. Applying a rotation r to a vector p gives r p (plane) or r p r* (space), and keeps the length up to the factor |r| (|r|^2), within the error of one or two products.",
  "every binary format (precision, range), every number of rotations, all valid components",
  "accumulated rounding over unboundedly long chains",
  TR+"rotation.rs: Rotation2, Rotation3: chain, apply", CX+"complex_.rs: Mul", CX+"quaternion.rs: Mul")

p("A floating point computation that needs no rounding is exact",
  "For every arithmetic operation of vectors, matrices, complex numbers, quaternions, rotations and Moebius transformations (sums, products, dot, cross and outer products, det, cofactor, adj, inv, division, norm_sqr, ...): if, carried out on the real numbers the arguments denote, no scalar operation along the way divides by zero or yields a number that is not representable, then the floating point operation succeeds and its result denotes exactly the real result.",
  "every binary format, all shapes and all finite arguments",
  "universal over values; depends on every intermediate result",
  "src/vector", "src/matrix", "src/complex", TR+"rotation.rs")
p("Integer computations that fit the mantissa are exact in floating point",
  "If an operation (other than division) on checked machine integers of at most p+1 bits (signed; p bits unsigned), p the float precision, does not overflow, then the same operation on the floats denoting the same integers gives exactly the floats denoting the integer result; so i32 and u32 results carry over to f64, i16 and u16 (up to 24 bits) to f32, including determinants, adjugates and quaternion products.",
  "every word size, signedness, binary format, shape and all arguments",
  "universal over values; depends on every intermediate result",
  "src/vector", "src/matrix", "src/complex")

p("Running error bounds hold for every floating point operation of the library",
  "Attach to each argument an exact number and a bound on the distance of the float from it, and carry both through the operation with the textbook rules of running error analysis (sum of errors; |x| dy + dx |y| + dx dy for a product; (dx + |x/y| dy) / (|y| - dy) for a quotient; plus roundoff times the size, plus half the smallest float where underflow may happen). If no bound reaches 2^emax and no divisor's bound includes zero, the floating point operation does not overflow and its result lies within the final bound of the exact real result. This holds for all vector, matrix, complex, quaternion, rotation and Moebius operations, including det, adj and inv.",
  "every binary format, all shapes, arguments and initial errors",
  "universal over values; accumulated rounding of long computations",
  "src/vector", "src/matrix", "src/complex", TR+"rotation.rs")

p("Normal draws from the standard normal distribution",
  "If the two numbers the sampler asks of the generator are independent and uniform on [0, 1) and [0, pi), the sample of Normal for a float type, computed without rounding, is at most t with probability equal to the integral of exp(-s^2/2)/sqrt(2 pi) from minus infinity to t, for every t; no pair of draws fails.",
  "every t; all pairs of draws",
  "a statement about a continuous distribution; statistical tests only approximate it",
  "src/distr.rs: Normal")
p("Uniform on plane rotations is invariant under every rotation",
  "If the angle the sampler asks of the generator is uniform on [0, 2 pi), the average of every quantity that depends continuously on the sampled Rotation2 is not changed by following or preceding the samples with any fixed rotation; in particular the image of every point averages to the origin.",
  "every continuous quantity, every fixed rotation, every point; exact arithmetic",
  "a statement about a continuous distribution",
  TR+"rotation.rs: Distribution<Rotation2> for Uniform")
p("Uniform on space rotations averages to the projection on the axis and is not invariant",
  "For every axis drawn, averaging over the uniform angle, the image of a point under the sampled Rotation3 is its projection on the axis, and the trace of the rotation matrix averages to 1. The samples are not evenly spread over all rotations: after a fixed half turn about each of the three coordinate axes the averages of the trace add up to -1, where an even spread would give 3.",
  "every axis, point; exact arithmetic",
  "a statement about a continuous distribution",
  TR+"rotation.rs: Distribution<Rotation3> for Uniform")
p("Unit and NonZero treat all directions alike",
  "If one source of scalars draws, vector by vector, the image under a length-preserving linear map of what another source draws, then NonZero and Unit sampled from it return the image of what they return from the other, after as many draws; and the density of a vector of independent standard normal components is not changed by a length-preserving map.",
  "every dimension N > 0, length-preserving matrix, source, generator state; exact arithmetic",
  "universal over sources, maps and unbounded rejection loops",
  "src/vector/distr.rs: NonZero, Unit, Normal", "src/complex/distr.rs")

p("Derived Clone, == and Default act on every scalar once, in order",
  "Cloning a vector, matrix, complex number, quaternion, transformation wrapper or chain clones each scalar exactly once in order and keeps the shape; if a clone panics, that panic is the outcome and the clones made before it are each dropped once. == compares the scalars in order (row-major; outer part of a chain before the inner) and stops at the first difference or panic. Default of complex numbers and quaternions draws the scalar's default for each component in order.",
  "every scalar type and clone/eq/default function with state that may panic, all shapes and values",
  "universal over user-supplied functions, sizes and failure points",
  "src/vector/base/mod.rs: Vector (derive)", "src/matrix/base/mod.rs: Matrix (derive)", CX+"complex_.rs: Complex (derive)", CX+"quaternion.rs: Quaternion (derive)", TR+"chain.rs: Chain (derive)", TR+"shift.rs: Shift (derive)", TR+"linear.rs: Linear (derive)")
p("Debug of the transformations prints the wrapped value and stops at the first failed write",
  "Debug-formatting a Shift, Linear, Scale, Rotation2, Rotation3 or Moebius writes the type's name and its field with the text of the wrapped value, a Chain its outer part, inner part and marker in this order; whatever the writer, what has been written is a beginning of that text, and all of it if success is returned; it succeeds if every write does.",
  "every writer, including writers that fail or panic at any write, and every wrapped value",
  "universal over failure points",
  TR+"shift.rs: Shift (derive)", TR+"linear.rs: Linear (derive)", TR+"scale.rs: Scale (derive)", TR+"rotation.rs: Rotation2, Rotation3 (derive)", TR+"chain.rs: Chain (derive)", CX+"moebius.rs: Moebius (derive)")

p("Floating point determinants, cofactors and inverses are within an explicit distance of the exact ones",
  "In IEEE arithmetic of any precision and exponent range, if the determinant of an N by N matrix of well formed floats comes out finite, it differs from the exact determinant of the elements' values by at most (1+u)^k - 1 times the permanent of their absolute values, k = N(N+1)/2 - 1, plus an explicit multiple of half the smallest float for products that underflow; so a computed determinant larger than this bound proves the matrix non-singular and has the right sign. The same holds of cofactors and of the elements of the adjugate (with N - 1), and the elements of the computed inverse are within an explicit distance of the exact inverse whenever the determinant is certified non-zero. The permanent is at most N! times the N-th power of the largest element.",
  "every N, every matrix of well formed floats, every precision and exponent range",
  "universal over matrices of every size and over rounding",
  "src/matrix/square.rs: det, cofactor, adj, inv", "src/matrix/square.rs: Inv")

p("Overflow of the product of the dimensions cannot corrupt a conversion",
  "With machine words of any width for lengths: for every matrix type whose elements occupy memory, converting a slice and building the matrix of indices never overflow, with or without overflow checks, and behave as with unbounded integers. For elements of size zero the product of the dimensions may overflow: with checks the conversion panics, without checks a slice of the wrapped length panics and every other slice is refused. Whenever a conversion succeeds the matrix holds exactly the slice.",
  "every word width, dimensions, slice, with and without overflow checks",
  "the overflowing cases need more memory or time than a test has, and it must hold for all dimensions",
  "src/matrix/base/convert.rs: TryFrom<&[T]> for Matrix", "src/matrix/base/iter.rs: Matrix::indices")

p("The rigid motions are exactly the chains of a shift and a unit rotation",
  "In exact arithmetic every distance-preserving map of N-space, N > 0, is the action of an Affine with an orthogonal matrix, of exactly one, and every such Affine preserves distances. A 3 by 3 (2 by 2) matrix with orthonormal columns and determinant one is the matrix of a unit Rotation3 (Rotation2). The maps of the space (plane) that preserve distances and orientation are exactly the chains of a Shift and a unit Rotation3 (Rotation2); the shift is unique, and so is the rotation, up to its sign for Rotation3. The remaining isometries are such chains after Scale(-1) (after a mirror image).",
  "every map of N-space onto itself (not only those a program can write down), every matrix, shift and rotation; exact arithmetic",
  "quantifies over all functions on real vectors and asserts existence and uniqueness",
  TR+"rotation.rs: Rotation2, Rotation3, to_linear, apply", TR+"chain.rs: Chain::apply", TR+"affine.rs: Affine", TR+"shift.rs: Shift", TR+"scale.rs: Scale")

p("Zero is neutral for +, one is neutral for * of numbers but only for dot of matrices",
  "In exact arithmetic zero() is neutral for + of vectors, matrices, complex numbers and quaternions on both sides, and one() is neutral for * of complex numbers and quaternions. For square matrices * is element-wise: multiplying by one() on either side keeps the diagonal and clears the rest, so one() * m == m holds for diagonal matrices only, fails for some matrix of every size from 2 up, and generic code that multiplies any list of matrices starting from one() obtains a diagonal matrix; one() is neutral for dot. is_one accepts one() and nothing else when == decides equality of scalars; set_zero and set_one leave zero() and one(), which the tests then accept.",
  "all sizes, values, lists of factors and exact scalar types; comparisons of every scalar type",
  "universal over values, sizes and lists; the failure of the contract is universal over sizes",
  "src/vector/ops/base.rs: Zero for Vector", "src/matrix/ops/base.rs: Zero for Matrix, Mul", "src/matrix/square.rs: One for Matrix", CX+"complex_.rs: Zero, One", CX+"quaternion.rs: Zero, One", "src/matrix/ops/iter.rs: Product")

p("A NaN cannot get lost",
  "If every scalar operation that returns hands a bad operand on to its result, then so does every composite: the sum and 1-norm of a vector or matrix, dot and cross products, lengths, matrix products (element (i, j) from row i and column j), outer products, the determinant (every element), cofactors (every element outside row i and column j), the inverse (one bad element makes every element bad), normalization, sums, products, inverses and quotients of complex numbers and quaternions, rotations, affine maps and Moebius transformations of scalars and quaternions; matrices of complex numbers and quaternions too. IEEE floats hand on NaN by + - * / and negation, and infinities and NaN together by all of them but /; so a finite determinant proves every element finite, while an inverse can forget an infinity. The NonZero sampler never returns a NaN; Invertible returns the first matrix that contains one, whose inverse is all NaN; the maximum norm can forget one.",
  "every scalar type with absorbing values, every IEEE format, all sizes and inputs",
  "universal over positions, sizes, values and formats",
  "src/vector/ops/base.rs: Add, Sub, Mul, sum, norm_l1, norm_l_inf", "src/vector/dot.rs", "src/matrix/product.rs", "src/matrix/square.rs: det, cofactor, inv", CX+"complex_.rs: Mul, Div, inv", CX+"quaternion.rs: Mul, Div, inv", CX+"moebius.rs: apply", TR+"rotation.rs: apply", TR+"affine.rs", "src/matrix/distr.rs: Invertible", "src/vector/distr.rs: NonZero")

p("Every operation evaluates one fixed expression",
  "Whatever the laws of the scalar type, sum adds from the left without starting from zero, dot adds the products in index order, matrix products add a_ik*b_kj in order of k, det expands along the first row from zero with the sign on the minor, inv divides each transposed cofactor by det, normalize divides by sqrt of the sum of squares, complex and quaternion products, rotations, affine and Moebius maps evaluate one fixed formula; so floating point results are bit-for-bit the same wherever the scalar operations are. det uses 1, 4, 15, 64, ... >= N! multiplications.",
  "every total scalar type (f32, f64, wrapping integers), every N, M, all values",
  "algebraically equal rearrangements pass every test with a tolerance",
  "src/vector/ops/base.rs: sum", "src/vector/dot.rs", "src/matrix/product.rs", "src/matrix/square.rs: det, cofactor, inv", CX+"complex_.rs: Mul, Div", CX+"quaternion.rs: Mul, Div", CX+"moebius.rs: apply", TR+"affine.rs", TR+"rotation.rs: apply")

p("Rejection samplers end with probability one and return the law conditioned on acceptance",
  "Let the generator deliver independent, equally likely words and the scalar distribution read k of them per sample. The components of a sampled vector or matrix then come from separate words. NonZero is still drawing after n rounds with probability (1-p)^n, p being the probability that one drawn vector is longer than epsilon, so it needs 1/p rounds on average; if p > 0 the probability that it has returned a vector with a property P tends to the conditional probability of P given a length above epsilon. Unit returns the normalized vector of that law; Invertible likewise with |det| > epsilon, for real and complex entries; complex numbers and quaternions have the law of their vectors; Uniform for Rotation3 takes axis and angle independently.",
  "every finite alphabet of words, every scalar distribution that reads a fixed number of them, every scalar type whose operations return (floats included), all sizes, all predicates on results, all numbers of rounds",
  "a statement about the distribution of outcomes over all tapes of the generator, in the limit of many rounds",
  "src/vector/distr.rs: NonZero, Unit", "src/matrix/distr.rs: Invertible", CX+"distr.rs", TR+"rotation.rs: Distribution<Rotation3>", "src/distr.rs: Normal")

p("A safe call never has undefined behaviour, and closed sets of scalars are preserved",
  "No public safe function has undefined behaviour, whatever its arguments, provided the scalar operations, callbacks, iterators, random sources and writers it is given have none; it may panic, or not return. A result has the declared dimensions, and if the scalar operations keep to a set of scalars (the i32 values, the floats of a format, ...) so do all numbers in all results, also the contents left behind by a compound assignment that panics halfway. The unsafe accessors get_unchecked and get_unchecked_mut have no undefined behaviour for indices in range. Machine integers of every width, in debug and release builds, and IEEE floats of every format meet the conditions.",
  "all functions of the crate; all sizes, arguments, callbacks, iterators, generators, scalar types and sets of scalars closed under their operations",
  "absence of undefined behaviour for every input and every callback, and an invariant over every set of values, are not observable in any number of runs",
  "src/vector/base", "src/vector/ops", "src/vector/dot.rs", "src/matrix", CX+"complex_.rs", CX+"quaternion.rs", CX+"moebius.rs", TR+"chain.rs", TR+"rotation.rs", TR+"linear.rs", "src/vector/distr.rs", "src/matrix/distr.rs", "src/vector/base/format.rs", "src/matrix/format.rs")

p("det decides, and inv solves, systems of linear equations",
  "Over a field, m.inv() applied to b is a solution of m x = b and the only one whenever det(m) is not zero; its i-th unknown is det(m with column i replaced by b) / det(m). det(m) is zero exactly when some non-zero vector is mapped to zero, and exactly when some non-trivial combination of the rows vanishes; then some right-hand side has no solution and each that has one has several. Not singular, one-to-one, onto, having a left inverse and having a right inverse are the same for square matrices, so a linear or affine transformation is one-to-one iff onto iff the determinant of its matrix is not zero. A matrix with fewer rows than columns maps some non-zero vector to zero and has no left inverse, one with more rows than columns misses some vector and has no right inverse. A matrix preserves all dot products exactly when its transpose is its inverse; then inv is the transpose and det squares to one. det does not change when a multiple of one row is added to another, and is the product of the diagonal for triangular matrices.",
  "every field (for the existence claims: with a decided equality to zero), all dimensions, all matrices and vectors",
  "existence of solutions and of kernel vectors for every matrix of every size",
  "src/matrix/square.rs: det, inv", "src/matrix/product.rs: Dot", TR+"linear.rs: apply, inv", TR+"affine.rs", "src/matrix/transpose.rs: transpose")

p("How large integers may be: range analysis is sound for every operation",
  "Run an operation on ranges of integers with interval arithmetic that fails when a result may not fit the type or a divisor may be zero. If that succeeds then, for all arguments within the ranges, the operation neither panics in debug builds nor wraps around in release builds, and returns the exact result, which is inside the computed range. In particular, for elements up to A and B in size: sums need N*A, dot products, matrix products and matrix-vector products N*A*B (and no less: with more, some dot product overflows), complex products and cross products 2AB, quaternion products 4AB, det N!*B^N, the adjugate (N-1)!*B^(N-1), inv only that det fits and is not zero, products of k+1 square matrices N^k*B^(k+1), below the largest value of the type.",
  "every integer type (signed or not, every width), all ranges, all arguments inside them, all sizes N, M",
  "overflow freedom for every argument in a range; the corner cases grow exponentially with the number of elements",
  "src/vector/ops/base.rs: Add, Sub, Mul, Div, Rem, Neg, sum", "src/vector/dot.rs", "src/vector/spec.rs: cross", "src/matrix/product.rs", "src/matrix/square.rs: det, cofactor, adj, inv", CX+"complex_.rs: Mul, Div", CX+"quaternion.rs: Mul, Div", CX+"moebius.rs: apply", TR+"rotation.rs: apply")

p("How large floats may be: range analysis in the same format is sound for every operation",
  "Run an operation on ranges of floats, with interval arithmetic that uses the same rounding to nearest (no rounding outwards) and fails when an end of a range overflows or a divisor may be zero. If that succeeds then, for all finite arguments within the ranges, the operation returns finite numbers inside the computed range: no infinity and no NaN arises on the way. In particular, for elements up to 2^a and 2^b in size and at most 2^prec terms: a sum of N elements is at most N*2^a, dot products, matrix products and matrix-vector products N*2^(a+b), complex products and cross products 2*2^(a+b), quaternion products 4*2^(a+b), det N!*2^(N a), the adjugate (N-1)!*2^((N-1)a), with no extra factor for rounding, and finite as soon as this bound is below 2^emax; the length of a vector is then finite too.",
  "every binary format (f32, f64, ...), all ranges, all arguments inside them, all sizes; the closed forms for all exponents and sizes within the stated limits",
  "absence of overflow for every combination of floats in a range",
  "src/vector/ops/base.rs: Add, Sub, Mul, Div, Neg, sum, length", "src/vector/dot.rs", "src/vector/spec.rs: cross", "src/matrix/product.rs", "src/matrix/square.rs: det, cofactor, adj, inv", CX+"complex_.rs: Mul, Div", CX+"quaternion.rs: Mul, Div", CX+"moebius.rs: apply", TR+"rotation.rs: apply")

p("The printed text determines the value",
  "If distinct scalars print distinctly and no scalar's text contains a comma, a closing parenthesis or a space (decimal numbers do not), then two vectors, matrices, complex numbers or quaternions of any sizes with the same Display or Debug text are equal and of the same size. This holds for nested types too (vectors of complex numbers, matrices of vectors, ...), and the end of the text can be recognised whatever follows it. The derived Debug of a transformation determines the text of what it wraps, and that of a chain both parts. Without the condition on the scalars' texts, different vectors can print alike.",
  "all scalar types and their texts, all sizes, all values, all texts that follow",
  "injectivity over all pairs of values and sizes",
  "src/vector/base/format.rs", "src/matrix/format.rs", CX+"format.rs", TR+"chain.rs: Debug", TR+"shift.rs: Debug", TR+"linear.rs: Debug", TR+"rotation.rs: Debug", TR+"scale.rs: Debug", CX+"moebius.rs: Debug")

p("The determinant is the volume spanned by the rows",
  "For real elements, |det(m)| is at most the product of the lengths of the rows, and of the lengths of the columns; for rows none of which is zero it is equal exactly when they are at right angles to each other. For elements up to b in size it is at most (b sqrt N)^N. For any M vectors in N dimensions the product of the matrix of these rows with its transpose holds their dot products; its determinant is between zero and the product of the squared lengths (for two vectors: the Cauchy-Schwarz inequality), zero exactly when the vectors are linearly dependent, and the product exactly when they are at right angles; for M = N it is det(m)^2. For integers this bounds overflow: a release build returns the exact determinant whenever the product of the lengths of the rows is below 2^(w-1), whatever wraps around on the way, and if no row is zero a debug build does so without panicking.",
  "all dimensions, all real matrices; all integer matrices for signed types of every width",
  "an inequality over all matrices of all sizes; absence of overflow over all matrices below the bound",
  "src/matrix/square.rs: det", "src/matrix/product.rs: Dot", "src/matrix/transpose.rs: transpose", "src/vector/dot.rs: dot, square_length, length")

p("Moebius transformations map circles and lines to circles and lines, and spheres and hyperplanes of the quaternions to such",
  "A Moebius transformation with complex coefficients (a, b; c, d) and non-zero determinant maps every circle or line of the complex plane to a circle or line (pole excepted), and, applied to quaternions, every sphere or hyperplane to a sphere or hyperplane: a point is on the one exactly when its image is on the other. The sphere around p of radius r goes to a sphere of radius r*|det| / | |c p + d|^2 - r^2 |c|^2 |, and to a hyperplane exactly when this denominator vanishes, that is, when the pole is on the sphere; the inside goes to the inside if the pole is outside and to the outside if the pole is inside. Over every field where a sum of four squares vanishes only for zeros, the defining equation of the image holds up to the factor |det|^2 / |c q + d|^2.",
  "all matrices of coefficients, all circles, lines, spheres and hyperplanes, all points off the pole; the equations over every formally real field",
  "an equivalence for every point of every sphere under every transformation",
  CX+"moebius.rs: apply, det", CX+"complex_.rs: Mul, Add, Div", CX+"quaternion.rs: Mul, Add, Div")

p("Changing the units of measurement changes the result as its unit says; by powers of two, floats change exactly",
  "Give every number a unit, let sums need equal units, and let products and quotients multiply and divide units. Whenever an operation is possible in this sense, converting the arguments to other units converts the result by the factor of its unit: over every field, for any conversion compatible with products. For floating point numbers and factors that are powers of two this is exact (no rounding error is added, the same bits of the significand come out) as long as nothing overflows and no product or quotient gets near the subnormal numbers, with or without the conversion. In particular: scaling a vector by 2^e scales the sum by 2^e and square_length by 2^(2e), length by 2^e, and leaves normalize unchanged; scaling both vectors scales dot by the product; scaling row i of a matrix by 2^(a i) and column j by 2^(b j) scales det by the product of all these and divides element (i, j) of the inverse by 2^(a j + b i). And the operations are dimensionally consistent: a dot product, matrix product, determinant, inverse, cross product, product or quotient of complex numbers or quaternions and a rotation are possible in this sense, and have the unit physics gives them, whenever the arguments' units fit.",
  "every field, every system of units and every conversion; every binary format (f32, f64, ...), all powers of two, all sizes and all arguments for which nothing overflows or underflows",
  "bit-exact equality between two runs for every argument and every power of two",
  "src/vector/ops/base.rs: Add, Sub, Mul, Div, Neg, sum, length, normalize", "src/vector/dot.rs", "src/vector/spec.rs: cross", "src/matrix/product.rs", "src/matrix/square.rs: det, cofactor, adj, inv", CX+"complex_.rs: Mul, Div", CX+"quaternion.rs: Mul, Div", CX+"moebius.rs: apply", TR+"rotation.rs: apply")

p("In floating point, changing signs changes only signs",
  "For all floats of every binary format, infinities and NaN included: if the signs of some arguments are changed in a way under which every sum has terms of equal sign change, each result is the same up to its predicted sign (and up to the sign of zeros), with no further rounding. In particular: changing the sign of some coordinates in both vectors keeps their dot product; matrix products follow changes of sign of rows and columns; det changes sign once for each row and column negated, and the elements of the inverse accordingly if det is not zero; conjugating (or negating) the factors conjugates (or negates) the product and quotient of complex numbers, and likewise for changing two of the three imaginary signs of quaternions; Rotation2 and Rotation3 commute with reflections and half turns along the coordinate axes, and a Rotation3 and its negative act alike. The length of -v is the length of v and normalizing -v gives the negative of normalized v, bit for bit.",
  "every binary format, all floats including infinities and NaN, all sizes, all patterns of signs that are consistent with the sums",
  "bit-exact equality between two runs for every argument and every pattern of signs",
  "src/vector/ops/base.rs: Add, Sub, Mul, Div, Neg, sum, length, normalize", "src/vector/dot.rs", "src/vector/spec.rs: cross", "src/matrix/product.rs", "src/matrix/square.rs: det, cofactor, adj, inv", CX+"complex_.rs: Mul, Div, conj", CX+"quaternion.rs: Mul, Div", TR+"rotation.rs: apply")

p("Running an operation on dual numbers differentiates it",
  "The operations are generic, so they can be run on dual numbers, pairs of a value and a derivative (forward mode automatic differentiation). If the components of the arguments are real functions of time that are differentiable at t0, and an operation succeeds on their values at t0, then it succeeds on the pairs of values and derivatives, it succeeds at all times near t0 (at all times, if the operation does not divide), and the components of its result are differentiable functions of time whose values and derivatives at t0 are those that the run on dual numbers returned. In particular: dot, matrix, cross, complex and quaternion products obey the product rule (with the order of the factors kept); the derivative of det(m) is the sum of cofactor(i, j) times the derivative of element (i, j) (Jacobi's formula); that of inv(m) is -inv(m) m' inv(m); that of length(x) is x.x'/length(x); a normalized moving vector moves at a right angle to itself.",
  "all sizes, all differentiable curves of real arguments at which the operation is defined",
  "a statement about limits for all differentiable functions",
  "src/vector/ops/base.rs: Add, Sub, Mul, Div, Neg, sum, length, normalize", "src/vector/dot.rs", "src/vector/spec.rs: cross", "src/matrix/product.rs", "src/matrix/square.rs: det, cofactor, adj, inv", CX+"complex_.rs: Mul, Div", CX+"quaternion.rs: Mul, Div", CX+"moebius.rs: apply", TR+"rotation.rs: apply")

p("Order in floating point: sums, lengths and norms are monotone; a length is never below a component, a normalized component never above one",
  "For floats of every binary format, infinities included: if no component decreases, the sum does not decrease (unless it is NaN); for non-negative vectors and matrices the same holds of dot, matrix and matrix-vector products. If no component decreases in absolute value, then square_length, length, norm_l1, norm_l2 and norm_l_inf, of vectors and of matrices, do not decrease, and they are not NaN. norm_l_inf is at least every component and at most norm_l1. If the square of some component does not underflow, length (norm of complex numbers and quaternions, norm_l2) is at least every component and norm_l_inf, and normalizing finite components gives components within [-1, 1]; with underflow both can fail. A vector with one non-zero component x, whose square neither underflows nor overflows, has length exactly |x| and is normalized to exactly 1 or -1 on that axis.",
  "every binary format, all sizes, all floats that are not NaN",
  "rounding must keep the order for all floats; the bound 1 must hold for all vectors without a single exception by one unit in the last place",
  "src/vector/ops/base.rs: sum, norm_l1, norm_l2, norm_l_inf, length, normalize", "src/vector/dot.rs", "src/matrix/product.rs", "src/matrix/ops/base.rs: norm_l1, norm_l2, norm_l_inf", CX+"complex_.rs: norm, normalize", CX+"quaternion.rs: norm, normalize", "src/traits.rs: NormL1, NormL2, NormLInf")

p("Backward stability: floating point computes exactly the operation on slightly different arguments",
  "For finite results without underflow in a product: a float sum is the exact sum of components each changed by a relative (1+u)^(N-1)-1 at most; a dot product of length N is the exact dot product after changing the components of one factor, either one, by at most (1+u)^N-1; a matrix-vector and a vector-matrix product are exact for one slightly changed matrix; each column (row) of a matrix product is exact for a slightly changed left (right) factor; componentwise sums, differences, products and scalings are exact for arguments changed by at most the unit roundoff u (sums and differences without any condition on underflow); length and square_length are those of the vector scaled by a factor within (1+u)^(N+1)-1 of 1; applying an affine transformation is applying a slightly different affine transformation exactly; a complex product is exact for a first factor changed by at most a relative sqrt 2 ((1+u)^2-1).",
  "every binary format, all sizes, all finite floats",
  "the nearby arguments must exist for all floats; a test sees only the rounded result",
  "src/vector/ops/base.rs: sum, add, sub, mul, length, square_length", "src/vector/dot.rs", "src/matrix/product.rs", "src/transform/affine.rs: apply", "src/transform/linear.rs: apply", CX+"complex_.rs: mul")

p("Products through another dimension, block matrices and rank-one updates",
  "Over every commutative ring, for all sizes: the determinant of a product of an M x N by an N x M matrix is the sum over the choices of M of the N inner indices of det(those columns of the left factor) * det(those rows of the right factor) (Cauchy-Binet), so it is zero when N < M, and the outer product of two vectors of length at least 2 has determinant zero; the determinant of a block triangular matrix is the product of the determinants of its diagonal blocks; det(1 + A B) = det(1 + B A) (Sylvester); det(A + u v^T) = det A + v . adj(A) u. Over every field, if A is invertible and s = 1 + v . A^-1 u is not zero, then inv(A + u v^T) = inv(A) - (inv(A) u) (v inv(A))^T / s (Sherman-Morrison), and det(A + u v^T) = s det A in any case.",
  "all commutative rings (fields), all sizes, all matrices and vectors",
  "identities in M*N unknowns for every M and N",
  "src/matrix/product.rs: outer, dot", "src/matrix/square.rs: det, adj, inv, one", "src/vector/dot.rs")

p("Affine transformations are exactly the maps that keep combinations of points; N + 1 points determine one",
  "An Affine over a commutative ring, N > 0, keeps every combination of points with weights that sum to one (midpoints, centroids, ratios along lines, barycentric coordinates); conversely every map of N-space that keeps them is the action of an Affine, and of one only. Over a field where 1 + 1 is not 0 keeping the points (1 - t) a + t b of lines is enough. Parallel lines go to parallel lines. The maps that keep the differences of points are exactly the Shifts, those that multiply them by k the chains of a Shift and Scale(k). Over a field, for N + 1 points in general position (the determinant of their differences is not 0) and any N + 1 images there is exactly one Affine sending each point to its image; the determinant of the differences (the volume of the simplex) is multiplied by the determinant of the Linear part.",
  "all commutative rings (fields), all N > 0, all maps, not only those a program can write down, all points and weights",
  "the converse quantifies over all maps; existence and uniqueness over all configurations of points",
  TR+"affine.rs: apply", TR+"linear.rs: apply", TR+"shift.rs: apply", TR+"scale.rs: apply", TR+"chain.rs: apply", "src/matrix/square.rs: det")

p("The look-at constructors: which of all rotations they choose",
  "Over the reals: look_at(dir, up), dir a unit vector not parallel to up, is the only rotation matrix that maps -z to dir and y into the half plane spanned by dir and the positive multiples of up; every rotation matrix is such a look_at, of its images of -z and y; adding multiples of dir to up and scaling up by a positive factor change nothing; turning dir and up by any rotation g gives g chained with look_at(dir, up). The unit quaternions that map -z to dir are exactly the rotations look_at_any(dir) chained with a turn about z, by any angle; look_at_any(dir) turns by the smallest possible angle exactly if dir.z < 0 or dir.x = 0. Both versions of look_at_any have jumps: as dir reaches x from below, Rotation3::look_at_any's image of y jumps from y to -y, and Linear::look_at_any's image of y changes by a right angle where |dir.z| reaches 1/2.",
  "all unit directions, all up vectors, all rotations, all recursion depths of look_at_any",
  "uniqueness and optimality range over all other rotations",
  TR+"linear.rs: look_at, look_at_any", TR+"rotation.rs: look_at_any, new, angle, chain, apply")

p("Going back and forth in floating point does not drift, unless scaling back is done by the reciprocal",
  "In every binary floating point format of precision at least 2: adding a vector and subtracting it again may change a number once, but then every further round trip returns exactly the same result, bit for bit (zeros included), as long as it stays finite. The same holds for subtracting and adding, for the componentwise product and quotient in either order, for multiplying and dividing by a scalar in either order, for matrices (sums, scalars), complex numbers and quaternions (sums), and for applying a Shift and its inv. It does not hold for Scale and its inv, which multiplies by the rounded reciprocal: for k = 2^p - 1 every trip of an integer between 3/4 2^p + 1 and 2^p adds one to it, so that many trips change it by a third.",
  "every binary format, all sizes, all finite floats, any number of round trips",
  "the first trip already rounds twice; that nothing moves afterwards depends on ties and on the changes of spacing at every power of two; drift shows after many trips only",
  "src/vector/ops/base.rs: add, sub, mul, div", "src/matrix/ops/base.rs: add, sub, mul, div", TR+"shift.rs: apply, inv", TR+"scale.rs: apply, inv", CX+"complex_.rs: add, sub", CX+"quaternion.rs: add, sub")

p("Characteristic polynomials: Cayley-Hamilton, eigenvalues, A B against B A, similarity",
  "Over every commutative ring and for every N, run the crate's own det on the matrix x 1 - A of polynomials: the result is monic of degree N, its constant coefficient is (-1)^N det A and its coefficient N - 1 is minus the trace; putting A for x with the crate's one, dot, * scalar and + gives the zero matrix (Cayley-Hamilton); its value at any scalar t is det(t 1 - A) as computed on scalars; A and its transpose, A B and B A, and A and Q^-1 A Q have the same one. Over every field its roots are exactly the t with a nonzero x such that dot(A, x) = x * t.",
  "all commutative rings (fields), all N, all matrices, all scalars",
  "identities of degree N in N*N unknowns, and over polynomials, for every N",
  "src/matrix/square.rs: det, one", "src/matrix/product.rs: dot", "src/matrix/ops/base.rs: add, sub, mul", "src/matrix/transpose.rs: transpose")

p("How space rotations compose: conjugation, half turns, commuting rotations, angles, Euler angles",
  "Over the reals, for unit rotations: g r g^-1 is the rotation about g's image of r's axis by the same angle; a rotation by an angle in (0, 2 pi) fixes exactly the points of its axis; chaining it k times multiplies the angle by k, so the turn by 2 pi / k chained k times is the identity; two half turns about n and then m make the turn by twice the angle from n to m about the axis orthogonal to both, and every rotation is two half turns; two rotations commute as maps exactly if their axes are equal or opposite, or both are half turns about orthogonal axes; angle() of a chain satisfies Rodrigues' formula cos(c/2) = cos(a/2) cos(b/2) - n.m sin(a/2) sin(b/2) and |a - b| <= c <= min(a + b, 4 pi - a - b); inverses and conjugates keep the angle; x . r(x) = cos(angle) x.x + 2 (v.x)^2, v the vector part, so no direction turns by more than the angle; the trace of to_linear is 1 + 2 cos(angle). Every unit quaternion is exactly a chain of turns about z, x, z, and of turns about z, y, x (yaw, pitch, roll), with the middle angle in [0, pi] or [-pi/2, pi/2]; at pitch pi/2 only yaw - roll matters (gimbal lock).",
  "all unit rotations, axes, angles, points and numbers of repetitions",
  "identities and existence statements over a continuum of rotations",
  TR+"rotation.rs: new, angle, axis, to_linear, chain, inv, apply", CX+"quaternion.rs: mul, conj")

p("Norms of products, condition numbers and perturbation of inverses and of solutions, equality in the triangle inequality",
  "Over the reals, with norm_l2 of matrices and vectors: |A B| <= |A| |B|, |A x| <= |A| |x|, |x A| <= |x| |A|, |outer(x, y)| = |x| |y| and |one()| = sqrt N, so |A| |inv A| >= sqrt N for invertible A; if |E| |inv A| < 1 then A + E has a nonzero determinant, |inv(A + E)| (1 - |E| |inv A|) <= |inv A| and |inv(A + E) - inv A| (1 - |E| |inv A|) <= |E| |inv A|^2, so every singular matrix is at least 1 / |inv A| away from A; if |1 - A X| = q < 1 for any X then A is invertible and |inv A - X| (1 - q) <= q |X|; if A x = b and A x' = b + e then |x' - x| |b| <= |A| |inv A| |e| |x|; if A x = b = (A + E) x' then |x' - x| <= |E| |inv A| |x'|; |x + y|^2 + |x - y|^2 = 2 |x|^2 + 2 |y|^2 and |x + y|^2 - |x - y|^2 = 4 dot(x, y); |x + y| = |x| + |y| exactly if |y| x = |x| y",
  "all shapes, all real matrices and vectors, all perturbations",
  "inequalities over a continuum of matrices of every size",
  "src/matrix/product.rs: dot, outer", "src/matrix/square.rs: det, inv, one", "src/matrix/ops/base.rs: add, sub", "src/vector/dot.rs: dot", "src/vector/ops/base.rs: NormL2", "src/matrix/ops/base.rs: NormL2")

p("Nearest points: projections, orthonormal rows, least squares and reflections",
  "Over the reals: for w other than zero, w * (dot(v, w) / dot(w, w)) is the only multiple of w nearest to v, and the difference is orthogonal to w; if A A^T = one() for an M x N matrix then M <= N, |A x| <= |x| with equality exactly if (A x) A = x, and (A x) A is the only combination of the rows nearest to x; some x always makes |A x - b| least, namely exactly those with A^T (A x) = A^T b, and all of them give the same A x; det(A^T A) is zero exactly if A x = 0 for some x other than zero, and otherwise inv(A^T A) (A^T b) is the only vector that makes |A x - b| least; one() - outer(w, w) * (2 / dot(w, w)) takes w to -w, leaves exactly the vectors orthogonal to w, is its own transpose and inverse, keeps dot products, has determinant -1, and for w = u - v with u, v of equal length takes u to v and v to u",
  "all shapes, all real matrices and vectors",
  "statements about minima over a continuum in every dimension",
  "src/matrix/product.rs: dot, outer", "src/matrix/square.rs: det, inv, one", "src/matrix/transpose.rs: transpose", "src/matrix/ops/base.rs: add, sub, mul", "src/vector/dot.rs: dot", "src/vector/ops/base.rs: NormL2, sub, mul")

p("Every orthogonal matrix is a product of at most N reflections",
  "Over the reals, with the reflection along w being one() - outer(w, w) * (2 / dot(w, w)): every N x N matrix with dot(transpose(A), A) = one() is the dot product of at most N reflections along nonzero vectors (none for one()); every such product satisfies dot(transpose(A), A) = one() and has determinant 1 or -1 as the number of reflections is even or odd, so orthogonal matrices have determinant 1 or -1; every map of N-vectors that keeps distances is x -> dot(A, x) + s for such a product A and some s",
  "all dimensions N > 0, all orthogonal matrices, all distance-preserving maps, all lists of nonzero vectors",
  "an existence statement over a continuum in every dimension",
  "src/matrix/product.rs: dot, outer", "src/matrix/square.rs: det, one", "src/matrix/transpose.rs: transpose", "src/matrix/ops/base.rs: sub, mul", "src/vector/dot.rs: dot")

p("Positive definite matrices: Sylvester's criterion, the inverse, Gram matrices",
  "Over the reals, for a symmetric matrix A (transpose(A) = A): dot(x, dot(A, x)) is positive for every x other than zero exactly if det of the first k rows and columns is positive for every k = 1..N; then det(A) > 0, inv(A) exists, is symmetric and has the same property; dot(transpose(B), B) is symmetric for every M x N matrix B, and has the property exactly if B x is not zero for every x other than zero",
  "all dimensions, all real symmetric matrices, all vectors",
  "a criterion over a continuum of matrices and vectors in every dimension",
  "src/matrix/square.rs: det, inv", "src/matrix/product.rs: dot", "src/matrix/transpose.rs: transpose", "src/vector/dot.rs: dot")

p("The Cholesky and QR factorizations",
  "Over the reals, for a symmetric matrix A: dot(x, dot(A, x)) is positive for every x other than zero exactly if A = dot(L, transpose(L)) for some L with zeros above the diagonal and positive numbers on it; and there is only one such L; every M x N matrix B with B x other than zero for every x other than zero is dot(Q, transpose(L)) for a Q with dot(transpose(Q), Q) = one() and such an L, and for one pair only",
  "all dimensions, all real symmetric matrices, all matrices with independent columns",
  "existence and uniqueness over a continuum of matrices in every dimension",
  "src/matrix/product.rs: dot", "src/matrix/transpose.rs: transpose", "src/vector/dot.rs: dot")

p("The LU factorization",
  "Over the reals: if det of the first k rows and columns of A is not zero for k = 1..N-1 then A = dot(L, U) with ones on the diagonal of L and zeros above it, and zeros below the diagonal of U; det of the first k rows and columns of such a product is the product of the first k diagonal entries of U; and there is only one such pair if the first N-1 diagonal entries of U are not zero",
  "all dimensions, all real square matrices",
  "existence and uniqueness over a continuum of matrices in every dimension",
  "src/matrix/product.rs: dot", "src/matrix/square.rs: det")

p("Element-wise products, sums and determinants of positive definite matrices",
  "Over the reals, call a matrix A positive definite if dot(x, dot(A, x)) is positive for every x other than zero: the element-wise product A * B of two symmetric positive definite matrices is symmetric and positive definite; so are sums and positive multiples; the determinant of a symmetric positive definite matrix is positive and at most the product of its diagonal entries, with equality exactly for diagonal matrices; det(A) + det(B) is at most det(A + B), and less if N > 1",
  "all dimensions, all real positive definite matrices",
  "inequalities over a continuum of matrices and vectors in every dimension",
  "src/matrix/ops/base.rs: add, mul", "src/matrix/square.rs: det", "src/matrix/product.rs: dot", "src/matrix/transpose.rs: transpose", "src/vector/dot.rs: dot")

with open(os.path.join(os.path.dirname(__file__), "..", "properties.jsonl"), "w") as f:
    for o in P: f.write(json.dumps(o)+"\n")
print(len(P))
