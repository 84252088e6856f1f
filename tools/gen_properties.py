#!/usr/bin/env python3
"""Source of /verif/properties.jsonl (one property per line)."""
import json, os
P = []
def p(title, statement, quantifier, why, anchors):
    P.append(dict(id="C%02d" % (len(P)+1), title=title, statement=statement,
                  quantifier=quantifier, why_tests_cant=why, anchors=anchors))

p("declare_algebra masks describe the signature",
  "For every signature accepted by declare_algebra!, dim() is the number of entries, bit n of real_mask/imag_mask/proj_mask is set exactly when entry n is +/-/0, the three masks are disjoint and together fill the low dim() bits, signature()[n] is 1/-1/0 accordingly, and the macro accepts a signature exactly when no + or - follows a 0 (so the null generators occupy the top bits).",
  "every finite list of +,-,0 entries", "There are infinitely many signatures; tests name a handful.",
  ["src/algebra.rs: declare_algebra, produce_mask_*, count_items, order_check, ClBasis::signature"])
p("optional algebra traits are granted exactly where they are sound",
  "declare_algebra! implements SplitSignature exactly for the signatures (+,-)^k, NonDegenerate exactly when no generator is null, PGAlgebra exactly for (+,...,+,0), DivisionAlgebra exactly for [-] and [-,-].",
  "every accepted signature", "Macro pattern matching recurses over the whole token list.",
  ["src/algebra.rs: impl_split_signature, impl_non_degenerate, impl_pga, impl_complex_or_quaternionic"])
p("blade product signs are those of the Clifford relations",
  "For every algebra and every two basis blades, blade_geo_product_sign is the sign obtained by writing both blades as products of generators (highest first), concatenating, and reducing with e_i e_j = -e_j e_i and e_i e_i = signature(i); the reduced word is the blade whose index is the xor, unless the sign is Null.",
  "every signature up to 64 generators, every pair of blade indices", "2^128 pairs of blades per algebra.",
  ["src/algebra.rs: ac_product_sign, blade_geo_product_sign, ac_negated_product_sign"])
p("precomputed sign table equals the computed sign",
  "For dimensions up to 6 the table lookup returns the same sign as the general loop for every pair of blades, and ac_negated_product_sign is always the opposite of ac_product_sign.",
  "every dimension 0..6, every pair of in-range blades; the negation claim for every dimension", "Negation claim ranges over all dimensions.",
  ["src/precomputed.rs: AC_PRODUCT_SIGNS", "src/algebra.rs: ac_product_sign, ac_negated_product_sign"])
p("wedge signs are those of the exterior algebra",
  "blade_wedge_product_sign(a,b) is Null exactly when the blades share a generator and otherwise is the sign of sorting the concatenated generators, independent of the metric.",
  "every algebra, every pair of blade indices", "Unbounded dimension.",
  ["src/algebra.rs: blade_wedge_product_sign"])
p("grade iterator enumerates exactly the blades of a grade",
  "grade_index_iter(k) yields every index below 2^dim with exactly k bits set, each exactly once, in strictly decreasing order, then returns None forever; it yields nothing when k > dim.",
  "every dimension up to 64 and every grade, every number of next() calls", "The iterator is a recursive state machine with reused sub-iterators; tests run n < 16.",
  ["src/index_utils.rs: GradeIter::next, GradeIter::refresh, grade_iter"])
p("coefficient stores obey read-after-write",
  "On every storage kind, after set_by_idx(i,v) with i in range, get_by_idx(i) is v and every other coefficient is unchanged; with i out of range nothing changes; a fresh multivector reads zero everywhere; reads of in-range indices never panic.",
  "every store state, index and value", "Unbounded histories of writes.",
  ["src/coeff_storage.rs: ArrayStorage, SparseStorage", "src/quaternion.rs: QStorage"])
p("reading an out-of-range coefficient yields zero",
  "get_by_idx(i) with i outside the algebra returns zero on every storage kind and never panics.",
  "every storage kind, every index", "The failing index is exactly one past the end and differs per algebra.",
  ["src/coeff_storage.rs: ArrayStorage::get_by_idx"])
p("equality is coefficient-wise",
  "a == b holds exactly when get_by_idx agrees on every in-range index, for dense, sparse and quaternion storage, whatever the HashMap iteration order or stored zeros.",
  "all pairs of multivectors, all iteration orders", "HashMap order is randomised per process.",
  ["src/coeff_storage.rs: PartialEq impls", "src/lib.rs: PartialEq for MultivectorBase"])
p("sparse multivectors hold only in-range non-zero entries",
  "After any sequence of API operations, a sparse multivector stores no zero coefficient and no out-of-range index, so coeff_count() is the number of non-zero coefficients.",
  "every finite history of API calls", "Invariant over unbounded histories.",
  ["src/coeff_storage.rs: SparseStorage", "src/mv_sparse.rs: coeff_count, filter_inplace"])
p("dense and sparse results agree",
  "Converting to sparse or dense preserves every coefficient, round-trips, and commutes with every operation (sum, difference, negation, geometric, wedge and meet products, rev, flip, dual, grade extraction, scalings), for every HashMap iteration order.",
  "all multivectors, all storage kinds, all iteration orders", "Iteration order is nondeterministic.",
  ["src/lib.rs: to_storage_type and all MultivectorBase operations"])
p("coeff_enumerate lists every non-zero coefficient once",
  "coeff_enumerate yields in-range indices without repetition, each paired with its current coefficient, and omits only zero coefficients; grade_enumerate does the same restricted to one grade.",
  "every multivector of every storage kind, every grade", "Unbounded dimension and contents.",
  ["src/lib.rs: coeff_enumerate, grade_enumerate", "src/coeff_storage.rs"])
p("from_vector accepts exactly dim() coefficients",
  "from_vector returns Ok exactly when the iterator yields dim() items, and then the result has those items as its grade-1 coefficients and zero elsewhere; otherwise it returns InvalidShape. extract_vector inverts it.",
  "every algebra, every input sequence", "Unbounded input lengths.",
  ["src/lib.rs: from_vector, from_vector_ref, extract_vector"])
p("from_indexed_iter: last write wins, out-of-range is an error",
  "from_indexed_iter returns IndexOutOfBounds exactly when some index is at least 2^dim(); otherwise every coefficient is the last value supplied for its index and zero if none.",
  "every algebra and every finite sequence of (index,value) pairs", "Unbounded sequences.",
  ["src/lib.rs: from_indexed_iter, from_indexed_iter_ref"])
p("sum, difference, negation and scaling are coefficient-wise",
  "Every coefficient of a+b, a-b, -a, a*t, a/t is the sum, difference, negation, product, quotient of the coefficients; multivectors form an abelian group under + with zero().",
  "all multivectors over every coefficient ring", "All inputs.",
  ["src/lib.rs: add_impl, sub_impl, neg_impl", "src/ops.rs"])
p("geometric product is the bilinear extension of the blade product",
  "Coefficient k of a*b is the sum over all pairs of blades i xor j = k of sign(i,j) a_i b_j, on every storage; it is associative, has one() as two-sided unit and distributes over sums, also for non-commutative coefficients.",
  "all multivectors, every accepted signature, every coefficient ring", "Ring laws quantify over all triples.",
  ["src/lib.rs: naive_mul_impl", "src/ops.rs: Mul"])
p("basis vectors satisfy the declared relations",
  "basis()[i]*basis()[i] is the scalar signature()[i], and basis()[i]*basis()[j] = -(basis()[j]*basis()[i]) for i != j.",
  "every accepted signature, all i, j", "Every dimension.",
  ["src/algebra.rs: ClBasis::basis, basis_sparse, signature"])
p("a blade is the product of its generators in label order",
  "The multivector with a single coefficient 1 at index I equals the product of the basis vectors listed in I from the highest to the lowest, and also their wedge product; the reversed label lists the same generators in increasing order and denotes the reversal.",
  "every algebra and every blade", "Every subset of generators.",
  ["src/algebra.rs: blade_label, blade_label_rev", "src/lib.rs: impl_formatting"])
p("Clifford algebra universal property",
  "Whenever elements g_0..g_{n-1} of any associative ring satisfy the relations of the signature, sending blade I to the product of its g_i (highest first) extends to a map that turns the library's geometric product into the ring's product.",
  "every ring, every family of elements satisfying the relations, all multivectors", "Quantifies over all target rings.",
  ["src/lib.rs: naive_mul_impl"])
p("wedge product is the exterior product",
  "a.wedge(b) has coefficient k equal to the sum over disjoint i, j with union k of sign(i,j) a_i b_j; it is associative, one() is its unit, it is the grade r+s part of the geometric product for homogeneous a and b, v.wedge(v) = 0 for every vector and homogeneous elements commute up to (-1)^(rs).",
  "all multivectors, all signatures", "Laws over all inputs.",
  ["src/lib.rs: naive_wedge_impl", "src/types.rs: WedgeProduct"])
p("fast dense wedge equals the naive wedge",
  "For every dimension the recursive in-place wedge used from dimension 6 gives exactly the naive wedge, never indexes out of bounds, restores its left operand, and overwrites the whole destination whatever it held.",
  "every dimension, all operand arrays, all initial destinations", "Recursion depth is unbounded.",
  ["src/mv_dense.rs: wedge_impl, WedgeProduct::wedge"])
p("meet is the dual of the wedge of duals",
  "a.meet(b) = (a.dual() ^ b.dual()).undual() for dense (both code paths) and sparse multivectors.",
  "all algebras, all multivectors", "All inputs and both algorithm branches.",
  ["src/lib.rs: naive_meet_impl", "src/mv_dense.rs: meet", "src/mv_sparse.rs: meet"])
p("dual and undual are mutually inverse",
  "a.dual().undual() = a = a.undual().dual() for every multivector; dual never hits its unreachable branch; a.dual().dual() is a up to the sign (-1)^(k(n-k)) on grade k.",
  "all algebras, all multivectors", "All inputs.",
  ["src/lib.rs: dual, undual"])
p("b.dual()*b is a pseudoscalar for every blade",
  "For every k-blade b, b.dual()*b and b*b.undual() are multiples of the unit pseudoscalar.",
  "every signature, every decomposable k-vector", "The documentation claims it for any blade in any signature.",
  ["src/lib.rs: dual, undual"])
p("rev is the reversal anti-automorphism",
  "rev fixes scalars and vectors, reverses products ((ab).rev() = b.rev() a.rev()) over commutative coefficients, and is an involution.",
  "all multivectors, all signatures", "All inputs.",
  ["src/lib.rs: rev, rev_c"])
p("flip and flip_subspace are automorphisms",
  "flip negates every generator and flip_subspace(mask) negates exactly the generators in mask: both are multiplicative, additive involutions, and flip = flip_subspace(all).",
  "all multivectors, all masks", "All inputs.",
  ["src/lib.rs: flip, flip_subspace"])
p("grade extraction decomposes a multivector",
  "grade_extract(k) keeps exactly the coefficients of grade k, is idempotent, different grades annihilate, and the sum over all grades 0..dim is the multivector; grade_extract_as gives the same in any storage.",
  "all multivectors, all grades", "All inputs.",
  ["src/lib.rs: grade_extract, grade_extract_as", "src/mv_sparse.rs: grades_extract, retain_grades"])
p("vdot and mag2 are scalar parts of products",
  "a.vdot(b) = (a*b).scalar_part(), a.mag2() = (a.rev()*a).scalar_part() and a.cmag2() = (a.revc()*a).scalar_part(); vsdot is the plain coefficient dot product.",
  "all multivectors, all signatures", "All inputs.",
  ["src/lib.rs: vdot, vsdot, mag2, cmag2"])
p("revm normalises",
  "Whenever mag2 is non-zero, s.revm() equals s.rev()/s.mag2(), and the magnitude of s.revm()*s is one.",
  "all multivectors with non-zero mag2", "The documentation claims it for every s.",
  ["src/lib.rs: revm, revcm"])
p("pow is the n-fold product",
  "a.pow(n) is the product of n copies of a (one() for n = 0), hence pow(m+n) = pow(m)*pow(n), on multivectors and on FFTRepr.",
  "all multivectors, all n", "All n.",
  ["src/lib.rs: pow", "src/fftrepr/mod.rs: pow"])
p("division in Cl(0,1) and Cl(0,2) inverts multiplication",
  "For commutative coefficients, whenever the norm of b is non-zero, (a/b)*b = a and b/b = one(); over a formally real field this is every b other than zero, so these algebras are division rings. Complex coefficients over such a field divide likewise.",
  "all multivectors, all coefficient fields", "All inputs.",
  ["src/ops.rs: Div"])
p("Quaternion satisfies Hamilton's relations",
  "i*i = j*j = k*k = i*j*k = -1, conj() = rev().flip(), q*conj(q) is the sum of squares; Quaternion storage behaves like the dense multivector of the same algebra.",
  "all coefficient rings, all quaternions", "All inputs.",
  ["src/quaternion.rs"])
p("complexify is an invertible algebra map",
  "complexify turns products in Cl(p,q,s) into products in Cl(p+q,0,s) over complex coefficients, is additive, and decomplexify recovers the original multivector.",
  "all signatures, all multivectors", "All inputs.",
  ["src/complexification.rs: complexify, decomplexify"])
p("padding to an even algebra is invertible and multiplicative",
  "Viewing a Cl(p,q,s) multivector inside the algebra with one extra generator (when p+q is odd) preserves products, and into_original recovers it; components involving the extra generator are dropped.",
  "all signatures, all multivectors", "All inputs.",
  ["src/complexification.rs: Even, into_original"])
p("clifft and iclifft are mutually inverse and validate shapes",
  "clifft succeeds exactly on arrays of power-of-two length and returns a 2^ceil(n/2) square matrix; iclifft succeeds exactly on square power-of-two matrices; iclifft(clifft(v)) is v padded with zeros and clifft(iclifft(m)) is m; all other shapes give InvalidShape, never a panic.",
  "all arrays and matrices of all shapes", "Recursion depth and shapes unbounded.",
  ["src/clifft/mod.rs: clifft, iclifft, clifft_into, iclifft_into"])
p("clifft turns the geometric product into the matrix product",
  "For coefficient arrays x, y of Cl(n), clifft(x).dot(clifft(y)) = clifft(x*y), clifft is additive and clifft(1) is the identity.",
  "all n, all arrays", "Homomorphism law over all pairs.",
  ["src/clifft/mod.rs: clifft, clifft_nn"])
p("parity_flip, imaginary_flip and reversal act as the named involutions",
  "On clifft(x), parity_flip corresponds to negating odd-grade coefficients, imaginary_flip to negating coefficients with an odd number of odd-numbered generators, reversal to the reversal; imaginary_flip and reversal return InvalidShape exactly on non-square or non-power-of-two matrices.",
  "all arrays and matrices", "Recursive block swaps.",
  ["src/clifft/mod.rs: parity_flip, imaginary_flip, imaginary_flip_inplace, reversal"])
p("ifft inverts fft",
  "a.fft().ifft() = a for every multivector of every declared algebra, and fft never panics; fft().shape() is (2^null, side, side).",
  "all signatures (odd, even, degenerate), all multivectors", "All signatures and inputs.",
  ["src/mv_dense.rs: fft", "src/fftrepr/mod.rs: ifft"])
p("FFT multiplication is the geometric product",
  "(a.fft()*b.fft()).ifft() = a*b, and a.fft()*b.fft() = (a*b).fft(), for every algebra including odd and degenerate signatures.",
  "all signatures, all multivectors", "The library's central promise, for all inputs.",
  ["src/fftrepr/mod.rs: Mul", "src/fftrepr/wmul.rs", "src/mv_dense.rs: fft"])
p("fft is linear",
  "fft commutes with sums, differences, negation, scaling, zero() and one(); FFTRepr::one() is a unit.",
  "all signatures, all multivectors", "All inputs.",
  ["src/fftrepr/mod.rs: Add, Sub, Neg, Mul<Complex64>, Div, Zero, One"])
p("FFTRepr rev and flip match the multivector operations",
  "a.fft().rev() = a.rev().fft() and a.fft().flip() = a.flip().fft().",
  "all signatures, all multivectors", "All inputs, including degenerate signatures.",
  ["src/fftrepr/mod.rs: rev, flip"])
p("normalised trace is the scalar part",
  "a.fft().ntrace() = a.scalar_part(), trace() is side times it, and a.fft().mag2() = a.mag2().",
  "all signatures, all multivectors", "All inputs.",
  ["src/fftrepr/mod.rs: trace, ntrace, mag2"])
p("inv returns a two-sided inverse",
  "If a.fft().inv() is Some(r) then r*a.fft() = a.fft()*r = one() and a*r.ifft() = r.ifft()*a = one() in the algebra, in exact arithmetic, also for odd signatures.",
  "all non-degenerate signatures, all multivectors", "All matrices of all sizes and pivot orders.",
  ["src/fftrepr/mod.rs: inv", "src/fftrepr/matrix.rs: matrix_inv"])
p("inv returns None only for singular elements",
  "If a has an inverse then a.fft().inv() is Some.",
  "all non-degenerate signatures, all multivectors", "Depends on zero patterns of intermediate pivots.",
  ["src/fftrepr/matrix.rs: matrix_inv"])
p("FFTRepr shapes are validated",
  "from_array3 accepts exactly arrays of shape (2^null, side, side) and from_array2 exactly (side, side), otherwise InvalidShape; into_array3/into_array2 round-trip; every operation preserves the shape.",
  "all signatures, all shapes", "All shapes.",
  ["src/fftrepr/mod.rs: from_array3, from_array2, into_array3, into_array2"])
p("half-spin representations are representations",
  "For even multivectors, into_half_spin_repr sends products to products in both components and one() to identities, for non-degenerate algebras; odd parts are ignored.",
  "all non-degenerate signatures, all even multivectors", "All inputs.",
  ["src/fftrepr/mod.rs: into_half_spin_repr"])
p("real_fft on split signatures",
  "For split signatures real_fft is an algebra isomorphism onto real matrices and agrees with fft.",
  "all split signatures, all multivectors", "All inputs.",
  ["src/mv_dense.rs: real_fft", "src/clifft/mod.rs: clifft_nn"])
p("pga_point and pga_extract_point round-trip",
  "For every point p, pga_point(p).pga_extract_point() = p.",
  "all dimensions, all points", "The failing point is a single one.",
  ["src/pga.rs: pga_point, pga_extract_point"])
p("pga_translation translates points",
  "For every direction d of the right length and every representable point p, extracting t.rev()*P*t with t = pga_translation(d), P = pga_point(p) gives p + d; t.rev()*t = 1.",
  "all dimensions, directions, points", "All inputs.",
  ["src/pga.rs: pga_translation"])
p("PGA constructors reject wrong lengths",
  "pga_point, pga_hyperplane and pga_translation return an error unless given exactly the space dimension (resp. dimension + 1 for hyperplanes) of numbers.",
  "all input lengths", "All lengths.",
  ["src/pga.rs"])
p("PGA incidence",
  "A point lies on a hyperplane (its equation vanishes) exactly when plane.wedge(point) is zero.",
  "all dimensions, planes, points with non-zero normalisers", "All inputs.",
  ["src/pga.rs", "src/types.rs: WedgeProduct"])
p("every signature accepted by declare_algebra! is usable",
  "For every accepted signature, zero(), one(), basis() and from_indexed_iter work on sparse multivectors without overflow or lost coefficients.",
  "every accepted signature", "The size check admits 64 generators.",
  ["src/algebra.rs: const_assert in impl_algebra_base", "src/coeff_storage.rs: SparseStorage::new", "src/lib.rs: from_indexed_iter"])
p("nested multivectors are lawful coefficients",
  "The dense multivectors over a coefficient ring satisfy every ring law the library assumes of its coefficients, so multivectors over multivectors obey all the product theorems.",
  "every coefficient ring, every algebra, every nesting depth", "Unbounded nesting.",
  ["src/types.rs: Ring", "src/lib.rs: Zero, One", "src/ops.rs"])
p("exp evaluates the truncated series",
  "In exact arithmetic, exp computes (sum_{k<=18} (x/m)^k/k!)^m with m the rounded-up scale, terminates after 18 steps, and exp(zero) = one.",
  "all multivectors", "The loop bound depends only on a float comparison.",
  ["src/lib.rs: exp", "src/fftrepr/mod.rs: exp"])
p("display denotes the value",
  "The printed form lists exactly the non-zero terms, coefficient then label, joined by ' + ' (or a single zero); in alternate form each coefficient and reversed label denote the same term as in the normal form.",
  "all multivectors", "All inputs.",
  ["src/lib.rs: impl_formatting"])
p("approx_eq and is_zero",
  "is_zero() holds exactly when all coefficients are zero; approx_eq(a,b,eps) with eps > 0 holds exactly when every coefficient of a-b has norm below eps, identically for every storage kind.",
  "all multivectors, all precisions", "All inputs.",
  ["src/lib.rs: approx_eq, is_zero"])
p("FFTRepr values form a ring",
  "The FFTRepr values of one algebra's shape, also those that are not transforms of a multivector, form a ring under +, -, neg, *, zero() and one(), and is_zero() holds for zero() only. Scaling by a real is scaling by the complex number without imaginary part, and division by a non-zero real or complex number undoes scaling.",
  "all signatures, all arrays of the right shape", "All inputs.",
  ["src/fftrepr/mod.rs: Add, Sub, Neg, Mul, Zero, One", "src/fftrepr/wmul.rs"])
p("exp is exact where the series is finite",
  "If x*x = 0 then exp(x) = 1 + x exactly (so that pga_translation is the exponential of its bivector), and x always commutes with exp(x).",
  "all signatures, multivectors and storages", "All inputs.",
  ["src/lib.rs: exp"])
p("quaternion norm",
  "norm() of a quaternion is the square root of q*conj(q) and is multiplicative.",
  "all quaternions", "All inputs.",
  ["src/quaternion.rs: Norm for Quaternion"])
p("floats: no panic, always a valid result",
  "With any coefficients, NaN and infinities included, no program over the constructors, arithmetic, products, gradings, conversions, divisions and powers panics; it returns a valid multivector, or an error for an ill-sized literal only. Reading, printing and comparing never panic either.",
  "all programs over the API, all coefficients of a type with rounded arithmetic (f32, f64)", "Unbounded programs; NaN and infinities at any place.",
  ["src/lib.rs", "src/ops.rs", "src/coeff_storage.rs", "src/types.rs: Ring"])
p("floats: linear programs are storage independent",
  "Programs that only move, negate, add and subtract coefficients, or scale by finite numbers, give bit-identical coefficients on every storage; negation, reversal and duality are exactly undone.",
  "all linear programs, all coefficients (f32, f64)", "Unbounded programs and inputs.",
  ["src/ops.rs", "src/coeff_storage.rs", "src/lib.rs: rev, flip, dual"])
p("floats: the order of roundings in a product is fixed",
  "Coefficient k of a product is accumulated from zero, one rounded product x_i*y_(i xor k) at a time, in the order in which the left operand enumerates its coefficients (increasing index for dense and quaternion storage), with no other rounding.",
  "all multivectors over f32/f64, all storages", "The order is visible only in the last bits.",
  ["src/ops.rs: Mul", "src/mv_sparse.rs: wedge"])
p("floats: equal arguments give equal products",
  "If x == x' and y == y' then x*y == x'*y', also across storages.",
  "all multivectors over f32/f64", "Hash order and zero-skipping show only for special values.",
  ["src/ops.rs: Mul, Mul<T>", "src/coeff_storage.rs: SparseStorage::coeff_enumerate"])
p("programs in the transform domain",
  "Any program over zero, one, basis, +, -, negation, product, scaling, flip, rev and powers computed on FFTRepr values never panics and gives the transform of what the same program gives on dense multivectors; ifft returns the latter.",
  "all programs, all signatures below 63 generators, all literals", "Unbounded programs and inputs.",
  ["src/fftrepr/mod.rs", "src/mv_dense.rs: fft", "src/fftrepr/mod.rs: ifft"])
p("FFTRepr basis and comparison",
  "FFTRepr::basis() lists the transforms of the basis vectors in order; == holds exactly when all entries are equal and approx_eq exactly when the norm of every difference of entries is below the precision.",
  "all signatures, all representations", "All inputs.",
  ["src/fftrepr/mod.rs: basis, approx_eq, PartialEq"])
p("symmetries of exp",
  "exp(x.rev()) = exp(x).rev() and exp(x.flip()) = exp(x).flip(), and exp depends on the coefficients only: the same coefficients in dense, sparse or quaternion storage give the same exponential.",
  "all signatures, multivectors and storages", "All inputs; the scale is found by iterating in storage order.",
  ["src/lib.rs: exp", "src/lib.rs: rev, flip"])
p("floats: transforms and FFTRepr arithmetic never panic",
  "clifft and iclifft succeed on every array of the right length or shape, whatever its entries, and return InvalidShape on all others; fft, ifft and every operation of FFTRepr, and all programs over them, keep the shape and never panic.",
  "all arrays, multivectors and representations over f32/f64, NaN and infinities included", "All inputs, unbounded programs.",
  ["src/fftrepr/mod.rs", "src/clifft/mod.rs: clifft, iclifft", "src/mv_dense.rs: fft"])
p("floats: exp terminates",
  "exp of a multivector or of an FFTRepr terminates without panicking after at most 18 terms of its series, whatever the coefficients, NaN and infinities included, and returns a valid value.",
  "all multivectors and representations with rounded coefficients", "All inputs; a float comparison decides termination.",
  ["src/lib.rs: exp", "src/fftrepr/mod.rs: exp"])
p("floats: rounding error of one operation",
  "Sums, differences, scalar multiples and quotients round each coefficient once. A coefficient of a product (geometric, wedge or regressive) that is finite is within ((1+u)^(t+1)-1) * sum |x_j||y_(i xor j)| plus underflows of the exact one, t the number of coefficients stored on the left (2^dim for the regressive product and the dense wedge); for the dense wedge from 6 dimensions on t may be replaced by the dimension. So the same product in two storages agrees up to twice that.",
  "all multivectors over f32/f64 and storages, all signatures", "All inputs; the error grows with dimension and magnitudes, a tolerance in a test hides it.",
  ["src/ops.rs: Mul, Add, Sub, Mul<T>, Div<T>", "src/mv_sparse.rs: wedge, meet", "src/mv_dense.rs: wedge, meet"])
p("floats: rounding error of programs",
  "A program over constructors, +, -, the three products, positive powers, scaling, involutions, duals, gradings and conversions fails in floating point exactly when it fails in exact arithmetic; otherwise, if no step overflows, each coefficient is within an explicit bound, computed from the exact intermediate sizes, of the exact result. Two programs with the same exact value agree up to the sum of their bounds.",
  "all programs of the fragment, all f32/f64 inputs, all storages", "Unbounded programs; errors propagate.",
  ["src/ops.rs", "src/lib.rs", "src/coeff_storage.rs"])
p("floats: rounding error of the transforms",
  "fft followed by ifft gives every coefficient back up to ((1+u)^(4m+8)-1) * (sum of the sizes of the coefficients) plus underflows, 2^m the side of the matrices, provided the coefficients that come back are finite. Each entry of clifft, and each coefficient of iclifft, is within a bound of the same kind of what exact arithmetic gives.",
  "all multivectors over f32/f64 and their complex numbers, all signatures, all array lengths", "All inputs; tests compare a few transforms with a tolerance.",
  ["src/clifft/mod.rs: clifft, iclifft", "src/mv_dense.rs: fft", "src/fftrepr/mod.rs: ifft"])
p("floats: rounding error of products through the transforms",
  "The product of two representations, transformed back, is within ((1+u)^(2^m+5m+s+14)-1) P Q plus underflows of the exact geometric product, P and Q the sums of the sizes of the coefficients, 2^m the side of the matrices, s the number of null generators, provided the coefficients that come back are finite. So it agrees with the product term by term up to the sum of the two bounds.",
  "all multivectors over f32/f64 and their complex numbers, all signatures", "All inputs; the error grows with dimension and magnitudes.",
  ["src/fftrepr/mod.rs: Mul, wmul, ifft", "src/clifft/mod.rs", "src/mv_dense.rs: fft"])
p("single precision multivectors in the double precision transforms",
  "Multivectors over f32 and Complex32 are transformed in double precision. The conversion to f64 is exact and undone by the conversion back. fft followed by ifft gives single precision coefficients, each within the double precision bound and one rounding of the old one, and exactly the old one if it is at least 2^26 times the double precision bound. The product of two representations, transformed back, is within the double precision bound and one rounding of the exact product.",
  "all multivectors over f32 and Complex32, all signatures", "All inputs; exactness of the round trip depends on the rounding of every intermediate step.",
  ["src/types.rs: FromComplex, IntoComplex64", "src/mv_dense.rs: fft", "src/fftrepr/mod.rs: ifft, Mul"])
p("exp is the exponential up to an explicit error",
  "In exact arithmetic exp(x) differs from every long partial sum 1 + x + x^2/2! + ... + x^K/K! of the exponential series by at most c r^19/19! 3^(n c) in total over the coefficients, where c is the scale exp computes and r = ||x||/c <= n with ||x|| the sum of the sizes of the coefficients; more precisely by at most what scaling and truncating loses on the number ||x||.",
  "all multivectors with real or complex coefficients, all signatures and storages, all K >= 18 c", "All inputs; a limit over all partial sums of a series.",
  ["src/lib.rs: exp"])
p("exp(x) exp(-x) = 1 and exponentials of bivectors are rotors, up to an explicit error",
  "In exact arithmetic exp(x) exp(-x) differs from 1 by at most (1+e)^c - 1, where e is the sum of the terms 19 to 36 of the exponential series of 2||x||/c. If rev(x) = -x the same holds of R rev(R) with R = exp(x).",
  "all multivectors with real or complex coefficients, all signatures and storages", "All inputs; tests check a few rotors with a tolerance.",
  ["src/lib.rs: exp, rev", "src/ops.rs: Mul, Neg"])
p("exp in the transform domain is the exponential up to an explicit error",
  "In exact arithmetic fft, exp of the representation and ifft together give a multivector that differs from every long partial sum of the exponential series by at most c r^19/19! 3^(n c), where c is the scale exp computes for the representation and r = ||x||/c <= n. So it agrees with exp of the multivector up to the sum of both errors, though the scales may differ.",
  "all dense multivectors with real or complex coefficients, all signatures below 63 generators", "All inputs; two different computations of a limit.",
  ["src/fftrepr/mod.rs: exp, ifft", "src/mv_dense.rs: fft", "src/lib.rs: exp"])

p("exp(x) exp(y) = exp(x + y) for commuting x and y, up to an explicit error",
  "In exact arithmetic, if x y = y x then exp(x) exp(y) differs from exp(x + y), in total over the coefficients, by at most (b(x) + b(y)) 3^k + b(x + y), where b is the error bound of a single exponential and k >= ||x||, ||y||.",
  "all commuting pairs of multivectors with real or complex coefficients, all signatures and storages", "All inputs; the three exponentials use different scales, so no identity holds exactly.",
  ["src/lib.rs: exp", "src/ops.rs: Mul, Add"])

p("Results in floating point stay finite when the exact ones are moderate",
  "In f64 (f32) an addition, subtraction, product or quotient of numbers whose exact result is below 2^1023 (2^127) is a number. A coefficient of a product of multivectors (also wedge and regressive) is a number if the sum of |x_j| |y_(i xor j)| and the rounding bound together stay below that, whatever the order of summation; it suffices that the coefficients are at most 2^a and 2^b with a + b + dim <= 1020. A program whose exact intermediate results and error bounds stay below the limit never meets an infinity or a NaN, and its result is within the error bound of the exact one.",
  "all inputs, programs, signatures and storages, f64 and f32", "No test approaches the limits; the condition is about every intermediate sum.",
  ["src/algebra.rs: mul", "src/ops.rs: Add, Sub, Mul, Div", "src/types.rs"])
p("floats: exp is the exponential up to an explicit error",
  "exp of a multivector over f64 whose coefficients are finite differs from every long partial sum of the exponential series, in total over the coefficients, by at most a bound computed by running the same procedure on the number r >= sum |x_i| with every rounding taken upwards; as long as that stays below the overflow limit the result has no infinity or NaN. If r <= 1, exp does not scale and the dimension is at most 5, the error is below 2 10^-14.",
  "all multivectors over f64, all signatures and storages, all K >= 18 c", "All inputs; compares rounded arithmetic with a limit.",
  ["src/lib.rs: exp, pow", "src/ops.rs: Mul, Add, Mul<T>"])

p("Complex numbers and quaternions are a division ring as coefficients",
  "Multivectors of a division algebra (signature [-] or [-,-]) over a formally real field, dense or of type Quaternion, form a division ring under the operators: every call returns and (a / b) * b = a for every b other than zero; with one generator it is a field. So theorems about coefficients in a division ring cover Multivector<Quaternion<T>, A> and matrices of quaternions. Nested once more (quaternions with complex or quaternion coefficients) they have zero divisors.",
  "all coefficient values, all build modes", "All inputs; the tests invert two matrices of quaternions.",
  ["src/ops.rs: Div", "src/quaternion.rs: Quaternion", "src/types.rs: DivRing", "src/fftrepr/matrix.rs: matrix_inv"])

p("The grades of a product",
  "The product of a multivector of grade r and one of grade s in dimension d has only the grades r + s - 2t with t <= r, t <= s, t >= r + s - d; the product of two vectors is its scalar part plus their wedge.",
  "all inputs, signatures, storages and coefficient rings", "All inputs of all grades in all algebras; no test looks at the grades of a product.",
  ["src/algebra.rs: mul", "src/ops.rs: Mul", "src/lib.rs: grade_extract"])
p("Transformations by versors: s * x * s.revm()",
  "If s is a product of vectors with mag2 other than zero, then x -> s * x * s.revm() keeps each grade, commutes with grade_extract, rev and flip, keeps scalar part and mag2, is an automorphism for *, + and wedge, and for the regressive product up to a sign, which is -1 exactly for an odd number of vectors in an even dimension (the same sign it gives the unit pseudoscalar); also in degenerate metrics such as PGA. A vector keeps itself and negates the vectors orthogonal to it. The sandwich by s * t is the composition and mag2(s * t) = mag2(s) mag2(t).",
  "all versors and multivectors, signatures, storages, fields of characteristic other than 2", "All inputs; the tests transform a handful of points and planes.",
  ["src/lib.rs: revm, rev, mag2, grade_extract, flip", "src/algebra.rs: mul", "src/mv_dense.rs: wedge, meet", "src/mv_sparse.rs: wedge, meet"])

p("PGA: products of hyperplanes are rigid motions",
  "For every proper point x (grade n, coefficient of e1...en not zero; the origin is one, pga_point builds one) with coordinates p and every product s of vectors with mag2 other than zero, s * x * s.revm() is a proper point. If s is the product of the hyperplanes h1 ... hr its coordinates are p reflected in hr, then in h(r-1), ..., then in h1. Distances between points are kept. h.wedge(x) vanishes exactly if p satisfies the equation of h, also after h and x have been transformed by the same s. Translating x by d gives p + d, for the origin too.",
  "all points, hyperplanes, products of any number of vectors, dimensions, storages", "All inputs and products of any length; the tests move a few points in two and three dimensions.",
  ["src/pga.rs: pga_point, pga_hyperplane, pga_translation, pga_extract_point", "src/lib.rs: revm, rev", "src/algebra.rs: mul", "src/mv_dense.rs: wedge", "src/mv_sparse.rs: wedge"])

p("PGA: intersections of hyperplanes and joins of points",
  "In n dimensions the outer product of n hyperplanes has grade n. If it is a proper point, pga_extract_point gives the one point that satisfies all n equations; if it is neither a proper point nor zero, no point satisfies them all (parallels). The regressive product (meet) of n proper points is a vector; its coefficients are the equation of a hyperplane through all of them, and unless it is zero every such equation is a multiple of it.",
  "all hyperplanes and proper points, dimensions, storages", "All inputs and solution sets of linear systems of any size; the tests intersect a few lines and planes.",
  ["src/pga.rs: pga_hyperplane, pga_extract_point", "src/mv_dense.rs: wedge, meet", "src/mv_sparse.rs: wedge, meet", "src/lib.rs: dual, undual"])

p("The wedge product detects linear dependence",
  "The wedge of vectors v1 ... vr is zero exactly if v1 * c1 + ... + vr * cr is zero for numbers c1 ... cr that are not all zero. If it is not zero, u.wedge(v1.wedge(...)) is zero exactly for the vectors u that are linear combinations of v1 ... vr; if moreover r = dim() every vector is one.",
  "all lists of vectors of any length, all signatures, storages and fields of characteristic other than 2", "All inputs and all coefficients of linear combinations; the tests wedge a handful of vectors.",
  ["src/mv_dense.rs: wedge", "src/mv_sparse.rs: wedge", "src/lib.rs: is_zero, naive_wedge_impl", "src/ops.rs: Mul<T>, Add"])

p("Duality is the Hodge star",
  "For multivectors of one grade, y.dual().wedge(x) is the unit pseudoscalar times the sum of the products of corresponding coefficients of y and x, and so is x.wedge(y.undual()); for arbitrary ones this sum is the top coefficient. Without null basis vectors, x.dual() is the unit pseudoscalar times x.rev() with the basis vectors squaring to -1 flipped (flip_subspace). The unit pseudoscalar commutes with every multivector in odd dimension; in even dimension I * x = x.flip() * I. Its square is 0 if some basis vector squares to 0, otherwise (-1)^(d(d-1)/2 + number of basis vectors squaring to -1).",
  "all multivectors, signatures of any dimension, storages and coefficient rings", "All inputs in all algebras; the tests dualise a handful of blades.",
  ["src/lib.rs: dual, undual, rev, flip, flip_subspace", "src/algebra.rs: mul", "src/mv_dense.rs: wedge", "src/mv_sparse.rs: wedge"])

p("exp of rotors: cosine and sine",
  "If x * x is a number s, then x.exp() is cos t + (sin t / t) x when s = -t^2 and cosh t + (sinh t / t) x when s = t^2 (rotations and boosts), up to an explicit bound on the sum of the errors of all coefficients; in double precision, for x with coefficients adding up in size to at most 1 in dimension at most 5, this bound is 2 10^-14.",
  "all multivectors with scalar square, signatures, storages; exact arithmetic and IEEE double precision", "Real-valued functions against all inputs; the tests compare a few angles with a tolerance.",
  ["src/lib.rs: exp", "src/algebra.rs: mul", "src/ops.rs: Mul, Add"])

p("Wedges of vectors are determinants",
  "The coefficient of v1 ^ ... ^ vr at a blade of r basis vectors is the minor of the coefficients of the vectors at these basis vectors (so the wedge of dim() vectors is their determinant times the pseudoscalar); the scalar part of (u1 ^ ... ^ ur).rev() * (v1 ^ ... ^ vr) is the determinant of the products ui.vdot(vj), and mag2 of v1 ^ ... ^ vr is the Gram determinant of the vectors.",
  "all lists of vectors, signatures and storages; the first part over any ring, the others over any field with 1 + 1 not 0", "Statement about lists of vectors of any length; the tests wedge a few blades.",
  ["src/algebra.rs: wedge", "src/ops.rs: BitXor", "src/lib.rs: vdot, rev, mag2"])

p("Orthogonal transformations are sandwiches, unique up to a factor; the centre",
  "Two families of pairwise orthogonal vectors with the same non-zero squares are carried into each other, up to one common sign, by s * x * s.revm() for a product s of at most twice as many vectors; when no basis vector squares to 0, two products of invertible vectors (in odd dimension: of the same parity) give the same sandwich exactly if one is a non-zero multiple of the other. A multivector commutes with all basis vectors exactly if only its coefficients at blades made of an even number of null basis vectors, or of all basis vectors in odd dimension, are not zero; over commutative scalars it then commutes with every multivector.",
  "all families of orthogonal vectors, products of vectors, multivectors, signatures and storages; the first two over any field with 1 + 1 not 0, the centre over any ring without elements of order 2", "Existence and uniqueness statements over all frames; the tests rotate a few fixed vectors.",
  ["src/ops.rs: Mul", "src/lib.rs: revm, mag2, vdot"])

p("Integers are exact in floating point",
  "f64 (f32) holds every integer up to 2^53 (2^24), and adds, subtracts, multiplies, negates and compares them exactly as long as results stay in that range. A program of constructors, sums, differences, products, wedge and regressive products, scalings, involutions, duals, grade projections and storage conversions on such coefficients (or on Gaussian integers as Complex<f64>) therefore yields exactly the result over the integers, or the same error; programs equal over the integers give coefficients equal by ==, in whatever storages. With coefficients up to B in dimension d, products associate if 4^d * B^3 <= 2^53 and distribute over sums if 2^(d+1) * B^2 <= 2^53.",
  "all integers in range, programs, signatures, storages and hash orders whose intermediate sums stay in range", "The tests compare floats with == on a few small integers; that this is sound for all of them rests on every sum, in any order of the hash map, being exact.",
  ["src/ops.rs: Add, Sub, Mul, Mul<T>", "src/lib.rs", "src/mv_dense.rs, src/mv_sparse.rs, src/quaternion.rs", "src/coeff_storage.rs"])

p("Transforms are exact on integers",
  "Over f64 (f32): a dense multivector with integer coefficients whose absolute values add up to at most 2^53/4 (2^24/4) comes back unchanged, coefficient for coefficient, from fft and ifft. If four times the product of the two sums is at most 2^53 (2^24), the product computed through the transforms is exactly the integer product, and so equal by == to the product computed term by term; with coefficients up to B in dimension d, 4^(d+1) * B^2 <= 2^53 suffices. The same holds for Gaussian integers as complex coefficients. So are whole expressions of sums, differences, negations and products computed on transforms, if four times their weight (input: sum of absolute values; sums add, products multiply weights) and the weights of all parts stay within 2^53 (2^24).",
  "all signatures of fewer than 63 generators (null ones included), all integer multivectors in range, f64 and f32, real and complex", "The tests compare transformed products with approximate equality on a few random multivectors; that there is no rounding at all on integers in range, halvings included, is a statement about every input.",
  ["src/fftrepr/mod.rs: Mul, wmul, ifft", "src/clifft/mod.rs: clifft, iclifft", "src/mv_dense.rs: fft"])

here = os.path.dirname(os.path.abspath(__file__))
with open(os.path.join(here, "..", "properties.jsonl"), "w") as f:
    for x in P: f.write(json.dumps(x) + "\n")
print(len(P))
