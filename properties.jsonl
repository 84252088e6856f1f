{"id": "C01", "title": "declare_algebra masks describe the signature", "statement": "For every signature accepted by declare_algebra!, dim() is the number of entries, bit n of real_mask/imag_mask/proj_mask is set exactly when entry n is +/-/0, the three masks are disjoint and together fill the low dim() bits, signature()[n] is 1/-1/0 accordingly, and the macro accepts a signature exactly when no + or - follows a 0 (so the null generators occupy the top bits).", "quantifier": "every finite list of +,-,0 entries", "why_tests_cant": "There are infinitely many signatures; tests name a handful.", "anchors": ["src/algebra.rs: declare_algebra, produce_mask_*, count_items, order_check, ClBasis::signature"]}
{"id": "C02", "title": "optional algebra traits are granted exactly where they are sound", "statement": "declare_algebra! implements SplitSignature exactly for the signatures (+,-)^k, NonDegenerate exactly when no generator is null, PGAlgebra exactly for (+,...,+,0), DivisionAlgebra exactly for [-] and [-,-].", "quantifier": "every accepted signature", "why_tests_cant": "Macro pattern matching recurses over the whole token list.", "anchors": ["src/algebra.rs: impl_split_signature, impl_non_degenerate, impl_pga, impl_complex_or_quaternionic"]}
{"id": "C03", "title": "blade product signs are those of the Clifford relations", "statement": "For every algebra and every two basis blades, blade_geo_product_sign is the sign obtained by writing both blades as products of generators (highest first), concatenating, and reducing with e_i e_j = -e_j e_i and e_i e_i = signature(i); the reduced word is the blade whose index is the xor, unless the sign is Null.", "quantifier": "every signature up to 64 generators, every pair of blade indices", "why_tests_cant": "2^128 pairs of blades per algebra.", "anchors": ["src/algebra.rs: ac_product_sign, blade_geo_product_sign, ac_negated_product_sign"]}
{"id": "C04", "title": "precomputed sign table equals the computed sign", "statement": "For dimensions up to 6 the table lookup returns the same sign as the general loop for every pair of blades, and ac_negated_product_sign is always the opposite of ac_product_sign.", "quantifier": "every dimension 0..6, every pair of in-range blades; the negation claim for every dimension", "why_tests_cant": "Negation claim ranges over all dimensions.", "anchors": ["src/precomputed.rs: AC_PRODUCT_SIGNS", "src/algebra.rs: ac_product_sign, ac_negated_product_sign"]}
{"id": "C05", "title": "wedge signs are those of the exterior algebra", "statement": "blade_wedge_product_sign(a,b) is Null exactly when the blades share a generator and otherwise is the sign of sorting the concatenated generators, independent of the metric.", "quantifier": "every algebra, every pair of blade indices", "why_tests_cant": "Unbounded dimension.", "anchors": ["src/algebra.rs: blade_wedge_product_sign"]}
{"id": "C06", "title": "grade iterator enumerates exactly the blades of a grade", "statement": "grade_index_iter(k) yields every index below 2^dim with exactly k bits set, each exactly once, in strictly decreasing order, then returns None forever; it yields nothing when k > dim.", "quantifier": "every dimension up to 64 and every grade, every number of next() calls", "why_tests_cant": "The iterator is a recursive state machine with reused sub-iterators; tests run n < 16.", "anchors": ["src/index_utils.rs: GradeIter::next, GradeIter::refresh, grade_iter"]}
{"id": "C07", "title": "coefficient stores obey read-after-write", "statement": "On every storage kind, after set_by_idx(i,v) with i in range, get_by_idx(i) is v and every other coefficient is unchanged; with i out of range nothing changes; a fresh multivector reads zero everywhere; reads of in-range indices never panic.", "quantifier": "every store state, index and value", "why_tests_cant": "Unbounded histories of writes.", "anchors": ["src/coeff_storage.rs: ArrayStorage, SparseStorage", "src/quaternion.rs: QStorage"]}
{"id": "C08", "title": "reading an out-of-range coefficient yields zero", "statement": "get_by_idx(i) with i outside the algebra returns zero on every storage kind and never panics.", "quantifier": "every storage kind, every index", "why_tests_cant": "The failing index is exactly one past the end and differs per algebra.", "anchors": ["src/coeff_storage.rs: ArrayStorage::get_by_idx"]}
{"id": "C09", "title": "equality is coefficient-wise", "statement": "a == b holds exactly when get_by_idx agrees on every in-range index, for dense, sparse and quaternion storage, whatever the HashMap iteration order or stored zeros.", "quantifier": "all pairs of multivectors, all iteration orders", "why_tests_cant": "HashMap order is randomised per process.", "anchors": ["src/coeff_storage.rs: PartialEq impls", "src/lib.rs: PartialEq for MultivectorBase"]}
{"id": "C10", "title": "sparse multivectors hold only in-range non-zero entries", "statement": "After any sequence of API operations, a sparse multivector stores no zero coefficient and no out-of-range index, so coeff_count() is the number of non-zero coefficients.", "quantifier": "every finite history of API calls", "why_tests_cant": "Invariant over unbounded histories.", "anchors": ["src/coeff_storage.rs: SparseStorage", "src/mv_sparse.rs: coeff_count, filter_inplace"]}
{"id": "C11", "title": "dense and sparse results agree", "statement": "Converting to sparse or dense preserves every coefficient, round-trips, and commutes with every operation (sum, difference, negation, geometric, wedge and meet products, rev, flip, dual, grade extraction, scalings), for every HashMap iteration order.", "quantifier": "all multivectors, all storage kinds, all iteration orders", "why_tests_cant": "Iteration order is nondeterministic.", "anchors": ["src/lib.rs: to_storage_type and all MultivectorBase operations"]}
{"id": "C12", "title": "coeff_enumerate lists every non-zero coefficient once", "statement": "coeff_enumerate yields in-range indices without repetition, each paired with its current coefficient, and omits only zero coefficients; grade_enumerate does the same restricted to one grade.", "quantifier": "every multivector of every storage kind, every grade", "why_tests_cant": "Unbounded dimension and contents.", "anchors": ["src/lib.rs: coeff_enumerate, grade_enumerate", "src/coeff_storage.rs"]}
{"id": "C13", "title": "from_vector accepts exactly dim() coefficients", "statement": "from_vector returns Ok exactly when the iterator yields dim() items, and then the result has those items as its grade-1 coefficients and zero elsewhere; otherwise it returns InvalidShape. extract_vector inverts it.", "quantifier": "every algebra, every input sequence", "why_tests_cant": "Unbounded input lengths.", "anchors": ["src/lib.rs: from_vector, from_vector_ref, extract_vector"]}
{"id": "C14", "title": "from_indexed_iter: last write wins, out-of-range is an error", "statement": "from_indexed_iter returns IndexOutOfBounds exactly when some index is at least 2^dim(); otherwise every coefficient is the last value supplied for its index and zero if none.", "quantifier": "every algebra and every finite sequence of (index,value) pairs", "why_tests_cant": "Unbounded sequences.", "anchors": ["src/lib.rs: from_indexed_iter, from_indexed_iter_ref"]}
{"id": "C15", "title": "sum, difference, negation and scaling are coefficient-wise", "statement": "Every coefficient of a+b, a-b, -a, a*t, a/t is the sum, difference, negation, product, quotient of the coefficients; multivectors form an abelian group under + with zero().", "quantifier": "all multivectors over every coefficient ring", "why_tests_cant": "All inputs.", "anchors": ["src/lib.rs: add_impl, sub_impl, neg_impl", "src/ops.rs"]}
{"id": "C16", "title": "geometric product is the bilinear extension of the blade product", "statement": "Coefficient k of a*b is the sum over all pairs of blades i xor j = k of sign(i,j) a_i b_j, on every storage; it is associative, has one() as two-sided unit and distributes over sums, also for non-commutative coefficients.", "quantifier": "all multivectors, every accepted signature, every coefficient ring", "why_tests_cant": "Ring laws quantify over all triples.", "anchors": ["src/lib.rs: naive_mul_impl", "src/ops.rs: Mul"]}
{"id": "C17", "title": "basis vectors satisfy the declared relations", "statement": "basis()[i]*basis()[i] is the scalar signature()[i], and basis()[i]*basis()[j] = -(basis()[j]*basis()[i]) for i != j.", "quantifier": "every accepted signature, all i, j", "why_tests_cant": "Every dimension.", "anchors": ["src/algebra.rs: ClBasis::basis, basis_sparse, signature"]}
{"id": "C18", "title": "a blade is the product of its generators in label order", "statement": "The multivector with a single coefficient 1 at index I equals the product of the basis vectors listed in I from the highest to the lowest, and also their wedge product; the reversed label lists the same generators in increasing order and denotes the reversal.", "quantifier": "every algebra and every blade", "why_tests_cant": "Every subset of generators.", "anchors": ["src/algebra.rs: blade_label, blade_label_rev", "src/lib.rs: impl_formatting"]}
{"id": "C19", "title": "Clifford algebra universal property", "statement": "Whenever elements g_0..g_{n-1} of any associative ring satisfy the relations of the signature, sending blade I to the product of its g_i (highest first) extends to a map that turns the library's geometric product into the ring's product.", "quantifier": "every ring, every family of elements satisfying the relations, all multivectors", "why_tests_cant": "Quantifies over all target rings.", "anchors": ["src/lib.rs: naive_mul_impl"]}
{"id": "C20", "title": "wedge product is the exterior product", "statement": "a.wedge(b) has coefficient k equal to the sum over disjoint i, j with union k of sign(i,j) a_i b_j; it is associative, one() is its unit, it is the grade r+s part of the geometric product for homogeneous a and b, v.wedge(v) = 0 for every vector and homogeneous elements commute up to (-1)^(rs).", "quantifier": "all multivectors, all signatures", "why_tests_cant": "Laws over all inputs.", "anchors": ["src/lib.rs: naive_wedge_impl", "src/types.rs: WedgeProduct"]}
{"id": "C21", "title": "fast dense wedge equals the naive wedge", "statement": "For every dimension the recursive in-place wedge used from dimension 6 gives exactly the naive wedge, never indexes out of bounds, restores its left operand, and overwrites the whole destination whatever it held.", "quantifier": "every dimension, all operand arrays, all initial destinations", "why_tests_cant": "Recursion depth is unbounded.", "anchors": ["src/mv_dense.rs: wedge_impl, WedgeProduct::wedge"]}
{"id": "C22", "title": "meet is the dual of the wedge of duals", "statement": "a.meet(b) = (a.dual() ^ b.dual()).undual() for dense (both code paths) and sparse multivectors.", "quantifier": "all algebras, all multivectors", "why_tests_cant": "All inputs and both algorithm branches.", "anchors": ["src/lib.rs: naive_meet_impl", "src/mv_dense.rs: meet", "src/mv_sparse.rs: meet"]}
{"id": "C23", "title": "dual and undual are mutually inverse", "statement": "a.dual().undual() = a = a.undual().dual() for every multivector; dual never hits its unreachable branch; a.dual().dual() is a up to the sign (-1)^(k(n-k)) on grade k.", "quantifier": "all algebras, all multivectors", "why_tests_cant": "All inputs.", "anchors": ["src/lib.rs: dual, undual"]}
{"id": "C24", "title": "b.dual()*b is a pseudoscalar for every blade", "statement": "For every k-blade b, b.dual()*b and b*b.undual() are multiples of the unit pseudoscalar.", "quantifier": "every signature, every decomposable k-vector", "why_tests_cant": "The documentation claims it for any blade in any signature.", "anchors": ["src/lib.rs: dual, undual"]}
{"id": "C25", "title": "rev is the reversal anti-automorphism", "statement": "rev fixes scalars and vectors, reverses products ((ab).rev() = b.rev() a.rev()) over commutative coefficients, and is an involution.", "quantifier": "all multivectors, all signatures", "why_tests_cant": "All inputs.", "anchors": ["src/lib.rs: rev, rev_c"]}
{"id": "C26", "title": "flip and flip_subspace are automorphisms", "statement": "flip negates every generator and flip_subspace(mask) negates exactly the generators in mask: both are multiplicative, additive involutions, and flip = flip_subspace(all).", "quantifier": "all multivectors, all masks", "why_tests_cant": "All inputs.", "anchors": ["src/lib.rs: flip, flip_subspace"]}
{"id": "C27", "title": "grade extraction decomposes a multivector", "statement": "grade_extract(k) keeps exactly the coefficients of grade k, is idempotent, different grades annihilate, and the sum over all grades 0..dim is the multivector; grade_extract_as gives the same in any storage.", "quantifier": "all multivectors, all grades", "why_tests_cant": "All inputs.", "anchors": ["src/lib.rs: grade_extract, grade_extract_as", "src/mv_sparse.rs: grades_extract, retain_grades"]}
{"id": "C28", "title": "vdot and mag2 are scalar parts of products", "statement": "a.vdot(b) = (a*b).scalar_part(), a.mag2() = (a.rev()*a).scalar_part() and a.cmag2() = (a.revc()*a).scalar_part(); vsdot is the plain coefficient dot product.", "quantifier": "all multivectors, all signatures", "why_tests_cant": "All inputs.", "anchors": ["src/lib.rs: vdot, vsdot, mag2, cmag2"]}
{"id": "C29", "title": "revm normalises", "statement": "Whenever mag2 is non-zero, s.revm() equals s.rev()/s.mag2(), and the magnitude of s.revm()*s is one.", "quantifier": "all multivectors with non-zero mag2", "why_tests_cant": "The documentation claims it for every s.", "anchors": ["src/lib.rs: revm, revcm"]}
{"id": "C30", "title": "pow is the n-fold product", "statement": "a.pow(n) is the product of n copies of a (one() for n = 0), hence pow(m+n) = pow(m)*pow(n), on multivectors and on FFTRepr.", "quantifier": "all multivectors, all n", "why_tests_cant": "All n.", "anchors": ["src/lib.rs: pow", "src/fftrepr/mod.rs: pow"]}
{"id": "C31", "title": "division in Cl(0,1) and Cl(0,2) inverts multiplication", "statement": "For commutative coefficients, whenever the norm of b is non-zero, (a/b)*b = a and b/b = one(); over a formally real field this is every b other than zero, so these algebras are division rings. Complex coefficients over such a field divide likewise.", "quantifier": "all multivectors, all coefficient fields", "why_tests_cant": "All inputs.", "anchors": ["src/ops.rs: Div"]}
{"id": "C32", "title": "Quaternion satisfies Hamilton's relations", "statement": "i*i = j*j = k*k = i*j*k = -1, conj() = rev().flip(), q*conj(q) is the sum of squares; Quaternion storage behaves like the dense multivector of the same algebra.", "quantifier": "all coefficient rings, all quaternions", "why_tests_cant": "All inputs.", "anchors": ["src/quaternion.rs"]}
{"id": "C33", "title": "complexify is an invertible algebra map", "statement": "complexify turns products in Cl(p,q,s) into products in Cl(p+q,0,s) over complex coefficients, is additive, and decomplexify recovers the original multivector.", "quantifier": "all signatures, all multivectors", "why_tests_cant": "All inputs.", "anchors": ["src/complexification.rs: complexify, decomplexify"]}
{"id": "C34", "title": "padding to an even algebra is invertible and multiplicative", "statement": "Viewing a Cl(p,q,s) multivector inside the algebra with one extra generator (when p+q is odd) preserves products, and into_original recovers it; components involving the extra generator are dropped.", "quantifier": "all signatures, all multivectors", "why_tests_cant": "All inputs.", "anchors": ["src/complexification.rs: Even, into_original"]}
{"id": "C35", "title": "clifft and iclifft are mutually inverse and validate shapes", "statement": "clifft succeeds exactly on arrays of power-of-two length and returns a 2^ceil(n/2) square matrix; iclifft succeeds exactly on square power-of-two matrices; iclifft(clifft(v)) is v padded with zeros and clifft(iclifft(m)) is m; all other shapes give InvalidShape, never a panic.", "quantifier": "all arrays and matrices of all shapes", "why_tests_cant": "Recursion depth and shapes unbounded.", "anchors": ["src/clifft/mod.rs: clifft, iclifft, clifft_into, iclifft_into"]}
{"id": "C36", "title": "clifft turns the geometric product into the matrix product", "statement": "For coefficient arrays x, y of Cl(n), clifft(x).dot(clifft(y)) = clifft(x*y), clifft is additive and clifft(1) is the identity.", "quantifier": "all n, all arrays", "why_tests_cant": "Homomorphism law over all pairs.", "anchors": ["src/clifft/mod.rs: clifft, clifft_nn"]}
{"id": "C37", "title": "parity_flip, imaginary_flip and reversal act as the named involutions", "statement": "On clifft(x), parity_flip corresponds to negating odd-grade coefficients, imaginary_flip to negating coefficients with an odd number of odd-numbered generators, reversal to the reversal; imaginary_flip and reversal return InvalidShape exactly on non-square or non-power-of-two matrices.", "quantifier": "all arrays and matrices", "why_tests_cant": "Recursive block swaps.", "anchors": ["src/clifft/mod.rs: parity_flip, imaginary_flip, imaginary_flip_inplace, reversal"]}
{"id": "C38", "title": "ifft inverts fft", "statement": "a.fft().ifft() = a for every multivector of every declared algebra, and fft never panics; fft().shape() is (2^null, side, side).", "quantifier": "all signatures (odd, even, degenerate), all multivectors", "why_tests_cant": "All signatures and inputs.", "anchors": ["src/mv_dense.rs: fft", "src/fftrepr/mod.rs: ifft"]}
{"id": "C39", "title": "FFT multiplication is the geometric product", "statement": "(a.fft()*b.fft()).ifft() = a*b, and a.fft()*b.fft() = (a*b).fft(), for every algebra including odd and degenerate signatures.", "quantifier": "all signatures, all multivectors", "why_tests_cant": "The library's central promise, for all inputs.", "anchors": ["src/fftrepr/mod.rs: Mul", "src/fftrepr/wmul.rs", "src/mv_dense.rs: fft"]}
{"id": "C40", "title": "fft is linear", "statement": "fft commutes with sums, differences, negation, scaling, zero() and one(); FFTRepr::one() is a unit.", "quantifier": "all signatures, all multivectors", "why_tests_cant": "All inputs.", "anchors": ["src/fftrepr/mod.rs: Add, Sub, Neg, Mul<Complex64>, Div, Zero, One"]}
{"id": "C41", "title": "FFTRepr rev and flip match the multivector operations", "statement": "a.fft().rev() = a.rev().fft() and a.fft().flip() = a.flip().fft().", "quantifier": "all signatures, all multivectors", "why_tests_cant": "All inputs, including degenerate signatures.", "anchors": ["src/fftrepr/mod.rs: rev, flip"]}
{"id": "C42", "title": "normalised trace is the scalar part", "statement": "a.fft().ntrace() = a.scalar_part(), trace() is side times it, and a.fft().mag2() = a.mag2().", "quantifier": "all signatures, all multivectors", "why_tests_cant": "All inputs.", "anchors": ["src/fftrepr/mod.rs: trace, ntrace, mag2"]}
{"id": "C43", "title": "inv returns a two-sided inverse", "statement": "If a.fft().inv() is Some(r) then r*a.fft() = a.fft()*r = one() and a*r.ifft() = r.ifft()*a = one() in the algebra, in exact arithmetic, also for odd signatures.", "quantifier": "all non-degenerate signatures, all multivectors", "why_tests_cant": "All matrices of all sizes and pivot orders.", "anchors": ["src/fftrepr/mod.rs: inv", "src/fftrepr/matrix.rs: matrix_inv"]}
{"id": "C44", "title": "inv returns None only for singular elements", "statement": "If a has an inverse then a.fft().inv() is Some.", "quantifier": "all non-degenerate signatures, all multivectors", "why_tests_cant": "Depends on zero patterns of intermediate pivots.", "anchors": ["src/fftrepr/matrix.rs: matrix_inv"]}
{"id": "C45", "title": "FFTRepr shapes are validated", "statement": "from_array3 accepts exactly arrays of shape (2^null, side, side) and from_array2 exactly (side, side), otherwise InvalidShape; into_array3/into_array2 round-trip; every operation preserves the shape.", "quantifier": "all signatures, all shapes", "why_tests_cant": "All shapes.", "anchors": ["src/fftrepr/mod.rs: from_array3, from_array2, into_array3, into_array2"]}
{"id": "C46", "title": "half-spin representations are representations", "statement": "For even multivectors, into_half_spin_repr sends products to products in both components and one() to identities, for non-degenerate algebras; odd parts are ignored.", "quantifier": "all non-degenerate signatures, all even multivectors", "why_tests_cant": "All inputs.", "anchors": ["src/fftrepr/mod.rs: into_half_spin_repr"]}
{"id": "C47", "title": "real_fft on split signatures", "statement": "For split signatures real_fft is an algebra isomorphism onto real matrices and agrees with fft.", "quantifier": "all split signatures, all multivectors", "why_tests_cant": "All inputs.", "anchors": ["src/mv_dense.rs: real_fft", "src/clifft/mod.rs: clifft_nn"]}
{"id": "C48", "title": "pga_point and pga_extract_point round-trip", "statement": "For every point p, pga_point(p).pga_extract_point() = p.", "quantifier": "all dimensions, all points", "why_tests_cant": "The failing point is a single one.", "anchors": ["src/pga.rs: pga_point, pga_extract_point"]}
{"id": "C49", "title": "pga_translation translates points", "statement": "For every direction d of the right length and every representable point p, extracting t.rev()*P*t with t = pga_translation(d), P = pga_point(p) gives p + d; t.rev()*t = 1.", "quantifier": "all dimensions, directions, points", "why_tests_cant": "All inputs.", "anchors": ["src/pga.rs: pga_translation"]}
{"id": "C50", "title": "PGA constructors reject wrong lengths", "statement": "pga_point, pga_hyperplane and pga_translation return an error unless given exactly the space dimension (resp. dimension + 1 for hyperplanes) of numbers.", "quantifier": "all input lengths", "why_tests_cant": "All lengths.", "anchors": ["src/pga.rs"]}
{"id": "C51", "title": "PGA incidence", "statement": "A point lies on a hyperplane (its equation vanishes) exactly when plane.wedge(point) is zero.", "quantifier": "all dimensions, planes, points with non-zero normalisers", "why_tests_cant": "All inputs.", "anchors": ["src/pga.rs", "src/types.rs: WedgeProduct"]}
{"id": "C52", "title": "every signature accepted by declare_algebra! is usable", "statement": "For every accepted signature, zero(), one(), basis() and from_indexed_iter work on sparse multivectors without overflow or lost coefficients.", "quantifier": "every accepted signature", "why_tests_cant": "The size check admits 64 generators.", "anchors": ["src/algebra.rs: const_assert in impl_algebra_base", "src/coeff_storage.rs: SparseStorage::new", "src/lib.rs: from_indexed_iter"]}
{"id": "C53", "title": "nested multivectors are lawful coefficients", "statement": "The dense multivectors over a coefficient ring satisfy every ring law the library assumes of its coefficients, so multivectors over multivectors obey all the product theorems.", "quantifier": "every coefficient ring, every algebra, every nesting depth", "why_tests_cant": "Unbounded nesting.", "anchors": ["src/types.rs: Ring", "src/lib.rs: Zero, One", "src/ops.rs"]}
{"id": "C54", "title": "exp evaluates the truncated series", "statement": "In exact arithmetic, exp computes (sum_{k<=18} (x/m)^k/k!)^m with m the rounded-up scale, terminates after 18 steps, and exp(zero) = one.", "quantifier": "all multivectors", "why_tests_cant": "The loop bound depends only on a float comparison.", "anchors": ["src/lib.rs: exp", "src/fftrepr/mod.rs: exp"]}
{"id": "C55", "title": "display denotes the value", "statement": "The printed form lists exactly the non-zero terms, coefficient then label, joined by ' + ' (or a single zero); in alternate form each coefficient and reversed label denote the same term as in the normal form.", "quantifier": "all multivectors", "why_tests_cant": "All inputs.", "anchors": ["src/lib.rs: impl_formatting"]}
{"id": "C56", "title": "approx_eq and is_zero", "statement": "is_zero() holds exactly when all coefficients are zero; approx_eq(a,b,eps) with eps > 0 holds exactly when every coefficient of a-b has norm below eps, identically for every storage kind.", "quantifier": "all multivectors, all precisions", "why_tests_cant": "All inputs.", "anchors": ["src/lib.rs: approx_eq, is_zero"]}
{"id": "C57", "title": "FFTRepr values form a ring", "statement": "The FFTRepr values of one algebra's shape, also those that are not transforms of a multivector, form a ring under +, -, neg, *, zero() and one(), and is_zero() holds for zero() only. Scaling by a real is scaling by the complex number without imaginary part, and division by a non-zero real or complex number undoes scaling.", "quantifier": "all signatures, all arrays of the right shape", "why_tests_cant": "All inputs.", "anchors": ["src/fftrepr/mod.rs: Add, Sub, Neg, Mul, Zero, One", "src/fftrepr/wmul.rs"]}
{"id": "C58", "title": "exp is exact where the series is finite", "statement": "If x*x = 0 then exp(x) = 1 + x exactly (so that pga_translation is the exponential of its bivector), and x always commutes with exp(x).", "quantifier": "all signatures, multivectors and storages", "why_tests_cant": "All inputs.", "anchors": ["src/lib.rs: exp"]}
{"id": "C59", "title": "quaternion norm", "statement": "norm() of a quaternion is the square root of q*conj(q) and is multiplicative.", "quantifier": "all quaternions", "why_tests_cant": "All inputs.", "anchors": ["src/quaternion.rs: Norm for Quaternion"]}
{"id": "C60", "title": "floats: no panic, always a valid result", "statement": "With any coefficients, NaN and infinities included, no program over the constructors, arithmetic, products, gradings, conversions, divisions and powers panics; it returns a valid multivector, or an error for an ill-sized literal only. Reading, printing and comparing never panic either.", "quantifier": "all programs over the API, all coefficients of a type with rounded arithmetic (f32, f64)", "why_tests_cant": "Unbounded programs; NaN and infinities at any place.", "anchors": ["src/lib.rs", "src/ops.rs", "src/coeff_storage.rs", "src/types.rs: Ring"]}
{"id": "C61", "title": "floats: linear programs are storage independent", "statement": "Programs that only move, negate, add and subtract coefficients, or scale by finite numbers, give bit-identical coefficients on every storage; negation, reversal and duality are exactly undone.", "quantifier": "all linear programs, all coefficients (f32, f64)", "why_tests_cant": "Unbounded programs and inputs.", "anchors": ["src/ops.rs", "src/coeff_storage.rs", "src/lib.rs: rev, flip, dual"]}
{"id": "C62", "title": "floats: the order of roundings in a product is fixed", "statement": "Coefficient k of a product is accumulated from zero, one rounded product x_i*y_(i xor k) at a time, in the order in which the left operand enumerates its coefficients (increasing index for dense and quaternion storage), with no other rounding.", "quantifier": "all multivectors over f32/f64, all storages", "why_tests_cant": "The order is visible only in the last bits.", "anchors": ["src/ops.rs: Mul", "src/mv_sparse.rs: wedge"]}
{"id": "C63", "title": "floats: equal arguments give equal products", "statement": "If x == x' and y == y' then x*y == x'*y', also across storages.", "quantifier": "all multivectors over f32/f64", "why_tests_cant": "Hash order and zero-skipping show only for special values.", "anchors": ["src/ops.rs: Mul, Mul<T>", "src/coeff_storage.rs: SparseStorage::coeff_enumerate"]}
{"id": "C64", "title": "programs in the transform domain", "statement": "Any program over zero, one, basis, +, -, negation, product, scaling, flip, rev and powers computed on FFTRepr values never panics and gives the transform of what the same program gives on dense multivectors; ifft returns the latter.", "quantifier": "all programs, all signatures below 63 generators, all literals", "why_tests_cant": "Unbounded programs and inputs.", "anchors": ["src/fftrepr/mod.rs", "src/mv_dense.rs: fft", "src/fftrepr/mod.rs: ifft"]}
{"id": "C65", "title": "FFTRepr basis and comparison", "statement": "FFTRepr::basis() lists the transforms of the basis vectors in order; == holds exactly when all entries are equal and approx_eq exactly when the norm of every difference of entries is below the precision.", "quantifier": "all signatures, all representations", "why_tests_cant": "All inputs.", "anchors": ["src/fftrepr/mod.rs: basis, approx_eq, PartialEq"]}
{"id": "C66", "title": "symmetries of exp", "statement": "exp(x.rev()) = exp(x).rev() and exp(x.flip()) = exp(x).flip(), and exp depends on the coefficients only: the same coefficients in dense, sparse or quaternion storage give the same exponential.", "quantifier": "all signatures, multivectors and storages", "why_tests_cant": "All inputs; the scale is found by iterating in storage order.", "anchors": ["src/lib.rs: exp", "src/lib.rs: rev, flip"]}
{"id": "C67", "title": "floats: transforms and FFTRepr arithmetic never panic", "statement": "clifft and iclifft succeed on every array of the right length or shape, whatever its entries, and return InvalidShape on all others; fft, ifft and every operation of FFTRepr, and all programs over them, keep the shape and never panic.", "quantifier": "all arrays, multivectors and representations over f32/f64, NaN and infinities included", "why_tests_cant": "All inputs, unbounded programs.", "anchors": ["src/fftrepr/mod.rs", "src/clifft/mod.rs: clifft, iclifft", "src/mv_dense.rs: fft"]}
{"id": "C68", "title": "floats: exp terminates", "statement": "exp of a multivector or of an FFTRepr terminates without panicking after at most 18 terms of its series, whatever the coefficients, NaN and infinities included, and returns a valid value.", "quantifier": "all multivectors and representations with rounded coefficients", "why_tests_cant": "All inputs; a float comparison decides termination.", "anchors": ["src/lib.rs: exp", "src/fftrepr/mod.rs: exp"]}
{"id": "C69", "title": "floats: rounding error of one operation", "statement": "Sums, differences, scalar multiples and quotients round each coefficient once. A coefficient of a product (geometric, wedge or regressive) that is finite is within ((1+u)^(t+1)-1) * sum |x_j||y_(i xor j)| plus underflows of the exact one, t the number of coefficients stored on the left (2^dim for the regressive product and the dense wedge); for the dense wedge from 6 dimensions on t may be replaced by the dimension. So the same product in two storages agrees up to twice that.", "quantifier": "all multivectors over f32/f64 and storages, all signatures", "why_tests_cant": "All inputs; the error grows with dimension and magnitudes, a tolerance in a test hides it.", "anchors": ["src/ops.rs: Mul, Add, Sub, Mul<T>, Div<T>", "src/mv_sparse.rs: wedge, meet", "src/mv_dense.rs: wedge, meet"]}
{"id": "C70", "title": "floats: rounding error of programs", "statement": "A program over constructors, +, -, the three products, positive powers, scaling, involutions, duals, gradings and conversions fails in floating point exactly when it fails in exact arithmetic; otherwise, if no step overflows, each coefficient is within an explicit bound, computed from the exact intermediate sizes, of the exact result. Two programs with the same exact value agree up to the sum of their bounds.", "quantifier": "all programs of the fragment, all f32/f64 inputs, all storages", "why_tests_cant": "Unbounded programs; errors propagate.", "anchors": ["src/ops.rs", "src/lib.rs", "src/coeff_storage.rs"]}
{"id": "C71", "title": "floats: rounding error of the transforms", "statement": "fft followed by ifft gives every coefficient back up to ((1+u)^(4m+8)-1) * (sum of the sizes of the coefficients) plus underflows, 2^m the side of the matrices, provided the coefficients that come back are finite. Each entry of clifft, and each coefficient of iclifft, is within a bound of the same kind of what exact arithmetic gives.", "quantifier": "all multivectors over f32/f64 and their complex numbers, all signatures, all array lengths", "why_tests_cant": "All inputs; tests compare a few transforms with a tolerance.", "anchors": ["src/clifft/mod.rs: clifft, iclifft", "src/mv_dense.rs: fft", "src/fftrepr/mod.rs: ifft"]}
{"id": "C72", "title": "floats: rounding error of products through the transforms", "statement": "The product of two representations, transformed back, is within ((1+u)^(2^m+5m+s+14)-1) P Q plus underflows of the exact geometric product, P and Q the sums of the sizes of the coefficients, 2^m the side of the matrices, s the number of null generators, provided the coefficients that come back are finite. So it agrees with the product term by term up to the sum of the two bounds.", "quantifier": "all multivectors over f32/f64 and their complex numbers, all signatures", "why_tests_cant": "All inputs; the error grows with dimension and magnitudes.", "anchors": ["src/fftrepr/mod.rs: Mul, wmul, ifft", "src/clifft/mod.rs", "src/mv_dense.rs: fft"]}
{"id": "C73", "title": "single precision multivectors in the double precision transforms", "statement": "Multivectors over f32 and Complex32 are transformed in double precision. The conversion to f64 is exact and undone by the conversion back. fft followed by ifft gives single precision coefficients, each within the double precision bound and one rounding of the old one, and exactly the old one if it is at least 2^26 times the double precision bound. The product of two representations, transformed back, is within the double precision bound and one rounding of the exact product.", "quantifier": "all multivectors over f32 and Complex32, all signatures", "why_tests_cant": "All inputs; exactness of the round trip depends on the rounding of every intermediate step.", "anchors": ["src/types.rs: FromComplex, IntoComplex64", "src/mv_dense.rs: fft", "src/fftrepr/mod.rs: ifft, Mul"]}
{"id": "C74", "title": "exp is the exponential up to an explicit error", "statement": "In exact arithmetic exp(x) differs from every long partial sum 1 + x + x^2/2! + ... + x^K/K! of the exponential series by at most c r^19/19! 3^(n c) in total over the coefficients, where c is the scale exp computes and r = ||x||/c <= n with ||x|| the sum of the sizes of the coefficients; more precisely by at most what scaling and truncating loses on the number ||x||.", "quantifier": "all multivectors with real or complex coefficients, all signatures and storages, all K >= 18 c", "why_tests_cant": "All inputs; a limit over all partial sums of a series.", "anchors": ["src/lib.rs: exp"]}
{"id": "C75", "title": "exp(x) exp(-x) = 1 and exponentials of bivectors are rotors, up to an explicit error", "statement": "In exact arithmetic exp(x) exp(-x) differs from 1 by at most (1+e)^c - 1, where e is the sum of the terms 19 to 36 of the exponential series of 2||x||/c. If rev(x) = -x the same holds of R rev(R) with R = exp(x).", "quantifier": "all multivectors with real or complex coefficients, all signatures and storages", "why_tests_cant": "All inputs; tests check a few rotors with a tolerance.", "anchors": ["src/lib.rs: exp, rev", "src/ops.rs: Mul, Neg"]}
{"id": "C76", "title": "exp in the transform domain is the exponential up to an explicit error", "statement": "In exact arithmetic fft, exp of the representation and ifft together give a multivector that differs from every long partial sum of the exponential series by at most c r^19/19! 3^(n c), where c is the scale exp computes for the representation and r = ||x||/c <= n. So it agrees with exp of the multivector up to the sum of both errors, though the scales may differ.", "quantifier": "all dense multivectors with real or complex coefficients, all signatures below 63 generators", "why_tests_cant": "All inputs; two different computations of a limit.", "anchors": ["src/fftrepr/mod.rs: exp, ifft", "src/mv_dense.rs: fft", "src/lib.rs: exp"]}
{"id": "C77", "title": "exp(x) exp(y) = exp(x + y) for commuting x and y, up to an explicit error", "statement": "In exact arithmetic, if x y = y x then exp(x) exp(y) differs from exp(x + y), in total over the coefficients, by at most (b(x) + b(y)) 3^k + b(x + y), where b is the error bound of a single exponential and k >= ||x||, ||y||.", "quantifier": "all commuting pairs of multivectors with real or complex coefficients, all signatures and storages", "why_tests_cant": "All inputs; the three exponentials use different scales, so no identity holds exactly.", "anchors": ["src/lib.rs: exp", "src/ops.rs: Mul, Add"]}
{"id": "C78", "title": "Results in floating point stay finite when the exact ones are moderate", "statement": "In f64 (f32) an addition, subtraction, product or quotient of numbers whose exact result is below 2^1023 (2^127) is a number. A coefficient of a product of multivectors (also wedge and regressive) is a number if the sum of |x_j| |y_(i xor j)| and the rounding bound together stay below that, whatever the order of summation; it suffices that the coefficients are at most 2^a and 2^b with a + b + dim <= 1020. A program whose exact intermediate results and error bounds stay below the limit never meets an infinity or a NaN, and its result is within the error bound of the exact one.", "quantifier": "all inputs, programs, signatures and storages, f64 and f32", "why_tests_cant": "No test approaches the limits; the condition is about every intermediate sum.", "anchors": ["src/algebra.rs: mul", "src/ops.rs: Add, Sub, Mul, Div", "src/types.rs"]}
{"id": "C79", "title": "floats: exp is the exponential up to an explicit error", "statement": "exp of a multivector over f64 whose coefficients are finite differs from every long partial sum of the exponential series, in total over the coefficients, by at most a bound computed by running the same procedure on the number r >= sum |x_i| with every rounding taken upwards; as long as that stays below the overflow limit the result has no infinity or NaN. If r <= 1, exp does not scale and the dimension is at most 5, the error is below 2 10^-14.", "quantifier": "all multivectors over f64, all signatures and storages, all K >= 18 c", "why_tests_cant": "All inputs; compares rounded arithmetic with a limit.", "anchors": ["src/lib.rs: exp, pow", "src/ops.rs: Mul, Add, Mul<T>"]}
{"id": "C80", "title": "Complex numbers and quaternions are a division ring as coefficients", "statement": "Multivectors of a division algebra (signature [-] or [-,-]) over a formally real field, dense or of type Quaternion, form a division ring under the operators: every call returns and (a / b) * b = a for every b other than zero; with one generator it is a field. So theorems about coefficients in a division ring cover Multivector<Quaternion<T>, A> and matrices of quaternions. Nested once more (quaternions with complex or quaternion coefficients) they have zero divisors.", "quantifier": "all coefficient values, all build modes", "why_tests_cant": "All inputs; the tests invert two matrices of quaternions.", "anchors": ["src/ops.rs: Div", "src/quaternion.rs: Quaternion", "src/types.rs: DivRing", "src/fftrepr/matrix.rs: matrix_inv"]}
{"id": "C81", "title": "The grades of a product", "statement": "The product of a multivector of grade r and one of grade s in dimension d has only the grades r + s - 2t with t <= r, t <= s, t >= r + s - d; the product of two vectors is its scalar part plus their wedge.", "quantifier": "all inputs, signatures, storages and coefficient rings", "why_tests_cant": "All inputs of all grades in all algebras; no test looks at the grades of a product.", "anchors": ["src/algebra.rs: mul", "src/ops.rs: Mul", "src/lib.rs: grade_extract"]}
{"id": "C82", "title": "Transformations by versors: s * x * s.revm()", "statement": "If s is a product of vectors with mag2 other than zero, then x -> s * x * s.revm() keeps each grade, commutes with grade_extract, rev and flip, keeps scalar part and mag2, is an automorphism for *, + and wedge, and for the regressive product up to a sign, which is -1 exactly for an odd number of vectors in an even dimension (the same sign it gives the unit pseudoscalar); also in degenerate metrics such as PGA. A vector keeps itself and negates the vectors orthogonal to it. The sandwich by s * t is the composition and mag2(s * t) = mag2(s) mag2(t).", "quantifier": "all versors and multivectors, signatures, storages, fields of characteristic other than 2", "why_tests_cant": "All inputs; the tests transform a handful of points and planes.", "anchors": ["src/lib.rs: revm, rev, mag2, grade_extract, flip", "src/algebra.rs: mul", "src/mv_dense.rs: wedge, meet", "src/mv_sparse.rs: wedge, meet"]}
{"id": "C83", "title": "PGA: products of hyperplanes are rigid motions", "statement": "For every proper point x (grade n, coefficient of e1...en not zero; the origin is one, pga_point builds one) with coordinates p and every product s of vectors with mag2 other than zero, s * x * s.revm() is a proper point. If s is the product of the hyperplanes h1 ... hr its coordinates are p reflected in hr, then in h(r-1), ..., then in h1. Distances between points are kept. h.wedge(x) vanishes exactly if p satisfies the equation of h, also after h and x have been transformed by the same s. Translating x by d gives p + d, for the origin too.", "quantifier": "all points, hyperplanes, products of any number of vectors, dimensions, storages", "why_tests_cant": "All inputs and products of any length; the tests move a few points in two and three dimensions.", "anchors": ["src/pga.rs: pga_point, pga_hyperplane, pga_translation, pga_extract_point", "src/lib.rs: revm, rev", "src/algebra.rs: mul", "src/mv_dense.rs: wedge", "src/mv_sparse.rs: wedge"]}
{"id": "C84", "title": "PGA: intersections of hyperplanes and joins of points", "statement": "In n dimensions the outer product of n hyperplanes has grade n. If it is a proper point, pga_extract_point gives the one point that satisfies all n equations; if it is neither a proper point nor zero, no point satisfies them all (parallels). The regressive product (meet) of n proper points is a vector; its coefficients are the equation of a hyperplane through all of them, and unless it is zero every such equation is a multiple of it.", "quantifier": "all hyperplanes and proper points, dimensions, storages", "why_tests_cant": "All inputs and solution sets of linear systems of any size; the tests intersect a few lines and planes.", "anchors": ["src/pga.rs: pga_hyperplane, pga_extract_point", "src/mv_dense.rs: wedge, meet", "src/mv_sparse.rs: wedge, meet", "src/lib.rs: dual, undual"]}
{"id": "C85", "title": "The wedge product detects linear dependence", "statement": "The wedge of vectors v1 ... vr is zero exactly if v1 * c1 + ... + vr * cr is zero for numbers c1 ... cr that are not all zero. If it is not zero, u.wedge(v1.wedge(...)) is zero exactly for the vectors u that are linear combinations of v1 ... vr; if moreover r = dim() every vector is one.", "quantifier": "all lists of vectors of any length, all signatures, storages and fields of characteristic other than 2", "why_tests_cant": "All inputs and all coefficients of linear combinations; the tests wedge a handful of vectors.", "anchors": ["src/mv_dense.rs: wedge", "src/mv_sparse.rs: wedge", "src/lib.rs: is_zero, naive_wedge_impl", "src/ops.rs: Mul<T>, Add"]}
{"id": "C86", "title": "Duality is the Hodge star", "statement": "For multivectors of one grade, y.dual().wedge(x) is the unit pseudoscalar times the sum of the products of corresponding coefficients of y and x, and so is x.wedge(y.undual()); for arbitrary ones this sum is the top coefficient. Without null basis vectors, x.dual() is the unit pseudoscalar times x.rev() with the basis vectors squaring to -1 flipped (flip_subspace). The unit pseudoscalar commutes with every multivector in odd dimension; in even dimension I * x = x.flip() * I. Its square is 0 if some basis vector squares to 0, otherwise (-1)^(d(d-1)/2 + number of basis vectors squaring to -1).", "quantifier": "all multivectors, signatures of any dimension, storages and coefficient rings", "why_tests_cant": "All inputs in all algebras; the tests dualise a handful of blades.", "anchors": ["src/lib.rs: dual, undual, rev, flip, flip_subspace", "src/algebra.rs: mul", "src/mv_dense.rs: wedge", "src/mv_sparse.rs: wedge"]}
{"id": "C87", "title": "exp of rotors: cosine and sine", "statement": "If x * x is a number s, then x.exp() is cos t + (sin t / t) x when s = -t^2 and cosh t + (sinh t / t) x when s = t^2 (rotations and boosts), up to an explicit bound on the sum of the errors of all coefficients; in double precision, for x with coefficients adding up in size to at most 1 in dimension at most 5, this bound is 2 10^-14.", "quantifier": "all multivectors with scalar square, signatures, storages; exact arithmetic and IEEE double precision", "why_tests_cant": "Real-valued functions against all inputs; the tests compare a few angles with a tolerance.", "anchors": ["src/lib.rs: exp", "src/algebra.rs: mul", "src/ops.rs: Mul, Add"]}
{"id": "C88", "title": "Wedges of vectors are determinants", "statement": "The coefficient of v1 ^ ... ^ vr at a blade of r basis vectors is the minor of the coefficients of the vectors at these basis vectors (so the wedge of dim() vectors is their determinant times the pseudoscalar); the scalar part of (u1 ^ ... ^ ur).rev() * (v1 ^ ... ^ vr) is the determinant of the products ui.vdot(vj), and mag2 of v1 ^ ... ^ vr is the Gram determinant of the vectors.", "quantifier": "all lists of vectors, signatures and storages; the first part over any ring, the others over any field with 1 + 1 not 0", "why_tests_cant": "Statement about lists of vectors of any length; the tests wedge a few blades.", "anchors": ["src/algebra.rs: wedge", "src/ops.rs: BitXor", "src/lib.rs: vdot, rev, mag2"]}
{"id": "C89", "title": "Orthogonal transformations are sandwiches, unique up to a factor; the centre", "statement": "Two families of pairwise orthogonal vectors with the same non-zero squares are carried into each other, up to one common sign, by s * x * s.revm() for a product s of at most twice as many vectors; when no basis vector squares to 0, two products of invertible vectors (in odd dimension: of the same parity) give the same sandwich exactly if one is a non-zero multiple of the other. A multivector commutes with all basis vectors exactly if only its coefficients at blades made of an even number of null basis vectors, or of all basis vectors in odd dimension, are not zero; over commutative scalars it then commutes with every multivector.", "quantifier": "all families of orthogonal vectors, products of vectors, multivectors, signatures and storages; the first two over any field with 1 + 1 not 0, the centre over any ring without elements of order 2", "why_tests_cant": "Existence and uniqueness statements over all frames; the tests rotate a few fixed vectors.", "anchors": ["src/ops.rs: Mul", "src/lib.rs: revm, mag2, vdot"]}
{"id": "C90", "title": "Integers are exact in floating point", "statement": "f64 (f32) holds every integer up to 2^53 (2^24), and adds, subtracts, multiplies, negates and compares them exactly as long as results stay in that range. A program of constructors, sums, differences, products, wedge and regressive products, scalings, involutions, duals, grade projections and storage conversions on such coefficients (or on Gaussian integers as Complex<f64>) therefore yields exactly the result over the integers, or the same error; programs equal over the integers give coefficients equal by ==, in whatever storages. With coefficients up to B in dimension d, products associate if 4^d * B^3 <= 2^53 and distribute over sums if 2^(d+1) * B^2 <= 2^53.", "quantifier": "all integers in range, programs, signatures, storages and hash orders whose intermediate sums stay in range", "why_tests_cant": "The tests compare floats with == on a few small integers; that this is sound for all of them rests on every sum, in any order of the hash map, being exact.", "anchors": ["src/ops.rs: Add, Sub, Mul, Mul<T>", "src/lib.rs", "src/mv_dense.rs, src/mv_sparse.rs, src/quaternion.rs", "src/coeff_storage.rs"]}
{"id": "C91", "title": "Transforms are exact on integers", "statement": "Over f64 (f32): a dense multivector with integer coefficients whose absolute values add up to at most 2^53/4 (2^24/4) comes back unchanged, coefficient for coefficient, from fft and ifft. If four times the product of the two sums is at most 2^53 (2^24), the product computed through the transforms is exactly the integer product, and so equal by == to the product computed term by term; with coefficients up to B in dimension d, 4^(d+1) * B^2 <= 2^53 suffices. The same holds for Gaussian integers as complex coefficients. So are whole expressions of sums, differences, negations and products computed on transforms, if four times their weight (input: sum of absolute values; sums add, products multiply weights) and the weights of all parts stay within 2^53 (2^24).", "quantifier": "all signatures of fewer than 63 generators (null ones included), all integer multivectors in range, f64 and f32, real and complex", "why_tests_cant": "The tests compare transformed products with approximate equality on a few random multivectors; that there is no rounding at all on integers in range, halvings included, is a statement about every input.", "anchors": ["src/fftrepr/mod.rs: Mul, wmul, ifft", "src/clifft/mod.rs: clifft, iclifft", "src/mv_dense.rs: fft"]}
