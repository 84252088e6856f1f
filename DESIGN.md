# A machine-checked model of tclifford in Coq 8.16.1

## 1. Shape of the development

`/verif/rocq/theories/`, logical name `Verif`, standard library only.

| layer | files | content |
|---|---|---|
| base | `Base.v`, `RingDef.v` | the `res` monad (Ok / Err / Panic), `usize` helpers, `count_ones`; the coefficient interface (`RingOps`: operations without laws, `NumLaws` (floats), `RingLaws`, `CommLaws`, `FieldLaws`) |
| examples | `Ex*.v` | concrete instances used by the `Example` beside each theorem |
| model | `M_*.v` | one file per Rust module, function by function, each definition citing file and lines |
| spec | `Spec*.v` | small independent specifications (words in generators, bilinear extension, exterior product, matrix product, ...), no reference to model functions |
| proofs | `P_*.v` | lemmas |
| properties | `Props_*.v` | only the property theorems (each closed by `exact`), non-vacuity `Example`s and `Print Assumptions` |

Modelling conventions

* `usize` indices are `N`; list lengths and dimensions are `nat`.
  Shifts by a runtime amount go through `shl`, which is explicit about the
  64-bit word: a shift by 64 or more panics with overflow checks on (debug
  profile) and wraps the shift amount otherwise (release profile). The flag
  `checks` is a parameter of every theorem, so theorems hold for both profiles.
* `Result` is `Ok`/`Err e`, a panic (`unwrap` on an error, index out of bounds,
  `unreachable!`, slice out of range, debug assertion) is the third value `Panic`.
* `&mut` becomes state passing. Scratch tricks (operand negated in place and
  restored, destination used as temporary) are kept.
* Coefficients: any type with `RingOps`. Theorems that need ring laws assume
  `RingLaws` (associative, unital, not necessarily commutative), `CommLaws`,
  or `FieldLaws`. Equality is Leibniz; `==` is a boolean that reflects it.
  These theorems talk about exact coefficient arithmetic (integers, wrapping
  integers, rationals, complex pairs over these, nested multivectors, ...).
  Theorems with `NumLaws` only (storage behaviour, totality of programs, linear
  programs, order of roundings: C07, C08, C10, C12-C14, C56, C60-C63, C67-C73, ...) hold for
  IEEE floats, NaN and infinities included; `M_Float.v` defines binary32 and
  binary64 from the standard library's `SpecFloat` and `P_F64.v` proves `NumLaws`
  for them. There, and only there, `==` need not be reflexive.
* `CoeffStorage` is a record of operations `Storage T S` with three instances
  (dense array, sparse map, quaternion array). `MultivectorBase` functions are
  written once, generically, as in the source; theorems are proved once from
  `StorageLaws` and instantiated.
* `HashMap` is an association list without duplicate keys; iteration order is an
  arbitrary permutation oracle, a parameter of every theorem about it.
* `ndarray` arrays are lists with explicit shapes (logical element order, no strides).

## 2. Trusted base

* Coq's kernel (8.16.1), `vm_compute` included (used for the C04 table and for examples).
* `Print Assumptions` under every property theorem prints *Closed under the global
  context* (no axioms, no section variables), with three exceptions: `C87_exact`, `C87_f64` and
  `C87_small` are stated with the real numbers of the standard library and depend on its
  axioms `ClassicalDedekindReals.sig_not_dec`, `ClassicalDedekindReals.sig_forall_dec` and
  `FunctionalExtensionality.functional_extensionality_dep`. (The build reports seven `Coq.ssr.ssrunder`
  constants as library axioms; they come with `Require`-ing the standard library and no
  theorem depends on them.)
* The reading of the Rust code: the definitions in `M_*.v`, each citing its lines, against
  which the theorems are proved. `tools/coverage.py` lists which functions of `/repo/src`
  no definition cites.
* The vocabulary of the statements: `Spec*.v`, and `declared`, `valid`, `supports` in `Spec.v`.

Modelled: every function of `algebra.rs`, `index_utils.rs`, `precomputed.rs` (the table is
copied), `coeff_storage.rs`, `lib.rs`, `ops.rs`, `mv_dense.rs`, `mv_sparse.rs`,
`complexification.rs`, `quaternion.rs`, `clifft/mod.rs`, `fftrepr/*.rs`, `pga.rs` and
`types.rs`, except for the list below. `declare_algebra!` is the function
`declare_algebra` from a token list and names to an optional algebra (the `const_assert`s
become `None`).

Not modelled (no definition):

* `Clone`, `Debug`, `view`, `array_view*`, `coeff_array_view`, `from_array3_unchecked`: the
  identity on the model's values; aliasing is therefore out of scope.
* `from_vector_ref`, `from_indexed_iter_ref`, `to_dense`, `to_sparse`, `filtered`: one-line
  wrappers of `from_vector`, `from_indexed_iter`, `to_storage_type`, `filter_inplace`.
* `ClBasis::signaturef` (the float version of `signature`), `ref_add` ... `ref_neg` of
  `types.rs` (by-reference variants of the operators; the model uses the operators),
  `FFTRepr`'s `Display` (it prints an ndarray).
* Memory: allocation failure, time and space. A dense multivector of 40 generators is a
  value in the model.
* The conversions `IntoComplex64` / `FromComplex` are those of f64, Complex64 (M_CliFFT.v), f32 and
  Complex32 (M_Conv32.v). Exact theorems take any pair of functions with the laws
  of `ConvLaws` (Spec_FFT.v).
* The theorems about the values of the inverse and of PGA take exact coefficients. Rounding
  errors are bounded for single operations, programs, the transforms, products through them
  and the exponential (C69-C72, C79, C87), not in those. `ndarray`'s `dot` sums in the order of
  the index with separate roundings in the model; blocked kernels and fused multiply-add are
  not modelled.
* `HashMap`: an association list with an arbitrary iteration-order oracle; its internals
  and its hasher are trusted. Simplification: the order is a function of the map's seed and of
  its list of entries, and all maps made by one call share the seed `hm_seed` (real maps draw
  a seed each and their layout depends on deletions too). The theorems hold for every such
  function and use only that its result is a permutation of the entries, so nothing in them
  depends on two maps having the same order. `ndarray`: lists with shapes; its slicing, `dot` and
  assignment functions are trusted to do what the model's few lines say.

## 3. Per-property plan

Signatures and signs: C01 C02 (functions over token lists, induction),
C03 C05 (sign = parity of a bilinear form over xor; spec = relations of the Clifford
algebra on words of generators), C04 (finite table: `vm_compute` over the whole 7-level
table, lifted), C06 (iterator state machine, invariant = remaining output).

Storage: C07 C08 C09 C12 (instance laws), C10 (invariant over op histories),
C11 (refinement: every generic operation is characterised by its coefficients; programs
are an inductive type with an evaluator per storage).

Algebra: C13-C20, C22-C29, C31-C32, C53 (coefficient characterisation of each
loop by one fold lemma, then algebra over finite sums indexed by blades).
C21 (induction over halves, state passing). C30 (strong induction on n).

FFT: C33-C47, C57 (block recursion: function-level transform by induction on the
number of generator pairs; phase-change lemma for complexification; induction on
the null generators for `wmul`; Gauss elimination invariant "work matrix = R.[A|I],
R invertible"). C44 is refuted and proved for side at most two,
and for every side when the diagonal outweighs its columns: the pivot is then always the diagonal
entry and elimination keeps the dominance (`P_Gauss3`); the columns of the transform of x sum to at
most the coefficients of x (`P_Gauss4`), so a dominating scalar part gives a dominating diagonal.

Exponential: C54 (the loop computes the truncated series; the comparison with epsilon
enters through one law), C58 (nilpotent arguments, commutation). C59: quaternion norm.

PGA: C48-C51 (from the product and dual characterisations, exact field with a
square-root oracle; the origin, where the code divides by zero, under IEEE rules for
the operations it reaches).

C52 dimension-64 behaviour (explicit 64-bit shifts, both build profiles).
C55 display strings (strings are lists of characters; coefficient printing is abstract).
C56 approximate equality.

Floats: C60 (structural induction over programs with "no panic, valid result" as the
invariant), C61 (the refinement of C11 restricted to programs that need no ring law),
C62 (the product loop equals an explicit left fold per coefficient), C63 (refuted by
computation in binary64; partial from C62).  C64 (programs on FFTRepr values: induction on
the program with the homomorphism theorems of C36-C40), C65 (basis and comparison of
representations).  C66 (symmetries of exp: the scale is a maximum over all blades, which does
not depend on the order of enumeration nor on signs).  C67 (shape invariants of the transform
and of every FFTRepr operation, under `NumLaws` only), C68 (the coefficients of the exp loop do
not depend on the input; binary64 computation of the 18th).
C69, C70: `Spec_Round.v` states the standard model of rounding (`RoundLaws`) and what number a
float stands for; `P_Round.v`, `P_Round2.v` prove it of binary32 and binary64 from the definition of
`SpecFloat` rounding. Then induction over the terms of a product (C62 fixes the order), and
induction over programs: a program on floats against the same program on rational numbers. The
dense wedge from six dimensions on splits its arguments (`fwp` in `P_RWedge.v`, no ring laws): induction
over the levels, an error that grows with the depth (`tree_error`). Subtraction itself (`Props_SubRnd.v`,
also for C78) is addition of the negated number, by C60.
C71: the transforms as functions of coefficients without ring laws, induction over the levels of the
recursion with one error term per level, finiteness carried back from the result.
C72: rows of a transform are bounded by the sum of the sizes of the coefficients (each coefficient occurs
once in each row), so the matrix product of two transforms does not lose a factor of the dimension.
C73: `as f64` and `as f32` are SpecFloat's rounding from one format into the other. Rounding a number
of the smaller format into the larger one shifts its mantissa; rounding a number within 2^-26 of a
single precision number finds it again.
Then the bounds of C71 and C72 in double precision, and one rounding.

C74, C75 (exact arithmetic): exp(x) is a polynomial in x with rational coefficients; polynomials are
lists, evaluated in the algebra and at the number ||x||. By the addition theorem for a^k/k! the
coefficients of the computed polynomial lie between 0 and 1/k!, so the difference from a partial sum
has nonnegative coefficients and is bounded by its value at ||x||. For C75 the coefficients of
T(y)T(-y) - 1 vanish up to degree 18.
C76: fft carries the computed polynomial of x to the one computed on representations (C30, C40), and
ifft undoes fft (C38), so the bound of C74 holds with the scale of the representation.
C77: the binomial theorem for commuting x, y; the square of the terms x^i/i! y^j/j! with i, j <= K exceeds
the partial sum of x + y by terms whose sizes add up to the same difference of numbers, which tends to 0.
C78: `binary_round_aux` on a value below 2^(emax-1) returns a number in canonical form (`P_Range.v`); every
partial sum of a product is below the sum of absolute values plus the bound of C69; induction over
programs with a condition that mentions exact values and bounds only (`small` in `Spec_Range.v`).
C79: numbers U, L with ||z - f|| <= U - L and ||f|| <= L (sum of absolute values) pass through scaling, sum and
product, U by the rounded step taken upwards, L by the exact one (`maj` in `P_ExpRnd.v`); so through powers and the
series. The exact polynomial with rounded coefficients is compared with the series as in C74, coefficient by
coefficient between (1-4u)^k/k! truncated and (1+4u)^k/k!.
C31 for complex coefficients (`P_CplxDiv.v`): the norm of b is non-zero over a formally real field (`CplxField`).
C80: C31 (division) read as a law of the coefficient type `nested T A` of C53, or of the four-coefficient storage
(`M_NDiv.v`, `P_NDiv.v`); with it the Gauss elimination behind C43 applies to matrices of quaternions (C43_matrix).

C81: popcount(i xor j) + 2 popcount(i and j) = popcount i + popcount j bounds the grade of every term of the product.

C82: the sandwich is a linear multiplicative map that sends vectors to vectors (`auto`, P_Sandwich.v): vectors by
`v w v^-1 = 2 (v.w)/(v.v) v - w`, products by induction on the number of vectors. Grades and wedge follow because the
blades are products of anticommuting vectors. The regressive product in every metric: it is expressed by the left
contraction of the Euclidean metric (P_Sandwich3.v), which a linear map transports by its transpose, and every
multivector is a sum of blades (P_Sandwich4.v).

C83: a multivector of grade n is the dual of a vector v, its homogeneous coordinates (P_Motion.v). For every vector w,
w wedge dual(v) = +-(w paired with v) I, and the sandwich of C82 keeps wedge products and the pseudoscalar up to sign;
taking for w the images of the generators gives the coordinates of the image, `v - 2 (a, v)/(a.a) a` up to a common
sign. Products by induction on the number of vectors; distances from the formula for one reflection.

C84: the wedge of n vectors is the dual of a vector J (dual_of). J solves the n equations because a repeated factor
annihilates a wedge (wp_rep), and a vector a orthogonal to all factors is proportional to J: contracting a into the wedge
gives zero (lc_fwedge), the contraction is a regressive product (meet_lc of C82), so a wedge J = 0, and contracting that with
each generator gives a_i J_j = a_j J_i (prop_wedge). Joins follow by duality: the dual of a chain of regressive products is
the wedge of the duals (fold_meet).

C85: contracting u wedge B with as many vectors as B has factors leaves +-(the same contraction of B) u plus a linear
combination of the factors of B (iter_wedge, P_Indep.v); for a nonzero B some generators contract it to a nonzero number
(contract_nz), so u wedge B = 0 makes u a combination. The converse is that a repeated factor annihilates a wedge.

C86: the coefficients of a dual sit at the complements, with the sign of the wedge of a blade and its complement, so in
the top coefficient of y.dual() wedge x every sign occurs twice; grades rule out all other coefficients.  Multiplying by the
pseudoscalar is one permutation of the coefficients with signs, and the sign rules of P_Inv.v (beta_comm, beta_self) give the
commutation rule and the square.

C87: with x * x = s the partial sums of the exponential series of C74 and C79 are even and odd partial sums in s (exp_sum_sq,
P_Rotor.v); Coq's cos, sin and exp are the limits of exactly these series, and the bounds of C74 and C79 pass to the limit
(limit).  These are the only theorems that use the real numbers.

C88: expanding the wedge with a vector over the generators of the target blade gives the Laplace expansion (wp_vec_l,
fwedge_det; the sign of the j-th generator is (-1)^j, beta_gen).  For the Gram determinant, contraction by a vector is adjoint to
the wedge with it (adjoint) and expands a wedge along its factors (lcm_fwedge).

C89: the frame theorem is by induction on the frame, each step one or two reflections (frames; the reflection in u - v or u + v,
one of which is not null); uniqueness because the quotient of two versors with the same action commutes with all vectors, hence is
central (same_sandwich), and a central element of definite parity of a non-degenerate algebra is a scalar (central_scalar).
central is a computed test on blade indices (Spec_Frames.v); commuting with the generators is decided blade by blade (commutes).

C90: integers up to 2^prec have an exact representation (P_IntFlt.v, on Coq's SpecFloat), and sums of terms whose sizes add up to at
most 2^prec are exact in any order (terms_exact, enum_exact; fwp_exact for the recursive dense wedge product). A generic embedding
(EmbLaws) of an exact ring into a rounded arithmetic covers integers in f64 and f32 and Gaussian integers in Complex<f64>; programs
follow by induction (prog_exact), with the exact ring supplying the laws.

C91: cl_row bounds the rows of the transform by the sum of the sizes, cl_emb and wm_emb (P_IntFft.v) show that transform and matrix products on
embedded integers are the integer ones, icl_emb the same for the inverse, whose halvings divide even integers (ofz_div4, half_gauss: the complex
division by 2 is a division by 4 of four times the number). frep_mul over Gaussian integers (C36) turns the product of transforms into the transform
of the product (prod_emb); phases are units. The direct product is C90's mul_fitx. Expressions on transforms keep
the invariant `inv` (P_IntFft6.v): the matrices are the embedded integer transform of the value, and the weight bounds its size.

## 4. What turned out false of the code

| property | theorem | reason |
|---|---|---|
| C08 | `C08_read_past_end_refuted` | dense read at exactly 2^dim panics (`>` for `>=`) |
| C10 | `C10_mutating_filter_refuted` | a `filter_inplace` predicate may write zeros |
| C24 | `C24_mixed_signature_refuted` | for a blade of mixed signature `b.dual() * b` is not a pseudoscalar |
| C29 | `C29_revm_magnitude_refuted` | revm of a non-versor is not an inverse |
| C44 | `C44_refuted` | `matrix_inv` gives up on a zero diagonal entry |
| C48, C49 | `C48_origin_quaternion_refuted`, `C49_origin_refuted` | the origin is built by dividing by zero |
| C50 | `C50_translation_refuted` | `pga_translation` has no length check |
| C52 | `C52_64_generators_refuted` | 64 generators are accepted and unusable |
| C63 | `C63_equal_arguments_refuted`, `C63_storages_agree_refuted` | hash order and zero skipping are visible in float products |

Each keeps its strongest true part as a `_partial` theorem.

## 5. Seeded mistakes

`seeded/LOG.jsonl` records edits of the model that imitate realistic bugs (made in a
scratch copy), and the theorems that no longer prove.
