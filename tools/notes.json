{
 "C01": {
  "note": "For every token list; also says exactly which lists the macro accepts."
 },
 "C03": {
  "note": "Sign and blade are forced by the relations (cl_eq); uniqueness included."
 },
 "C08": {
  "note": "The full claim is refuted: on every valid dense multivector get_by_idx(2^dim) panics (src/coeff_storage.rs:44 compares with > instead of >=). The _partial theorem gives the exact value of every other out-of-range read on all storages."
 },
 "C10": {
  "note": "Proved for every finite history of API calls with predicates that do not modify values; a filter_inplace/filtered predicate that writes zero through its &mut argument breaks it (refuted)."
 },
 "C11": {
  "note": "Programs over the API (expr/eval in Spec_Prog.v); revm, revcm and multivector division are excluded from the program language's agreement theorem because they divide by computed numbers."
 },
 "C56": {
  "note": "Positive theorems for every precision that zero passes (eps > 0); with precision 0 dense and quaternion storages disagree (refuted for that case, which the English statement excludes)."
 },
 "C24": {
  "note": "As documented the claim is refuted: it fails for every signature with two generators of different squares (including PGA). The _partial theorems: all decomposable elements of a uniform signature over formally real fields, and all multiples of basis blades in any signature over any ring."
 },
 "C25": {
  "note": "rev reverses products over commutative coefficients; revc over any ring with an anti-automorphic conjugation."
 },
 "C29": {
  "note": "The documented magnitude claim is refuted (s = 1 + e0 in Cl(1)). Proved: revm = rev/mag2, scalar part of revm(s)*s is one, and revm inverts every product of vectors of non-zero mag2. revcm divides by cmag2 (its doc says mag2)."
 },
 "C19": {
  "note": "Any target ring, any coefficient homomorphism commuting with the generators."
 },
 "C52": {
  "note": "Refuted at exactly 64 generators (accepted by the macro, unusable: debug panics, release yields zero basis vectors). The _partial theorem covers every declared algebra the model calls declared, i.e. fewer than 64 generators."
 },
 "C53": {
  "note": "Any nesting depth, any coefficient ring; nested dense multivectors in one algebra per level."
 },
 "C33": {
  "note": "Between any two storages, for real and complex coefficients; also gives the exact coefficients (a factor -i per negative generator) and the metric of the complexified algebra."
 },
 "C34": {
  "note": "Signatures with fewer than 63 generators (the padded algebra must stay below the 64-bit limit). The library has no function for the padding itself; a padded multivector is described by its coefficients."
 },
 "C38": {
  "note": "Every signature with fewer than 63 generators (a dense multivector of 63 generators would need 2^63 coefficients). Exact arithmetic over any formally real field; real and complex coefficients. Also: onto for complex coefficients when the number of non-null generators is even."
 },
 "C39": {
  "note": "As C38; the homomorphism form needs no division, hence any commutative or non-commutative coefficient ring satisfying the conversion laws."
 },
 "C45": {
  "note": "inv and exp are covered separately (C43, C54)."
 },
 "C30": {
  "note": "Multivectors of every storage, FFTRepr values of every shape, and pow commutes with fft."
 },
 "C43": {
  "note": "For real and complex coefficients over any formally real field; the array-level theorem also covers arrays that represent no multivector. The norm enters only through nrm 0 = 0. C43_matrix is about matrix_inv itself over any division ring; it is crate-internal, so only square blocks reach it through the API."
 },
 "C44": {
  "note": "Refuted: matrix_inv gives up when a diagonal entry below the pivot is zero after an elimination step (src/fftrepr/matrix.rs:68-70), e.g. for the generators of Cl(3). The _partial theorems: complete for at most two generators (side <= 2); for any number of generators on multivectors whose scalar part outweighs the other coefficients, and on matrices of any side whose diagonal outweighs the columns (exact rational arithmetic)."
 },
 "C46": {
  "note": "For every non-degenerate signature below 63 generators; only the left factor needs to be even. Also: the two halves determine an even multivector."
 },
 "C47": {
  "note": "Algebra isomorphism onto square matrices over the coefficient ring (bijectivity over a field with 1+1<>0), entrywise equal to fft; also which signatures get the SplitSignature trait."
 },
 "C54": {
  "note": "Exact arithmetic; the comparison with f64::EPSILON enters through one law (1/k > 2^-52 iff k < 2^52). For all storages and for the transform domain; exp(0) = 1 in both."
 },
 "C58": {
  "note": "Exact arithmetic, commutative coefficients; the scale must fit into a usize."
 },
 "C59": {
  "note": "Real coefficients; the square root is an abstract multiplicative function."
 },
 "C48": {
  "note": "Every point except the origin, all dimensions and storages, exact arithmetic. At the origin the constructor divides by zero: the round trip still holds on dense and sparse storage under the IEEE rules 0/(1/0) = 0/(-1/0) = 0, and fails on quaternion storage (refuted there)."
 },
 "C49": {
  "note": "Every point except the origin; t~t = 1, composition of translations and equality with the exponential for all directions. Translating the origin is refuted: with IEEE infinities the coordinates become NaN."
 },
 "C50": {
  "note": "Exact for pga_point and pga_hyperplane. Refuted for pga_translation, which accepts every length up to n+1 (src/pga.rs:39-49 has no length check); the _partial theorem says exactly which lengths are rejected and how."
 },
 "C51": {
  "note": "Dense and sparse storage (quaternion storage has no wedge), all dimensions, exact arithmetic."
 },
 "C55": {
  "note": "All storages, all flags, any printing of coefficients; a writer that never fails. Display, LowerExp and UpperExp are the same macro; FFTRepr's Display (ndarray's) is not modelled."
 },
 "C60": {
  "note": "Coefficients only satisfy NumLaws (commutative addition with neutral zero, exact negation, exact zero test), proved for IEEE binary32 and binary64 (two zeros and all NaNs identified). Programs as in C11; transforms and exp are covered by C67 and C68, PGA is not."
 },
 "C61": {
  "note": "Scaling by t needs 0*t = 0 (finite t), dividing by t needs 0/t = 0."
 },
 "C62": {
  "note": "Geometric product on every storage; outer product of the sparse storage (dense wedge recursion: totality only)."
 },
 "C63": {
  "note": "Refuted twice: sparse iteration order (hash seed) changes rounding, and dense storage skips zeros which the quaternion storage multiplies by infinity. Partial: same enumeration order, or dense/quaternion with finite coefficients, give identical products."
 },
 "C64": {
  "note": "Exact arithmetic. Operations FFTRepr does not offer (dual, gradings, literals, ...) are computed on the multivector and then transformed."
 },
 "C65": {
  "note": "basis and == in exact arithmetic; approx_eq for any coefficients. approx_eq zips over equal shapes."
 },
 "C66": {
  "note": "Exact arithmetic; needs that the order of f64::max does not matter, that |0| <= 1 and |-c| = |c| (class MaxSym), shown for the rationals."
 },
 "C67": {
  "note": "Nothing is assumed of the conversions between coefficients and complex numbers. Signatures below 63 generators. inv may return None; trace and magnitude may be any number."
 },
 "C68": {
  "note": "The general theorems take the first K whose loop coefficient is at most EPSILON; K = 18 is computed in binary64. Memory and the time of the final power are not modelled."
 },
 "C69": {
  "note": "Standard model (relative error 2^-53 or 2^-24, absolute error half the least positive number) proved for binary64 and binary32 as defined by the standard library's SpecFloat. Nothing is said of coefficients that are infinite or NaN. Inverses: not bounded. Transforms: C71."
 },
 "C70": {
  "note": "Fragment: see arith in Spec_RProg.v (no inverses, no filters by value, conjugation of real coefficients only); powers through C70_powers. Hypothesis: every intermediate coefficient is finite."
 },
 "C71": {
  "note": "The entries (coefficients) of the result are assumed finite."
 },
 "C72": {
  "note": "The coefficients of the result are assumed finite. Matrix products are taken to sum in the order of the index, each product and each sum rounded once; ndarray's blocked kernels and fused multiply-add are not modelled."
 },
 "C73": {
  "note": "The coefficients of the result are assumed finite. A float has no sign of zero in the model (M_Float.v)."
 },
 "C74": {
  "note": "Exact rational arithmetic for f64. The scale is assumed to fit into usize. Sizes: any subadditive, submultiplicative size of coefficients (class SizeLaws; shown for the rationals and for complex numbers with |re|+|im|)."
 },
 "C75": {
  "note": "Exact rational arithmetic for f64; needs the class MaxSym of C66 (exp(-x) uses the same scale)."
 },
 "C76": {
  "note": "Exact rational arithmetic for f64. Both scales are assumed to fit into usize; the conversion of a real coefficient to a complex number is assumed to keep it."
 },
 "C77": {
  "note": "Exact rational arithmetic for f64. The three scales are assumed to fit into usize."
 },
 "C78": {
  "note": "Fragment of programs as in C70. Numbers are those the format can hold (bounded mantissa and exponent), as every f64/f32 value is. Transforms are not covered."
 },
 "C79": {
  "note": "Real coefficients (T = f64). The scale c is assumed to be a finite integer below 2^64, as ceil gives. exp of representations is not covered."
 },
 "C80": {
  "note": "T is any commutative formally real field (exact arithmetic)."
 },
 "C81": {
  "note": "Stated contrapositively: a coefficient whose grade is not of that form is zero."
 },
 "C82": {
  "note": "Exact arithmetic in a commutative field. The wedge and regressive products are those of dense and sparse storages (Quaternion has none)."
 },
 "C83": {
  "note": "Exact arithmetic in a commutative field; where hyperplanes are built with pga_hyperplane the field is formally real and the square root vanishes only at zero. The points of C83_translation and C83_incidence include the origin, which C48-C51 exclude because pga_point cannot build it."
 },
 "C84": {
  "note": "Exact arithmetic in a commutative field of characteristic other than 2; formally real where pga_hyperplane normalises. A product that vanishes has linearly dependent factors: C85."
 },
 "C85": {
  "note": "Exact arithmetic in a commutative field in which 1 + 1 is not zero; storages whose wedge product exists (not Quaternion)."
 },
 "C86": {
  "note": "Any ring of coefficients, commutative or not (the factors of the products keep their order); the wedge products for the storages that have one (not Quaternion)."
 },
 "C87": {
  "note": "C87_sums is axiom free (partial sums of the cosine and sine series); the other three speak of Coq's real cos, sin, cosh and sinh and depend on the axioms of the real numbers of the standard library (ClassicalDedekindReals.sig_not_dec, sig_forall_dec, functional_extensionality_dep). Real coefficients; t is any real number with t^2 = |s|, t not 0 (s = 0: C58)."
 },
 "C88": {
  "note": "The quaternion storage has no wedge of its own dimension to speak of (two generators) and is left out; det is the Laplace expansion along the first row, factors in row order, so the first part holds over rings that do not commute."
 },
 "C89": {
  "note": "revm() is rev() divided by mag2(), as in the code; sandwich and versor are those of C82 (Spec_Sandwich.v)."
 },
 "C90": {
  "note": "No division, inverse, exp, power or filter_coeffs in these programs; for the transforms see C91. -0 and 0 are one number in the model."
 },
 "C91": {
  "note": "The condition is on the sums of the absolute values, which bounds every number the transforms form; C91_limit_ex shows that integers beyond it may not come back."
 }
}
