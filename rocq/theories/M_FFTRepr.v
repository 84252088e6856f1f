(** Model of src/complexification.rs, src/fftrepr/mod.rs, src/fftrepr/wmul.rs,
    src/fftrepr/matrix.rs and of [fft], [real_fft] of src/mv_dense.rs. *)
From Verif Require Export M_CliFFT.
From Coq Require Import String.
Import List ListNotations.
Open Scope nat_scope.

(** ** Derived algebras, src/complexification.rs *)
Section Derived.
Context {md : Mode}.

(** src/complexification.rs:14-38 [Complexification<A>]; the [*_dim] methods are the
    defaults of src/algebra.rs:21-29. *)
Definition Complexification (A : algebra) : algebra := {|
  a_dim := a_dim A;
  a_real_dim := popcount (N.lor (a_real A) (a_imag A));
  a_imag_dim := popcount 0;
  a_proj_dim := popcount (a_proj A);
  a_real := N.lor (a_real A) (a_imag A);
  a_imag := 0%N;
  a_proj := a_proj A;
  a_name := fun n =>
    b <- shl 1 n ;;
    if negb (N.eqb (N.land b (a_imag A)) 0)
    then s <- a_name A n ;; Ok (String.append "(i*" (String.append s ")"))
    else a_name A n |}.

(** src/complexification.rs:47-52 [base_non_null_dim]. *)
Definition base_non_null_dim (A : algebra) : nat := a_real_dim A + a_imag_dim A.

(** src/complexification.rs:44-109 [Even<A>].  [1 << base_non_null_dim] is shifted only
    when this number is odd, so at most 63; [proj_mask() << 1] drops a bit shifted out of
    the 64. *)
Definition Even (A : algebra) : algebra := {|
  a_dim := if Nat.even (base_non_null_dim A) then a_dim A else a_dim A + 1;
  a_real_dim := if Nat.even (base_non_null_dim A) then a_real_dim A else a_real_dim A + 1;
  a_imag_dim := a_imag_dim A;
  a_proj_dim := a_proj_dim A;
  a_real := if Nat.even (base_non_null_dim A) then a_real A
            else N.lor (a_real A) (N.shiftl 1 (N.of_nat (base_non_null_dim A)));
  a_imag := a_imag A;
  a_proj := if Nat.even (base_non_null_dim A) then a_proj A else N.modulo (N.shiftl (a_proj A) 1) (pow2 64);
  a_name := fun n =>
    if Nat.even (base_non_null_dim A) then a_name A n
    else if Nat.eqb n (base_non_null_dim A) then Ok "?"%string
    else if Nat.ltb (base_non_null_dim A) n then a_name A (n - 1)
    else a_name A n |}.
End Derived.

Section Complexify.
Context {T F : Type} {RT : RingOps T} {RF : RingOps F} {IC : IntoCplx T F} {FC : FromCplx T F} {md : Mode}.
Variable A : algebra.

(** src/complexification.rs:117-134 [complexified_iter]. *)
Definition complexified_iter {S} {St : Storage T S} (x : S) : res (list (N * cplx F)) :=
  mapM (fun ic => p <- nthr i_neg_powers (popcount (N.land (fst ic) (a_imag A)) mod 4) ;;
                  Ok (fst ic, rmul p (into_complex (snd ic)))) (mv_coeff_enumerate x).

(** src/complexification.rs:136-146 [complexify]. *)
Definition complexify {S} {St : Storage T S} {S'} {St' : Storage (cplx F) S'} (x : S) : res S' :=
  l <- complexified_iter x ;; unwrap (mv_from_indexed_iter (Complexification A) l).

(** src/complexification.rs:154-176 [decomplexify]. *)
Definition decomplexify {S'} {St' : Storage (cplx F) S'} {S} {St : Storage T S} (z : S') : res S :=
  l <- mapM (fun ic => p <- nthr i_powers (popcount (N.land (fst ic) (a_imag A)) mod 4) ;;
                       Ok (fst ic, from_complex (rmul p (snd ic)))) (mv_coeff_enumerate z) ;;
  unwrap (mv_from_indexed_iter A l).
End Complexify.

(** src/complexification.rs:185-209 [into_original]. *)
Definition into_original {T} {RT : RingOps T} {md : Mode} {S} {St : Storage T S} (A : algebra) (x : S) : res S :=
  if Nat.eqb (a_dim A) (a_dim (Even A)) then Ok x
  else
    let effective_proj_mask := N.modulo (N.shiftl (a_proj A) 1) (pow2 64) in
    let effective_full_mask := N.lor (N.lor effective_proj_mask (a_real A)) (a_imag A) in
    unwrap (mv_from_indexed_iter A
      (flat_map (fun ic =>
        if negb (N.eqb (N.ldiff (fst ic) effective_full_mask) 0) then []
        else [(N.lor (N.shiftr (N.land (fst ic) effective_proj_mask) 1)
                     (N.land (fst ic) (N.lor (a_real A) (a_imag A))), snd ic)])
        (mv_coeff_enumerate x))).

(** ** Three-dimensional arrays *)

(** ndarray [Array3<T>] and its views: the matrices along [Axis(0)] and their common shape.
    Memory layout is not modelled. *)
Record arr3 (T : Type) := mkA3 { t_nr : nat; t_nc : nat; t_mats : list (mat T) }.
Arguments mkA3 {T} _ _ _. Arguments t_nr {T} _. Arguments t_nc {T} _. Arguments t_mats {T} _.

Section Arr3.
Context {T : Type} {RO : RingOps T}.

(** A value ndarray can hold: all matrices have the common shape. *)
Definition a3_ok (a : arr3 T) : Prop :=
  Forall (fun m => m_nr m = t_nr a /\ m_nc m = t_nc a /\ m_ok m) (t_mats a).
(** ndarray [dim()] of an [Array3]. *)
Definition a3_dim (a : arr3 T) : nat * nat * nat := (length (t_mats a), t_nr a, t_nc a).
(** ndarray [Array3::zeros]. *)
Definition a3_zeros (n r c : nat) : arr3 T := mkA3 r c (repeat (m_zeros r c) n).
(** ndarray indexing [a[(k, i, j)]]. *)
Definition a3_get (a : arr3 T) (k i j : nat) : res T := m <- nthr (t_mats a) k ;; m_get m i j.
(** ndarray assignment [a[(k, i, j)] = v]. *)
Definition a3_set (a : arr3 T) (k i j : nat) (v : T) : res (arr3 T) :=
  m <- nthr (t_mats a) k ;; m <- m_set m i j v ;;
  l <- updr (t_mats a) k m ;; Ok (mkA3 (t_nr a) (t_nc a) l).
(** ndarray [map]. *)
Definition a3_map (f : T -> T) (a : arr3 T) : arr3 T := mkA3 (t_nr a) (t_nc a) (map (m_map f) (t_mats a)).
(** Equality of shapes. *)
Definition same_dim (a b : arr3 T) : bool :=
  (Nat.eqb (length (t_mats a)) (length (t_mats b)) && Nat.eqb (t_nr a) (t_nr b) && Nat.eqb (t_nc a) (t_nc b))%bool.
(** ndarray [&a op &b]: element-wise; unequal shapes panic.  Simplification: ndarray would
    broadcast axes of length 1; all [FFTRepr]s of one algebra have the same shape. *)
Definition a3_zip (f : T -> T -> T) (a b : arr3 T) : res (arr3 T) :=
  if same_dim a b
  then Ok (mkA3 (t_nr a) (t_nc a)
         (map2 (fun x y => mkMat (t_nr a) (t_nc a) (map2 f (m_data x) (m_data y))) (t_mats a) (t_mats b)))
  else Panic.
(** ndarray [PartialEq]. *)
Definition a3_eqb (a b : arr3 T) : bool :=
  (same_dim a b && list_eqb (flat_map m_data (t_mats a)) (flat_map m_data (t_mats b)))%bool.

(** The loop [for ((idx, i, j), c) in a.indexed_iter_mut() { if (idx.count_ones() + (i ^ j).count_ones()) & 1 == 1
    { *c = -*c } }] of src/fftrepr/wmul.rs:5-11 and src/fftrepr/mod.rs:213-221. *)
Definition a3_alpha (l : list (mat T)) : list (mat T) :=
  map (fun km => m_build (m_nr (snd km)) (m_nc (snd km)) (fun i j =>
    if Nat.odd (popcount (fst km) + popcount (N.lxor (N.of_nat i) (N.of_nat j)))
    then rneg (m_at (snd km) i j) else m_at (snd km) i j)) (enumerate l).

(** ndarray [dst.assign(&src)]; unequal shapes panic (broadcasting not modelled). *)
Definition m_assign (dst src : mat T) : res (mat T) :=
  if (Nat.eqb (m_nr dst) (m_nr src) && Nat.eqb (m_nc dst) (m_nc src))%bool then Ok src else Panic.

(** src/fftrepr/wmul.rs:40-42: [for (index, c) in top.indexed_iter_mut() { *c = *c + tmp[index] }],
    written per matrix; a [tmp] that does not cover [top] panics. *)
Definition a3_add_into (top tmp : list (mat T)) : res (list (mat T)) :=
  mapM (fun km =>
    t <- nthr tmp (N.to_nat (fst km)) ;;
    let c := snd km in
    if (Nat.leb (m_nr c) (m_nr t) && Nat.leb (m_nc c) (m_nc t))%bool
    then Ok (m_build (m_nr c) (m_nc c) (fun i j => radd (m_at c i j) (m_at t i j)))
    else Panic) (enumerate top).

(** src/fftrepr/wmul.rs:13-47 [wmul_impl] on views, given by the matrices along [Axis(0)]:
    the final contents of [a] and [dest].  The recursion on the halves is bounded by [fuel]. *)
Fixpoint wmul_impl (fuel : nat) (a b dest : list (mat T)) : res (list (mat T) * list (mat T)) :=
  match fuel with
  | O => Panic
  | S fuel =>
    let size := length a in
    if Nat.eqb size 1 then
      dst <- nthr dest 0 ;;
      a0 <- nthr a 0 ;;
      b0 <- nthr b 0 ;;
      p <- m_dot a0 b0 ;;
      dst <- m_assign dst p ;;
      dest <- updr dest 0 dst ;;
      Ok (a, dest)
    else
      ' (a0, a1) <- split_at a (size / 2) ;;
      ' (b0, b1) <- split_at b (size / 2) ;;
      ' (bottom, top) <- split_at dest (size / 2) ;;
      ' (a1, top) <- wmul_impl fuel a1 b0 top ;;
      let a0 := a3_alpha a0 in
      ' (a0, tmp) <- wmul_impl fuel a0 b1 bottom ;;
      top <- a3_add_into top tmp ;;
      let a0 := a3_alpha a0 in
      ' (a0, bottom) <- wmul_impl fuel a0 b0 tmp ;;
      Ok (a0 ++ a1, bottom ++ top)%list
  end.

(** src/fftrepr/wmul.rs:50-63 [wmul]. *)
Definition wmul (a b : arr3 T) : res (arr3 T) :=
  if Nat.eqb (length (t_mats a)) 1 then
    a0 <- nthr (t_mats a) 0 ;;
    b0 <- nthr (t_mats b) 0 ;;
    p <- m_dot a0 b0 ;;
    (* into_shape_clone(a.dim()).unwrap() *)
    if Nat.eqb (m_nr p * m_nc p) (t_nr a * t_nc a)
    then Ok (mkA3 (t_nr a) (t_nc a) [mkMat (t_nr a) (t_nc a) (m_data p)]) else Panic
  else
    let ret := a3_zeros (length (t_mats a)) (t_nr a) (t_nc a) in
    ' (_, d) <- wmul_impl (S (length (t_mats a))) (t_mats a) (t_mats b) (t_mats ret) ;;
    Ok (mkA3 (t_nr a) (t_nc a) d).
End Arr3.

(** ** Gauss inverse, src/fftrepr/matrix.rs *)

(** src/lib.rs:620-631 [trait Norm] as used by [matrix_inv]: the norm, the comparison [>]
    and [is_zero] of norms. R stands for f64. *)
Class NormCmp (T R : Type) := { nrm : T -> R; n_gt : R -> R -> bool; n_is0 : R -> bool }.

(** A [for] loop whose body may [return None] from the function. *)
Definition foldMO {X Y} (f : X -> Y -> res (option X)) (l : list Y) (st : X) : res (option X) :=
  foldM (fun o a => match o with None => Ok None | Some s => f s a end) l (Some st).

Section Gauss.
Context {T R : Type} {RO : RingOps T} {DV : DivOps T} {NC : NormCmp T R}.

(** ndarray [w.swap((i, m), (j, m))]. *)
Definition m_swap (w : mat T) (i j m : nat) : res (mat T) :=
  a <- m_get w i m ;; b <- m_get w j m ;; w <- m_set w i m b ;; m_set w j m a.

(** src/fftrepr/matrix.rs:38-46: the pivot search. *)
Definition find_pivot (n : nat) (w : mat T) (i : nat) : res (R * nat) :=
  x <- m_get w i i ;;
  foldM (fun st j =>
    x <- m_get w j i ;;
    Ok (if n_gt (nrm x) (fst st) then (nrm x, j) else st)) (seq (i + 1) (n - (i + 1))) (nrm x, i).

(** src/fftrepr/matrix.rs:60-72: subtracting multiples of row i from the row j below. *)
Definition eliminate (n i : nat) (w : mat T) (j : nat) : res (option (mat T)) :=
  coeff <- m_get w j i ;;
  r <- foldMO (fun w m =>
         a <- m_get w j m ;; b <- m_get w i m ;;
         w <- m_set w j m (rsub a (rmul coeff b)) ;;
         c <- m_get w j m ;;
         if negb (reqb c c) then Ok None else Ok (Some w)) (seq i (2 * n - i)) w ;;
  match r with
  | None => Ok None
  | Some w => d <- m_get w j j ;; if ris0 d then Ok None else Ok (Some w)
  end.

(** src/fftrepr/matrix.rs:35-73: one step of the reduction to an upper triangle. *)
Definition upper_step (n : nat) (w : mat T) (i : nat) : res (option (mat T)) :=
  ' (max_k, max_idx) <- find_pivot n w i ;;
  if n_is0 max_k then Ok None
  else
    w <- foldM (fun w m => m_swap w i max_idx m) (seq 0 (2 * n)) w ;;
    k <- m_get w i i ;;
    w <- foldM (fun w m => x <- m_get w i m ;; m_set w i m (rmul (rdiv r1 k) x)) (seq i (2 * n - i)) w ;;
    foldMO (eliminate n i) (seq (i + 1) (n - (i + 1))) w.

(** src/fftrepr/matrix.rs:78-81: clearing entry (j, i) above the diagonal. *)
Definition clear_above (n : nat) (w : mat T) (i j : nat) : res (mat T) :=
  d <- m_get w i i ;; x <- m_get w j i ;;
  let coeff := rmul (rdiv r1 d) x in
  foldM (fun w m => a <- m_get w j m ;; b <- m_get w i m ;;
                    m_set w j m (rsub a (rmul coeff b))) (seq j (2 * n - j)) w.

(** src/fftrepr/matrix.rs:19-86 [matrix_inv].  The NaN test [w[(j, m)] != w[(j, m)]] is kept. *)
Definition matrix_inv (a : mat T) : res (option (mat T)) :=
  if negb (Nat.eqb (m_nr a) (m_nc a)) then Ok None
  else
    let n := m_nr a in
    let w := m_build n (2 * n) (fun i j => if Nat.ltb j n then m_at a i j else r0) in
    w <- foldM (fun w i => m_set w i (n + i) r1) (seq 0 n) w ;;
    r <- foldMO (upper_step n) (seq 0 n) w ;;
    match r with
    | None => Ok None
    | Some w =>
      w <- foldM (fun w i => foldM (fun w j => clear_above n w i j) (rev (seq 0 i)) w) (rev (seq 0 n)) w ;;
      Ok (Some (m_block w 0 n n n))
    end.
End Gauss.

(** ** FFTRepr *)

(** The elementary functions of f64 used by [FFTRepr::exp]: [Complex64::norm], [f64::max],
    [sqrt], [ceil], [as usize] and the comparison [> f64::EPSILON]. *)
Class ExpOps (F : Type) := {
  e_norm : cplx F -> F; e_max : F -> F -> F; e_sqrt : F -> F; e_ceil : F -> F;
  e_usize : F -> nat; e_gt_eps : F -> bool }.

Section FFTRepr.
Context {F : Type} {RF : RingOps F} {DV : DivOps F} {md : Mode}.
Variable A : algebra.

(** src/fftrepr/mod.rs:37-41 [struct FFTRepr]. *)
Definition fftrepr : Type := arr3 (cplx F).

(** [n as f64]. *)
Fixpoint nat_f (n : nat) : F := match n with O => r0 | S n => radd (nat_f n) r1 end.

(** src/fftrepr/mod.rs:58-69 [from_array3]. *)
Definition fr_from_array3 (a : fftrepr) : res fftrepr :=
  let nonnull_dim := popcount (N.lor (a_real A) (a_imag A)) in
  let repr_nonnull_dim := (nonnull_dim + 1) / 2 * 2 in
  side <- shl 1 (repr_nonnull_dim / 2) ;;
  s <- shr (a_proj A) (N.of_nat nonnull_dim) ;;
  let null_size := (s + 1)%N in
  if (N.eqb (N.of_nat (length (t_mats a))) null_size && N.eqb (N.of_nat (t_nr a)) side
      && N.eqb (N.of_nat (t_nc a)) side)%bool
  then Ok a else Err InvalidShape.

(** src/fftrepr/mod.rs:365-373 [Zero::zero]. *)
Definition fr_zero : res fftrepr :=
  side <- shl 1 ((popcount (N.lor (a_real A) (a_imag A)) + 1) / 2) ;;
  wcount <- shl 1 (popcount (a_proj A)) ;;
  Ok (a3_zeros (N.to_nat wcount) (N.to_nat side) (N.to_nat side)).
(** src/fftrepr/mod.rs:375-377 [Zero::is_zero]. *)
Definition fr_is_zero (x : fftrepr) : bool := forallb ris0 (flat_map m_data (t_mats x)).
(** src/fftrepr/mod.rs:380-391 [One::one]. *)
Definition fr_one : res fftrepr :=
  ret <- fr_zero ;; foldM (fun r i => a3_set r 0 i i r1) (seq 0 (t_nr ret)) ret.

(** src/fftrepr/mod.rs:301-307 [Add]. *)
Definition fr_add (x y : fftrepr) : res fftrepr := a3_zip radd x y.
(** src/fftrepr/mod.rs:309-315 [Sub]. *)
Definition fr_sub (x y : fftrepr) : res fftrepr := a3_zip rsub x y.
(** src/fftrepr/mod.rs:317-323 [Mul]. *)
Definition fr_mul (x y : fftrepr) : res fftrepr := wmul x y.
(** src/fftrepr/mod.rs:325-331 [Mul<Complex64>]. *)
Definition fr_scale (x : fftrepr) (t : cplx F) : fftrepr := a3_map (fun c => rmul c t) x.
(** src/fftrepr/mod.rs:333-339 [Mul<f64>]. *)
Definition fr_scale_r (x : fftrepr) (t : F) : fftrepr := a3_map (fun c => c_mulr c t) x.
(** src/fftrepr/mod.rs:341-347 [Div<Complex64>]. *)
Definition fr_div (x : fftrepr) (t : cplx F) : fftrepr := a3_map (fun c => rdiv c t) x.
(** src/fftrepr/mod.rs:349-355 [Div<f64>]. *)
Definition fr_div_r (x : fftrepr) (t : F) : fftrepr := a3_map (fun c => c_divr c t) x.
(** src/fftrepr/mod.rs:357-363 [Neg]. *)
Definition fr_neg (x : fftrepr) : fftrepr := a3_map rneg x.
(** src/fftrepr/mod.rs:405-412 [PartialEq]. *)
Definition fr_eqb (x y : fftrepr) : bool := a3_eqb x y.

(** src/fftrepr/mod.rs:132-145 [pow]; the recursion on [n >> 1] is bounded by [fuel]. *)
Fixpoint fr_pow_fuel (fuel : nat) (x : fftrepr) (n : nat) : res fftrepr :=
  match fuel with
  | O => Panic
  | S fuel =>
    match n with
    | 0 => fr_one
    | 1 => Ok x
    | _ =>
      h <- fr_pow_fuel fuel x (Nat.div2 n) ;;
      hh <- fr_mul h h ;;
      if Nat.even n then Ok hh else fr_mul hh x
    end
  end.
(** src/fftrepr/mod.rs:132-145 [pow]. *)
Definition fr_pow (x : fftrepr) (n : nat) : res fftrepr := fr_pow_fuel (S n) x n.

(** src/fftrepr/mod.rs:147-149 [into_array3] (and 246-248 [view]). *)
Definition fr_into_array3 (x : fftrepr) : arr3 (cplx F) := x.
(** src/fftrepr/mod.rs:151-160 [from_array2]; [into_shape_clone] to the same number of
    elements succeeds. *)
Definition fr_from_array2 (a : mat (cplx F)) : res fftrepr :=
  fr_from_array3 (mkA3 (m_nr a) (m_nc a) [a]).
(** src/fftrepr/mod.rs:162-167 [into_array2]. *)
Definition fr_into_array2 (x : fftrepr) : res (mat (cplx F)) := nthr (t_mats x) 0.

(** src/fftrepr/mod.rs:169-178 [inv]; the reshaping of an m by n matrix succeeds. *)
Definition fr_inv {R} {NC : NormCmp (cplx F) R} (x : fftrepr) : res (option fftrepr) :=
  a <- nthr (t_mats x) 0 ;;
  r <- matrix_inv a ;;
  Ok (match r with None => None | Some m => Some (mkA3 (m_nr m) (m_nc m) [m]) end).

(** src/fftrepr/mod.rs:187-207: the correction for the null generators of the i-th matrix. *)
Definition rev_fix (i : N) (m : mat (cplx F)) : mat (cplx F) :=
  match popcount i mod 4 with
  | 0 => m
  | 1 => m_build (m_nr m) (m_nc m) (fun j k =>
           if Nat.odd (popcount (N.lxor (N.of_nat j) (N.of_nat k))) then rneg (m_at m j k) else m_at m j k)
  | 2 => m_map rneg m
  | _ => m_build (m_nr m) (m_nc m) (fun j k =>
           if Nat.even (popcount (N.lxor (N.of_nat j) (N.of_nat k))) then rneg (m_at m j k) else m_at m j k)
  end.
(** src/fftrepr/mod.rs:181-210 [rev]. *)
Definition fr_rev (x : fftrepr) : res fftrepr :=
  ret <- fr_zero ;;
  l <- foldM (fun l im =>
    view <- nthr l (N.to_nat (fst im)) ;;
    r <- unwrap (reversal (snd im)) ;;
    view <- m_assign view r ;;
    updr l (N.to_nat (fst im)) (rev_fix (fst im) view)) (enumerate (t_mats x)) (t_mats ret) ;;
  Ok (mkA3 (t_nr ret) (t_nc ret) l).

(** src/fftrepr/mod.rs:213-221 [flip]. *)
Definition fr_flip (x : fftrepr) : fftrepr := mkA3 (t_nr x) (t_nc x) (a3_alpha (t_mats x)).

(** src/fftrepr/mod.rs:224-230 [trace]. *)
Definition fr_trace (x : fftrepr) : res (cplx F) :=
  foldM (fun s i => c <- a3_get x 0 i i ;; Ok (radd s c)) (seq 0 (t_nr x)) r0.
(** src/fftrepr/mod.rs:233-235 [ntrace]. *)
Definition fr_ntrace (x : fftrepr) : res (cplx F) :=
  t <- fr_trace x ;; Ok (c_divr t (nat_f (t_nr x))).

(** src/fftrepr/mod.rs:250-252 [approx_eq]; [zip] stops at the shorter array. *)
Definition fr_approx_eq {R} {NL : NormLt (cplx F) R} (x y : fftrepr) (precision : R) : bool :=
  forallb (fun ab => norm_lt (rsub (fst ab) (snd ab)) precision)
    (combine (flat_map m_data (t_mats x)) (flat_map m_data (t_mats y))).

(** src/fftrepr/mod.rs:254-256 [shape]. *)
Definition fr_shape (x : fftrepr) : nat * nat * nat := a3_dim x.

(** src/fftrepr/mod.rs:258-260 [mag2]. *)
Definition fr_mag2 (x : fftrepr) : res (cplx F) :=
  r <- fr_rev x ;; p <- fr_mul r x ;; fr_ntrace p.

(** src/fftrepr/mod.rs:276-283 and 286-293: the entries of a row whose index has the given parity. *)
Definition half_row (odd : bool) (repr_size : nat) (row : nat -> res (cplx F)) : res (list (cplx F)) :=
  ' (tmp, _) <- foldM (fun st j =>
      let '(tmp, cur) := st in
      if Bool.eqb (Nat.odd (popcount (N.of_nat j))) odd
      then c <- row j ;; tmp <- updr tmp cur c ;; Ok (tmp, cur + 1)
      else Ok (tmp, cur)) (seq 0 repr_size) (repeat r0 (repr_size / 2), 0) ;;
  Ok tmp.
(** src/fftrepr/mod.rs:266-298 [into_half_spin_repr]. *)
Definition fr_into_half_spin_repr (x : fftrepr) : res (mat (cplx F) * mat (cplx F)) :=
  full <- fr_into_array2 x ;;
  let repr_size := m_nc full in
  ' (ev, od) <- foldM (fun st i =>
      let '(ev, od) := st in
      row <- half_row (Nat.odd (popcount (N.of_nat i))) repr_size (m_get full i) ;;
      if Nat.even (popcount (N.of_nat i)) then Ok (ev ++ [row], od)%list else Ok (ev, od ++ [row])%list)
    (seq 0 (m_nr full)) ([], []) ;;
  Ok (mkMat (length ev) (repr_size / 2) (concat ev), mkMat (length od) (repr_size / 2) (concat od)).

(** ndarray [slice(s![a..b])]. *)
Definition slice {X} (l : list X) (a b : nat) : res (list X) :=
  if (Nat.leb a b && Nat.leb b (length l))%bool then Ok (firstn (b - a) (skipn a l)) else Panic.
(** Writing back a [slice_mut(s![a..b])]. *)
Definition unslice {X} (l : list X) (a b : nat) (v : list X) : list X := (firstn a l ++ v ++ skipn b l)%list.

(** src/mv_dense.rs:72-94 [fft].  [(real_mask | imag_mask) + 1] cannot overflow below 64 generators. *)
Definition mv_fft {T} {IC : IntoCplx T F} {RT : RingOps T} (x : arr T) : res fftrepr :=
  side <- shl 1 ((popcount (N.lor (a_real A) (a_imag A)) + 1) / 2) ;;
  wcount <- shl 1 (popcount (a_proj A)) ;;
  let ret := a3_zeros (N.to_nat wcount) (N.to_nat side) (N.to_nat side) in
  cself <- (complexify A x : res (arr (cplx F))) ;;
  let step := N.to_nat (N.lor (a_real A) (a_imag A) + 1) in
  l <- foldM (fun l i =>
    v <- slice (arr_data cself) (i * step) ((i + 1) * step) ;;
    dest <- nthr l i ;;
    m <- unwrap (clifft_into v dest) ;;
    updr l i m) (seq 0 (N.to_nat wcount)) (t_mats ret) ;;
  Ok (mkA3 (t_nr ret) (t_nc ret) l).

(** src/fftrepr/mod.rs:78-100 [ifft]. *)
Definition fr_ifft {T} {FC : FromCplx T F} {RT : RingOps T} (x : fftrepr) : res (arr T) :=
  ret_c <- (mv_zero (Even (Complexification A)) : res (arr (cplx F))) ;;
  let repr_nonnull_dim := a_real_dim (Even (Complexification A)) + a_imag_dim (Even (Complexification A)) in
  step <- shl 1 repr_nonnull_dim ;;
  let step := N.to_nat step in
  d <- foldM (fun d im =>
    let i := N.to_nat (fst im) in
    v <- slice d (i * step) ((i + 1) * step) ;;
    v <- unwrap (iclifft_into (snd im) v) ;;
    Ok (unslice d (i * step) ((i + 1) * step) v)) (enumerate (t_mats x)) (arr_data ret_c) ;;
  o <- into_original (Complexification A) (mkArr (arr_dim ret_c) d) ;;
  decomplexify A o.

(** src/fftrepr/mod.rs:71-76 [basis]. *)
Definition fr_basis : res (list fftrepr) :=
  b <- (mv_basis A : res (list (arr (cplx F)))) ;; mapM (fun e => mv_fft e) b.

Section Exp.
Context {EO : ExpOps F}.
(** src/fftrepr/mod.rs:120-127: the loop of the Taylor series; out of [fuel] is [Panic]. *)
Fixpoint exp_loop (fuel : nat) (normalized_self : fftrepr) (coeff : F) (i : nat) (res_ p : fftrepr) : res fftrepr :=
  match fuel with
  | O => Panic
  | S fuel =>
    if e_gt_eps coeff then
      let coeff := rdiv coeff (nat_f i) in
      res_ <- fr_add res_ (fr_scale_r p coeff) ;;
      p <- fr_mul p normalized_self ;;
      exp_loop fuel normalized_self coeff (i + 1) res_ p
    else Ok res_
  end.
(** src/fftrepr/mod.rs:109-116: the scale [max_c]. *)
Definition exp_scale (x : fftrepr) : res F :=
  let max_c := fold_left (fun mx ci => e_max (e_norm ci) mx) (flat_map m_data (t_mats x)) r1 in
  mg <- fr_mag2 x ;;
  Ok (e_ceil (e_max max_c (e_sqrt (e_norm mg)))).
(** src/fftrepr/mod.rs:102-130 [exp], with a bound on the number of loop iterations. *)
Definition fr_exp (fuel : nat) (x : fftrepr) : res fftrepr :=
  one <- fr_one ;;
  max_c <- exp_scale x ;;
  let int_pow := e_usize max_c in
  let normalized_self := fr_div_r x max_c in
  r <- exp_loop fuel normalized_self r1 1 one normalized_self ;;
  fr_pow r int_pow.
End Exp.
End FFTRepr.
Arguments fftrepr : clear implicits.

(** src/mv_dense.rs:96-107 [real_fft] (only for [SplitSignature] algebras; the trait bound is a
    hypothesis of the theorems). *)
Definition mv_real_fft {T} {RO : RingOps T} {DV : DivOps T} {md : Mode} (x : arr T) : res (mat T) :=
  unwrap (clifft_nn (arr_data x)).
