(** Model of src/clifft/mod.rs, of the part of ndarray it uses, and of complex numbers. *)
From Verif Require Export M_Multivector.
Open Scope nat_scope.

(** ** Complex numbers (num-complex [Complex<f64>]) *)

(** num-complex [struct Complex].  The components belong to a ring F standing for f64. *)
Record cplx (F : Type) := mkC { c_re : F; c_im : F }.
Arguments mkC {F} _ _. Arguments c_re {F} _. Arguments c_im {F} _.

Section Cplx.
Context {F : Type} {RO : RingOps F}.

(** num-complex [Add, Sub, Mul, Neg, Zero, One, PartialEq for Complex]. *)
#[global] Instance CplxOps : RingOps (cplx F) := {|
  r0 := mkC r0 r0;
  r1 := mkC r1 r0;
  radd := fun a b => mkC (radd (c_re a) (c_re b)) (radd (c_im a) (c_im b));
  rsub := fun a b => mkC (rsub (c_re a) (c_re b)) (rsub (c_im a) (c_im b));
  rmul := fun a b => mkC (rsub (rmul (c_re a) (c_re b)) (rmul (c_im a) (c_im b)))
                         (radd (rmul (c_re a) (c_im b)) (rmul (c_im a) (c_re b)));
  rneg := fun a => mkC (rneg (c_re a)) (rneg (c_im a));
  ris0 := fun a => andb (ris0 (c_re a)) (ris0 (c_im a));
  reqb := fun a b => andb (reqb (c_re a) (c_re b)) (reqb (c_im a) (c_im b)) |}.

(** num-complex [Div for Complex]. *)
#[global] Instance CplxDiv {D : DivOps F} : DivOps (cplx F) := {|
  rdiv := fun a b =>
    let n := radd (rmul (c_re b) (c_re b)) (rmul (c_im b) (c_im b)) in
    mkC (rdiv (radd (rmul (c_re a) (c_re b)) (rmul (c_im a) (c_im b))) n)
        (rdiv (rsub (rmul (c_im a) (c_re b)) (rmul (c_re a) (c_im b))) n) |}.

(** num-complex [ComplexFloat::conj]. *)
#[global] Instance CplxConj : ConjOps (cplx F) := {| rconj := fun a => mkC (c_re a) (rneg (c_im a)) |}.

(** num-complex [Mul<f64> for Complex<f64>]. *)
Definition c_mulr (a : cplx F) (t : F) : cplx F := mkC (rmul (c_re a) t) (rmul (c_im a) t).
(** num-complex [Div<f64> for Complex<f64>]. *)
Definition c_divr {D : DivOps F} (a : cplx F) (t : F) : cplx F := mkC (rdiv (c_re a) t) (rdiv (c_im a) t).

(** The table [1, i, -1, -i] of src/clifft/mod.rs:240-245 and 275-280 and
    src/complexification.rs:159-164 (there named I_POWERS, I_REV_POWERS). *)
Definition i_powers : list (cplx F) := [mkC r1 r0; mkC r0 r1; mkC (rneg r1) r0; mkC r0 (rneg r1)].
(** The table [1, -i, -1, i] of src/clifft/mod.rs:305-310 and src/complexification.rs:121-126. *)
Definition i_neg_powers : list (cplx F) := [mkC r1 r0; mkC r0 (rneg r1); mkC (rneg r1) r0; mkC r0 r1].
End Cplx.

(** src/types.rs:101-103 [trait IntoComplex64]. *)
Class IntoCplx (T F : Type) := { into_complex : T -> cplx F }.
(** src/types.rs:70-72 [trait FromComplex]. *)
Class FromCplx (T F : Type) := { from_complex : cplx F -> T }.

(** src/types.rs:105-109: f64. (f32 and Complex32 are in M_Conv32.v.) *)
#[global] Instance RealInto {F} {RO : RingOps F} : IntoCplx F F := {| into_complex := fun c => mkC c r0 |}.
(** src/types.rs:95-99. *)
#[global] Instance RealFrom {F} : FromCplx F F := {| from_complex := c_re |}.
(** src/types.rs:123-127: Complex64. *)
#[global] Instance CplxInto {F} : IntoCplx (cplx F) F := {| into_complex := fun c => c |}.
(** src/types.rs:83-87. *)
#[global] Instance CplxFrom {F} : FromCplx (cplx F) F := {| from_complex := fun c => c |}.

(** ** ndarray matrices *)

(** ndarray [Array2<T>] and its views: shape and elements, row by row.  A view is
    modelled by the matrix of the elements it shows (memory layout is not modelled). *)
Record mat (T : Type) := mkMat { m_nr : nat; m_nc : nat; m_data : list T }.
Arguments mkMat {T} _ _ _. Arguments m_nr {T} _. Arguments m_nc {T} _. Arguments m_data {T} _.

(** A [for i in 0..h { for j in 0..w { body } }] loop. *)
Definition for_ij {X} (h w : nat) (body : X -> nat -> nat -> res X) (st : X) : res X :=
  foldM (fun st i => foldM (fun st j => body st i j) (seq 0 w) st) (seq 0 h) st.

Section Mat.
Context {T : Type} {RO : RingOps T}.

(** Matrix with given elements. *)
Definition m_build (h w : nat) (f : nat -> nat -> T) : mat T :=
  mkMat h w (map (fun p => f (p / w) (p mod w)) (seq 0 (h * w))).
(** ndarray [Array2::zeros]. *)
Definition m_zeros (h w : nat) : mat T := mkMat h w (repeat r0 (h * w)).
(** Element (i, j) of a matrix in range. *)
Definition m_at (m : mat T) (i j : nat) : T := nth (i * m_nc m + j) (m_data m) r0.
(** ndarray indexing [m[(i, j)]]: out of bounds panics. *)
Definition m_get (m : mat T) (i j : nat) : res T :=
  if (Nat.ltb i (m_nr m) && Nat.ltb j (m_nc m))%bool then Ok (m_at m i j) else Panic.
(** ndarray assignment [m[(i, j)] = v]. *)
Definition m_set (m : mat T) (i j : nat) (v : T) : res (mat T) :=
  if (Nat.ltb i (m_nr m) && Nat.ltb j (m_nc m))%bool
  then Ok (mkMat (m_nr m) (m_nc m) (upd (m_data m) (i * m_nc m + j) v)) else Panic.
(** The h by w part starting at row r, column c. *)
Definition m_block (m : mat T) (r c h w : nat) : mat T :=
  m_build h w (fun i j => m_at m (r + i) (c + j)).
(** ndarray [split_at(Axis(0), k)]. *)
Definition m_split0 (m : mat T) (k : nat) : res (mat T * mat T) :=
  if Nat.ltb (m_nr m) k then Panic
  else Ok (m_block m 0 0 k (m_nc m), m_block m k 0 (m_nr m - k) (m_nc m)).
(** ndarray [split_at(Axis(1), k)]. *)
Definition m_split1 (m : mat T) (k : nat) : res (mat T * mat T) :=
  if Nat.ltb (m_nc m) k then Panic
  else Ok (m_block m 0 0 (m_nr m) k, m_block m 0 k (m_nr m) (m_nc m - k)).
(** Both splits: the four blocks (a b; c d), src/clifft/mod.rs:88-92. *)
Definition m_split4 (m : mat T) (h w : nat) : res (mat T * mat T * mat T * mat T) :=
  ' (ab, cd) <- m_split0 m h ;;
  ' (a, b) <- m_split1 ab w ;;
  ' (c, d) <- m_split1 cd w ;;
  Ok (a, b, c, d).
(** The matrix whose blocks are the (modified) mutable views a, b, c, d. *)
Definition m_join4 (a b c d : mat T) : mat T :=
  m_build (m_nr a + m_nr c) (m_nc a + m_nc b) (fun i j =>
    if Nat.ltb i (m_nr a) then if Nat.ltb j (m_nc a) then m_at a i j else m_at b i (j - m_nc a)
    else if Nat.ltb j (m_nc a) then m_at c (i - m_nr a) j else m_at d (i - m_nr a) (j - m_nc a)).
(** ndarray [t]: the transposed view. *)
Definition m_t (m : mat T) : mat T := m_build (m_nc m) (m_nr m) (fun i j => m_at m j i).
(** ndarray [dot]: matrix product; a shape mismatch panics.  Each entry is accumulated from zero in the order of the inner index (for rounded entries
    the optimised kernels of ndarray may group the terms differently or fuse a product with the addition; that is not modelled). *)
Definition m_dot (a b : mat T) : res (mat T) :=
  if Nat.eqb (m_nc a) (m_nr b)
  then Ok (m_build (m_nr a) (m_nc b) (fun i j => fold_left (fun acc k => radd acc (rmul (m_at a i k) (m_at b k j))) (seq 0 (m_nc a)) r0))
  else Panic.
(** ndarray [map]. *)
Definition m_map (f : T -> T) (m : mat T) : mat T := mkMat (m_nr m) (m_nc m) (map f (m_data m)).
(** A matrix value as ndarray can hold it: the element count matches the shape. *)
Definition m_ok (m : mat T) : Prop := length (m_data m) = m_nr m * m_nc m.
End Mat.

Section Clifft.
Context {T : Type} {RO : RingOps T} {DV : DivOps T} {md : Mode}.

(** src/clifft/mod.rs:10-26 [alpha]. *)
Definition fft_alpha (c : T) (i j : nat) : T :=
  if Nat.odd (popcount (N.lxor (N.of_nat i) (N.of_nat j))) then rneg c else c.

(** src/clifft/mod.rs:27-41 [cl_dim]: [1 << dim] cannot overflow because [size] is a [usize]. *)
Definition cl_dim (size : nat) : res nat :=
  if Nat.eqb size 0 then Err InvalidShape
  else let dim := Nat.log2 size in
       if Nat.eqb (2 ^ dim) size then Ok dim else Err InvalidShape.

(** src/clifft/mod.rs:43-61 [clifft_nn], given the function filling the matrix. *)
Definition clifft_nn_with (into : list T -> mat T -> res (mat T)) (coeffs : list T) : res (mat T) :=
  dim <- cl_dim (length coeffs) ;;
  into coeffs (m_zeros (2 ^ (dim / 2)) (2 ^ (dim / 2))).

(** src/clifft/mod.rs:63-115 [clifft_nn_into]: returns the final contents of [dest].
    The recursion on the quarters is bounded by [fuel]. *)
Fixpoint clifft_nn_into (fuel : nat) (coeffs : list T) (dest : mat T) : res (mat T) :=
  match fuel with
  | O => Panic
  | S fuel =>
    let size := length coeffs in
    if Nat.eqb size 1 then c <- nthr coeffs 0 ;; m_set dest 0 0 c
    else
      dim <- cl_dim size ;;
      let quarter_size := size / 4 in
      let mside := 2 ^ (dim / 2) in
      let quarter_mside := mside / 2 in
      if (checks && negb (Nat.eqb (mside * mside) size))%bool then Panic
      else if (checks && negb (Nat.eqb (quarter_mside * quarter_mside) quarter_size))%bool then Panic
      else
      ' (mv_0, mv_1) <- split_at coeffs (size / 2) ;;
      ' (mv_00, mv_01) <- split_at mv_0 quarter_size ;;
      ' (mv_10, mv_11) <- split_at mv_1 quarter_size ;;
      ' (a, b, c, d) <- m_split4 dest quarter_mside quarter_mside ;;
      mx_00 <- clifft_nn_with (clifft_nn_into fuel) mv_00 ;;
      mx_01 <- clifft_nn_with (clifft_nn_into fuel) mv_01 ;;
      mx_10 <- clifft_nn_with (clifft_nn_into fuel) mv_10 ;;
      mx_11 <- clifft_nn_with (clifft_nn_into fuel) mv_11 ;;
      ' (a, b, c, d) <- for_ij quarter_mside quarter_mside (fun st i j =>
          let '(a, b, c, d) := st in
          x00 <- m_get mx_00 i j ;; x01 <- m_get mx_01 i j ;;
          x10 <- m_get mx_10 i j ;; x11 <- m_get mx_11 i j ;;
          a <- m_set a i j (radd x00 x11) ;;
          c <- m_set c i j (rsub x01 x10) ;;
          b <- m_set b i j (fft_alpha (radd x01 x10) i j) ;;
          d <- m_set d i j (fft_alpha (rsub x00 x11) i j) ;;
          Ok (a, b, c, d)) (a, b, c, d) ;;
      Ok (m_join4 a b c d)
  end.

(** src/clifft/mod.rs:43-61 [clifft_nn]. *)
Definition clifft_nn (coeffs : list T) : res (mat T) :=
  clifft_nn_with (clifft_nn_into (S (length coeffs))) coeffs.

(** src/clifft/mod.rs:131-176 [iclifft_nn_into] (and 117-129 [iclifft_nn], which calls it on
    a zero array of [matrix.len()] elements): returns the final contents of [dest].
    [count_ones() != 1] on the side is written as a test for a power of two. *)
Fixpoint iclifft_nn_into (fuel : nat) (matrix : mat T) (dest : list T) : res (list T) :=
  match fuel with
  | O => Panic
  | S fuel =>
    let mside := m_nr matrix in
    if (negb (Nat.eqb mside (m_nc matrix)) || negb (Nat.eqb (popcount (N.of_nat mside)) 1))%bool
    then Err InvalidShape
    else if Nat.eqb mside 1 then x <- m_get matrix 0 0 ;; updr dest 0 x
    else
      let quarter_mside := mside / 2 in
      let size := mside * mside in
      let quarter_size := quarter_mside * quarter_mside in
      if (checks && negb (Nat.eqb quarter_size (size / 4)))%bool then Panic
      else
      ' (a, b, c, d) <- m_split4 matrix quarter_mside quarter_mside ;;
      let nn x := iclifft_nn_into fuel x (repeat r0 (length (m_data x))) in
      mv_a <- nn a ;; mv_b <- nn b ;; mv_c <- nn c ;; mv_d <- nn d ;;
      ' (mv_0, mv_1) <- split_at dest (size / 2) ;;
      ' (mv_00, mv_01) <- split_at mv_0 quarter_size ;;
      ' (mv_10, mv_11) <- split_at mv_1 quarter_size ;;
      let two := radd r1 r1 in
      ' (mv_00, mv_01, mv_10, mv_11) <- foldM (fun st i =>
          let '(v00, v01, v10, v11) := st in
          xa <- nthr mv_a i ;; xb <- nthr mv_b i ;; xc <- nthr mv_c i ;; xd <- nthr mv_d i ;;
          v00 <- updr v00 i (rdiv (radd xa (fft_alpha xd i 0)) two) ;;
          v01 <- updr v01 i (rdiv (radd (fft_alpha xb i 0) xc) two) ;;
          v10 <- updr v10 i (rdiv (rsub (fft_alpha xb i 0) xc) two) ;;
          v11 <- updr v11 i (rdiv (rsub xa (fft_alpha xd i 0)) two) ;;
          Ok (v00, v01, v10, v11)) (seq 0 quarter_size) (mv_00, mv_01, mv_10, mv_11) ;;
      Ok ((mv_00 ++ mv_01) ++ (mv_10 ++ mv_11))
  end.

(** src/clifft/mod.rs:318-348 [imaginary_flip_inplace]: the final contents of the view.
    The recursion on the blocks is bounded by [fuel]. *)
Fixpoint imaginary_flip_inplace (fuel : nat) (m : mat T) : res (mat T) :=
  match fuel with
  | O => Panic
  | S fuel =>
    if Nat.eqb (length (m_data m)) 1 then Ok m
    else
      let w := m_nc m in
      let h := m_nr m in
      ' (a, b, c, d) <- m_split4 m (h / 2) (w / 2) ;;
      ' (a, b, c, d) <- for_ij (h / 2) (w / 2) (fun st i j =>
          let '(a, b, c, d) := st in
          tmp <- m_get a i j ;; x <- m_get d i j ;;
          a <- m_set a i j (fft_alpha x i j) ;; d <- m_set d i j (fft_alpha tmp i j) ;;
          tmp <- m_get b i j ;; x <- m_get c i j ;;
          b <- m_set b i j (fft_alpha x i j) ;; c <- m_set c i j (fft_alpha tmp i j) ;;
          Ok (a, b, c, d)) (a, b, c, d) ;;
      a <- imaginary_flip_inplace fuel a ;;
      b <- imaginary_flip_inplace fuel b ;;
      c <- imaginary_flip_inplace fuel c ;;
      d <- imaginary_flip_inplace fuel d ;;
      Ok (m_join4 a b c d)
  end.

(** src/clifft/mod.rs:350-360 [parity_flip]. *)
Definition parity_flip (m : mat T) : mat T :=
  m_build (m_nr m) (m_nc m) (fun i j => fft_alpha (m_at m i j) i j).

(** src/clifft/mod.rs:362-374 [imaginary_flip]. *)
Definition imaginary_flip (m : mat T) : res (mat T) :=
  if (negb (Nat.eqb (m_nr m) (m_nc m)) || negb (Nat.eqb (popcount (N.of_nat (m_nr m))) 1))%bool
  then Err InvalidShape
  else imaginary_flip_inplace (S (m_nr m)) m.

(** src/clifft/mod.rs:376-382 [reversal]. *)
Definition reversal (m : mat T) : res (mat T) := imaginary_flip (m_t m).
End Clifft.

Section ClifftC.
Context {F : Type} {RO : RingOps F} {DV : DivOps F} {md : Mode}.

(** src/clifft/mod.rs:239, 274, 304 [idx_mask]. *)
Definition idx_mask : N := 0xAAAAAAAAAAAAAAAA%N.

(** src/clifft/mod.rs:225-248 and 260-283: the zero-padded array with the odd generators
    multiplied by i. [1 << dim] is a power of two without overflow: see [cl_dim]; the
    rounded-up [dim] is at most 64 only for arrays no machine can hold. *)
Definition clifft_prepare {T} {IC : IntoCplx T F} (coeffs : list T) : res (list (cplx F)) :=
  dim <- cl_dim (length coeffs) ;;
  let dim := if Nat.odd dim then S dim else dim in
  let size := 2 ^ dim in
  foldM (fun arr (ic : N * T) =>
    p <- nthr i_powers (popcount (N.land (fst ic) idx_mask) mod 4) ;;
    updr arr (N.to_nat (fst ic)) (rmul (into_complex (snd ic)) p)) (enumerate coeffs) (repeat r0 size).

(** src/clifft/mod.rs:221-251 [clifft]. *)
Definition clifft {T} {IC : IntoCplx T F} (coeffs : list T) : res (mat (cplx F)) :=
  arr <- clifft_prepare coeffs ;; clifft_nn arr.

(** src/clifft/mod.rs:253-286 [clifft_into]. *)
Definition clifft_into {T} {IC : IntoCplx T F} (coeffs : list T) (dest : mat (cplx F)) : res (mat (cplx F)) :=
  arr <- clifft_prepare coeffs ;; clifft_nn_into (S (length arr)) arr dest.

(** src/clifft/mod.rs:297-316 [iclifft_into]. *)
Definition iclifft_into (matrix : mat (cplx F)) (dest : list (cplx F)) : res (list (cplx F)) :=
  dest <- iclifft_nn_into (S (m_nr matrix)) matrix dest ;;
  mapM (fun ic => p <- nthr i_neg_powers (popcount (N.land (fst ic) idx_mask) mod 4) ;;
                  Ok (rmul (snd ic) p)) (enumerate dest).

(** src/clifft/mod.rs:288-295 [iclifft]. *)
Definition iclifft (matrix : mat (cplx F)) : res (list (cplx F)) :=
  iclifft_into matrix (repeat r0 (length (m_data matrix))).
End ClifftC.
