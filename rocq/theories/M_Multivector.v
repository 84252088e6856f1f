(** Model of src/lib.rs ([MultivectorBase]) and src/ops.rs.
    A [MultivectorBase<T, A, Storage>] is its [coeffs] field (the other two fields
    are [PhantomData], src/lib.rs:49-57); the algebra is an explicit argument. *)
From Verif Require Export M_Storage.
From Coq Require Import String.
Import List ListNotations.
Open Scope N_scope.

(** num_complex [ComplexFloat::conj]. *)
Class ConjOps (T : Type) := { rconj : T -> T }.

(** src/lib.rs:620-631 [trait Norm], as used by [approx_eq]: the comparison
    [c.norm() < precision]. [R] stands for [f64]. *)
Class NormLt (T R : Type) := { norm_lt : T -> R -> bool }.

Section MV.
Context {T : Type} {RO : RingOps T} {m : Mode}.
Variable A : algebra.

(** src/lib.rs:361-368 [rev_c]. *)
Definition rev_c (idx : N) (c : T) : T :=
  match Nat.modulo (popcount idx) 4 with
  | 0%nat | 1%nat => c
  | _ => rneg c
  end.

Section OneStorage.
Context {S : Type} {St : Storage T S}.

(** src/lib.rs:508-521 [Default], src/lib.rs:600-602 [Zero::zero]. *)
Definition mv_default : res S := st_new (a_dim A).
(** src/lib.rs:600-602 [Zero::zero]. *)
Definition mv_zero : res S := mv_default.

(** src/lib.rs:604-606 [Zero::is_zero]. *)
Definition mv_is_zero (x : S) : bool := forallb (fun ic => ris0 (snd ic)) (st_enum x).

(** src/lib.rs:65-69 [from_scalar]. *)
Definition mv_from_scalar (s : T) : res S :=
  ret <- mv_default ;; Ok (st_set ret 0 s).

(** src/lib.rs:615-617 [One::one]. *)
Definition mv_one : res S := mv_from_scalar r1.

(** src/lib.rs:71-85 [from_vector] (also 87-92 [from_vector_ref]). The iterator is
    the list of its items; [n] counts as in the source. *)
Definition mv_from_vector (cs : list T) : res S :=
  ret <- mv_default ;;
  ' (ret, n) <- foldM (fun rn c =>
      let '(ret, n) := rn in
      if Nat.leb (a_dim A) n then Err InvalidShape
      else i <- shl 1 n ;; Ok (st_set ret i c, Datatypes.S n)) cs (ret, 0%nat) ;;
  if negb (Nat.eqb n (a_dim A)) then Err InvalidShape else Ok ret.

(** src/lib.rs:94-103 [from_indexed_iter] (also 105-112 [from_indexed_iter_ref]). *)
Definition mv_from_indexed_iter (l : list (N * T)) : res S :=
  ret <- mv_default ;;
  foldM (fun ret ic =>
      n <- shl 1 (a_dim A) ;;
      if n <=? fst ic then Err IndexOutOfBounds
      else Ok (st_set ret (fst ic) (snd ic))) l ret.

(** src/lib.rs:118-120 [coeff_enumerate]. *)
Definition mv_coeff_enumerate (x : S) : list (N * T) := st_enum x.
(** src/lib.rs:126-128 [grade_enumerate]. *)
Definition mv_grade_enumerate (x : S) (grade : nat) : res (list (N * T)) := st_grade x grade.

(** src/lib.rs:252-256 [set_by_idx]. *)
Definition mv_set_by_idx (x : S) (idx : N) (v : T) : S := st_set x idx v.
(** src/lib.rs:258-261 [get_by_idx]. *)
Definition mv_get_by_idx (x : S) (idx : N) : res T := st_get x idx.
(** src/lib.rs:263-266 [scalar_part]. *)
Definition mv_scalar_part (x : S) : res T := mv_get_by_idx x 0.

(** src/lib.rs:135-142 [extract_vector]. *)
Definition mv_extract_vector (x : S) : res (list T) :=
  mapM (fun i => b <- shl 1 i ;; mv_get_by_idx x b) (seq 0 (a_dim A)).

(** src/lib.rs:523-532 [PartialEq]. *)
Definition mv_eqb (x y : S) : bool := st_eqb x y.

(** src/lib.rs:173-179 [add_impl], src/ops.rs:8-19 [Add]. *)
Definition mv_add (x y : S) : res S := st_add x y.
(** src/lib.rs:181-187 [sub_impl], src/ops.rs:21-32 [Sub]. *)
Definition mv_sub (x y : S) : res S := st_sub x y.
(** src/lib.rs:189-191 [neg_impl], src/ops.rs:104-112 [Neg]. *)
Definition mv_neg (x : S) : res S :=
  unwrap (mv_from_indexed_iter (map (fun ic => (fst ic, rneg (snd ic))) (st_enum x))).

(** The accumulation step shared by the three naive products:
    [match sign { Null => {}, Plus => set(idx, c + a*b), Minus => set(idx, c - a*b) }]
    (src/lib.rs:199-203, 226-230, 242-246). *)
Definition accum (s : sign) (ret : S) (idx : N) (c p : T) : S :=
  match s with
  | Null => ret
  | Plus => st_set ret idx (radd c p)
  | Minus => st_set ret idx (rsub c p)
  end.

(** src/lib.rs:193-207 [naive_wedge_impl]. *)
Definition naive_wedge (x y : S) : res S :=
  ret <- mv_default ;;
  foldM (fun ret ia =>
    foldM (fun ret jb =>
      let idx := N.lxor (fst ia) (fst jb) in
      c <- st_get ret idx ;;
      s <- blade_wedge_product_sign A (fst ia) (fst jb) ;;
      Ok (accum s ret idx c (rmul (snd ia) (snd jb)))) (st_enum y) ret) (st_enum x) ret.

(** src/lib.rs:209-234 [naive_meet_impl]; [mask & !i] is [N.ldiff mask i]. *)
Definition naive_meet (x y : S) : res S :=
  ret <- mv_default ;;
  let mask := N.lor (N.lor (a_real A) (a_imag A)) (a_proj A) in
  foldM (fun ret ia =>
    foldM (fun ret jb =>
      let self_dual_idx := N.ldiff mask (fst ia) in
      let rhs_dual_idx := N.ldiff mask (fst jb) in
      let dual_idx := N.ldiff mask (N.lxor (fst ia) (fst jb)) in
      s1 <- blade_wedge_product_sign A self_dual_idx rhs_dual_idx ;;
      s2 <- blade_wedge_product_sign A self_dual_idx (fst ia) ;;
      s3 <- blade_wedge_product_sign A rhs_dual_idx (fst jb) ;;
      s4 <- blade_wedge_product_sign A (N.lxor (fst ia) (fst jb)) dual_idx ;;
      let s := sign_mul (sign_mul (sign_mul s1 s2) s3) s4 in
      c <- st_get ret dual_idx ;;
      Ok (accum s ret dual_idx c (rmul (snd ia) (snd jb)))) (st_enum y) ret) (st_enum x) ret.

(** src/lib.rs:236-250 [naive_mul_impl], src/ops.rs:34-45 [Mul]. *)
Definition mv_mul (x y : S) : res S :=
  ret <- mv_default ;;
  foldM (fun ret ia =>
    foldM (fun ret jb =>
      let idx := N.lxor (fst ia) (fst jb) in
      c <- st_get ret idx ;;
      s <- blade_geo_product_sign A (fst ia) (fst jb) ;;
      Ok (accum s ret idx c (rmul (snd ia) (snd jb)))) (st_enum y) ret) (st_enum x) ret.

(** src/ops.rs:70-85 [Mul<T>]: right multiplication by a scalar. *)
Definition mv_scale (x : S) (t : T) : res S :=
  ret <- mv_default ;;
  Ok (fold_left (fun r ic => st_set r (fst ic) (rmul (snd ic) t)) (st_enum x) ret).

(** src/ops.rs:87-102 [Div<T>]. *)
Definition mv_divs {D : DivOps T} (x : S) (t : T) : res S :=
  ret <- mv_default ;;
  Ok (fold_left (fun r ic => st_set r (fst ic) (rdiv (snd ic) t)) (st_enum x) ret).

(** src/lib.rs:268-277 [approx_eq]. *)
Definition mv_approx_eq {R} {NL : NormLt T R} (x y : S) (precision : R) : res bool :=
  diff <- mv_sub x y ;;
  Ok (forallb (fun ic => norm_lt (snd ic) precision) (st_enum diff)).

(** src/lib.rs:279-294 [pow]; the recursion on [n >> 1] is bounded by [fuel]. *)
Fixpoint mv_pow_fuel (fuel : nat) (x : S) (n : nat) : res S :=
  match fuel with
  | O => Panic
  | Datatypes.S fuel =>
    match n with
    | 0%nat => mv_one
    | 1%nat => Ok x
    | _ =>
      h <- mv_pow_fuel fuel x (Nat.div2 n) ;;
      hh <- mv_mul h h ;;
      if Nat.even n then Ok hh else mv_mul hh x
    end
  end.
(** src/lib.rs:279-294 [pow]. *)
Definition mv_pow (x : S) (n : nat) : res S := mv_pow_fuel (Datatypes.S n) x n.

(** src/lib.rs:329-343 [flip]. *)
Definition mv_flip (x : S) : res S :=
  ret <- mv_zero ;;
  Ok (fold_left (fun r ic =>
        mv_set_by_idx r (fst ic)
          (if Nat.even (popcount (fst ic)) then snd ic else rneg (snd ic))) (st_enum x) ret).

(** src/lib.rs:345-359 [flip_subspace]. *)
Definition mv_flip_subspace (x : S) (mask : N) : res S :=
  ret <- mv_zero ;;
  Ok (fold_left (fun r ic =>
        mv_set_by_idx r (fst ic)
          (if Nat.even (popcount (N.land (fst ic) mask)) then snd ic else rneg (snd ic)))
        (st_enum x) ret).

(** src/lib.rs:370-377 [rev]. *)
Definition mv_rev (x : S) : res S :=
  ret <- mv_zero ;;
  Ok (fold_left (fun r ic => mv_set_by_idx r (fst ic) (rev_c (fst ic) (snd ic))) (st_enum x) ret).

(** src/lib.rs:379-395 [dual]; the [Null] branch is [unreachable!()]. *)
Definition mv_dual (x : S) : res S :=
  let mask := N.lor (N.lor (a_proj A) (a_imag A)) (a_real A) in
  ret <- mv_default ;;
  foldM (fun ret ic =>
    let dual_idx := N.ldiff mask (fst ic) in
    s <- blade_wedge_product_sign A dual_idx (fst ic) ;;
    match s with
    | Null => Panic
    | Plus => Ok (st_set ret dual_idx (snd ic))
    | Minus => Ok (st_set ret dual_idx (rneg (snd ic)))
    end) (st_enum x) ret.

(** src/lib.rs:397-413 [undual]. *)
Definition mv_undual (x : S) : res S :=
  let mask := N.lor (N.lor (a_proj A) (a_imag A)) (a_real A) in
  ret <- mv_default ;;
  foldM (fun ret ic =>
    let dual_idx := N.ldiff mask (fst ic) in
    s <- blade_wedge_product_sign A (fst ic) dual_idx ;;
    match s with
    | Null => Panic
    | Plus => Ok (st_set ret dual_idx (snd ic))
    | Minus => Ok (st_set ret dual_idx (rneg (snd ic)))
    end) (st_enum x) ret.

(** src/lib.rs:415-422 [vsdot]. *)
Definition mv_vsdot (x y : S) : res T :=
  foldM (fun r ic => c <- mv_get_by_idx y (fst ic) ;; Ok (radd r (rmul (snd ic) c)))
        (st_enum x) r0.

(** src/lib.rs:424-441 [vdot]. *)
Definition mv_vdot (x y : S) : res T :=
  foldM (fun r ic =>
    s <- blade_geo_product_sign A (fst ic) (fst ic) ;;
    match s with
    | Null => Ok r
    | Plus => c <- mv_get_by_idx y (fst ic) ;; Ok (radd r (rmul (snd ic) c))
    | Minus => c <- mv_get_by_idx y (fst ic) ;; Ok (rsub r (rmul (snd ic) c))
    end) (st_enum x) r0.

(** src/lib.rs:443-460 [mag2]. *)
Definition mv_mag2 (x : S) : res T :=
  foldM (fun r ic =>
    s <- blade_geo_product_sign A (fst ic) (fst ic) ;;
    match s with
    | Null => Ok r
    | Plus => c <- mv_get_by_idx x (fst ic) ;; Ok (radd r (rmul (rev_c (fst ic) (snd ic)) c))
    | Minus => c <- mv_get_by_idx x (fst ic) ;; Ok (rsub r (rmul (rev_c (fst ic) (snd ic)) c))
    end) (st_enum x) r0.

(** src/lib.rs:485-495 [revc]. *)
Definition mv_revc {C : ConjOps T} (x : S) : res S :=
  unwrap (mv_from_indexed_iter
    (map (fun ic => (fst ic, rev_c (fst ic) (rconj (snd ic)))) (st_enum x))).

(** src/lib.rs:462-473 [cmag2]. *)
Definition mv_cmag2 {C : ConjOps T} (x : S) : res T :=
  conjugate <- unwrap (mv_from_indexed_iter
    (map (fun ic => (fst ic, rev_c (fst ic) (rconj (snd ic)))) (st_enum x))) ;;
  mv_vdot conjugate x.

(** src/lib.rs:475-483 [revm]. *)
Definition mv_revm {D : DivOps T} (x : S) : res S :=
  r <- mv_rev x ;; n <- mv_mag2 x ;; mv_divs r n.

(** src/lib.rs:497-505 [revcm]. *)
Definition mv_revcm {C : ConjOps T} {D : DivOps T} (x : S) : res S :=
  r <- mv_revc x ;; n <- mv_cmag2 x ;; mv_divs r n.

(** src/ops.rs:47-68 [Div] of multivectors (only for [DivisionAlgebra]s; the trait
    bound is a hypothesis of the theorems). *)
Definition mv_div {D : DivOps T} (x y : S) : res S :=
  rv <- mv_rev y ;;
  conj <- mv_flip rv ;;
  p <- mv_mul y conj ;;
  n <- mv_get_by_idx p 0 ;;
  let conj := st_enum_mut (fun _ c => rdiv c n) conj in
  mv_mul x conj.

(** src/algebra.rs:64-72 [ClBasis::basis] and src/algebra.rs:74-82 [basis_sparse]
    ([make_array], src/algebra.rs:53-61, is a list of [DIM = dim()] items). *)
Definition mv_basis : res (list S) :=
  mapM (fun n => z <- mv_zero ;; i <- shl 1 n ;; Ok (mv_set_by_idx z i r1)) (seq 0 (a_dim A)).

End OneStorage.

Section TwoStorages.
Context {S : Type} {St : Storage T S} {S' : Type} {St' : Storage T S'}.

(** src/lib.rs:144-157 [grade_extract_as]. *)
Definition mv_grade_extract_as (x : S) (grade : nat) : res S' :=
  ret <- mv_default ;;
  l <- mv_grade_enumerate x grade ;;
  Ok (fold_left (fun r ic => st_set r (fst ic) (snd ic)) l ret).

(** src/lib.rs:159-171 [to_storage_type]. *)
Definition mv_to_storage (x : S) : res S' :=
  ret <- mv_default ;;
  Ok (fold_left (fun r ic => if ris0 (snd ic) then r else st_set r (fst ic) (snd ic))
                (st_enum x) ret).
End TwoStorages.

(** src/lib.rs:130-133 [grade_extract]. *)
Definition mv_grade_extract {S} {St : Storage T S} (x : S) (grade : nat) : res S :=
  mv_grade_extract_as x grade.

End MV.

(** ** Dense multivectors, src/mv_dense.rs *)
Section DenseMV.
Context {T : Type} {RO : RingOps T} {m : Mode}.

(** [ArrayView::split_at(Axis(0), k)] (ndarray): panics when k exceeds the length. *)
Definition split_at {X} (l : list X) (k : nat) : res (list X * list X) :=
  if Nat.ltb (length l) k then Panic else Ok (firstn k l, skipn k l).

(** [arr[i] = v] with bounds check. *)
Definition updr {X} (l : list X) (i : nat) (v : X) : res (list X) :=
  if Nat.ltb i (length l) then Ok (upd l i v) else Panic.

(** src/mv_dense.rs:176-181: in-place grade involution. *)
Definition flip_array (a : list T) : list T :=
  map (fun ic => if Nat.odd (popcount (fst ic)) then rneg (snd ic) else snd ic) (enumerate a).

(** src/mv_dense.rs:156-192 [fn wedge_impl].  Returns the final contents of [a] and
    [dest] (both are mutable views).  The recursion on the halves is bounded by [fuel]. *)
Fixpoint wedge_impl (fuel : nat) (a b dest : list T) : res (list T * list T) :=
  match fuel with
  | O => Panic
  | S fuel =>
    let size := length a in
    if Nat.eqb size 1 then
      x <- nthr a 0 ;; y <- nthr b 0 ;;
      d <- updr dest 0 (rmul x y) ;; Ok (a, d)
    else
      ' (a0, a1) <- split_at a (Nat.div2 size) ;;
      ' (b0, b1) <- split_at b (Nat.div2 size) ;;
      ' (dest0, dest1) <- split_at dest (Nat.div2 size) ;;
      ' (a1, dest1) <- wedge_impl fuel a1 b0 dest1 ;;
      let a0 := flip_array a0 in
      ' (a0, tmp) <- wedge_impl fuel a0 b1 dest0 ;;
      ' (dest1, a0) <- foldM (fun da ic =>
          let '(d, a) := da in
          let i := N.to_nat (fst ic) in
          x <- nthr d i ;; d <- updr d i (radd x (snd ic)) ;;
          if Nat.odd (popcount (fst ic)) then
            y <- nthr a i ;; a <- updr a i (rneg y) ;; Ok (d, a)
          else Ok (d, a)) (enumerate tmp) (dest1, a0) ;;
      ' (a0, dest0) <- wedge_impl fuel a0 b0 tmp ;;
      Ok (a0 ++ a1, dest0 ++ dest1)%list
  end.

Variable A : algebra.

(** src/mv_dense.rs:123-137 [WedgeProduct::wedge].  The fuel is the array length
    (the recursion halves it). *)
Definition dense_wedge (x y : arr T) : res (arr T) :=
  if Nat.ltb (a_dim A) 6 then naive_wedge A x y
  else
    ret <- mv_zero A ;;
    ' (_, d) <- wedge_impl (length (arr_data x)) (arr_data x) (arr_data y) (arr_data ret) ;;
    Ok (mkArr (arr_dim ret) d).

(** src/mv_dense.rs:139-153 [WedgeProduct::meet]. *)
Definition dense_meet (x y : arr T) : res (arr T) :=
  if Nat.ltb (a_dim A) 6 then naive_meet A x y
  else
    ret <- mv_zero A ;;
    sc <- mv_dual A x ;;
    yd <- mv_dual A y ;;
    ' (_, d) <- wedge_impl (length (arr_data sc)) (arr_data sc) (arr_data yd) (arr_data ret) ;;
    mv_undual A (mkArr (arr_dim ret) d).

(** src/mv_dense.rs:109-115 [filter]. *)
Definition dense_filter (x : arr T) (f : N -> T -> bool) : res (arr T) :=
  unwrap (mv_from_indexed_iter A (filter (fun ic => f (fst ic) (snd ic)) (st_enum x))).

End DenseMV.

(** ** Sparse multivectors, src/mv_sparse.rs *)
Section SparseMV.
Context {T : Type} {RO : RingOps T} {m : Mode} {H : HashOrder}.
Variable A : algebra.

(** src/mv_sparse.rs:34-40 [grades_extract]. *)
Definition sparse_grades_extract (x : sps T) (grades : list nat) : res (sps T) :=
  unwrap (mv_from_indexed_iter A
    (filter (fun ic => existsb (Nat.eqb (popcount (fst ic))) grades) (st_enum x))).

(** src/mv_sparse.rs:47-53 [filter_inplace] (and 55-63 [filtered]): [HashMap::retain]
    with a closure that may change the value.  Simplification: the closure is a
    pure function of index and value (no captured mutable state). *)
Definition sparse_filter_inplace (x : sps T) (f : N -> T -> T * bool) : sps T :=
  mkSps (sps_dim x) (sps_size x) (sps_seed x)
    (flat_map (fun iv => let '(v, keep) := f (fst iv) (snd iv) in
                         if keep : bool then [(fst iv, v)] else []) (sps_map x)).

(** src/mv_sparse.rs:42-45 [retain_grades]. *)
Definition sparse_retain_grades (x : sps T) (grades : list nat) : sps T :=
  sparse_filter_inplace x (fun i v => (v, existsb (Nat.eqb (popcount i)) grades)).

(** src/mv_sparse.rs:65-68 [coeff_count]. *)
Definition sparse_coeff_count (x : sps T) : nat := length (sps_map x).

(** src/mv_sparse.rs:76-78 [wedge]. *)
Definition sparse_wedge (x y : sps T) : res (sps T) := naive_wedge A x y.
(** src/mv_sparse.rs:80-82 [meet]. *)
Definition sparse_meet (x y : sps T) : res (sps T) := naive_meet A x y.
End SparseMV.

(** ** Quaternions, src/quaternion.rs *)
Section Quaternions.
Context {T : Type} {RO : RingOps T}.

(** src/quaternion.rs:90 [declare_algebra!(pub QuaternionAlgebra, [-,-], ["I","J"])]. *)
Definition QuaternionAlgebra : algebra :=
  {| a_dim := 2; a_real_dim := 0; a_imag_dim := 2; a_proj_dim := 0;
     a_real := 0; a_imag := 3; a_proj := 0;
     a_name := fun n => nthr ["I"; "J"]%string n |}.

(** src/quaternion.rs:101-109 [i]. *)
Definition quat_i : qst T := mkQ r0 r1 r0 r0.
(** src/quaternion.rs:110-118 [j]. *)
Definition quat_j : qst T := mkQ r0 r0 r1 r0.
(** src/quaternion.rs:119-127 [k]. *)
Definition quat_k : qst T := mkQ r0 r0 r0 (rneg r1).
(** src/quaternion.rs:128-142 [conj]. *)
Definition quat_conj (q : qst T) : qst T :=
  mkQ (q_0 q) (rneg (q_1 q)) (rneg (q_2 q)) (rneg (q_3 q)).
End Quaternions.
