(** Properties C60 - C63, and the parts of C09 and C11 that survive rounding.
    The other files of theorems take exact coefficients (a ring).  Here the coefficients are
    only assumed to satisfy [NumLaws]: addition commutes, zero is neutral, negation is exact,
    is_zero is exact.  Both IEEE formats do, NaN and infinities included (C60_f64, C60_f32). *)
From Coq Require Import List.
Import ListNotations.
From Verif Require Import Ex_Float Ex_Fmt M_CliFFT.
Local Open Scope nat_scope.

(** Double and single precision, NaN and infinities included, are such coefficients. *)
Theorem C60_f64 : NumLaws flt (O := F64).
Proof. exact (flt_laws 53 1024). Qed.
Print Assumptions C60_f64.
Theorem C60_f32 : NumLaws flt (O := F32).
Proof. exact (flt_laws 24 128). Qed.
Print Assumptions C60_f32.

(** So are complex numbers over such coefficients (Complex64, Complex32). *)
Theorem C60_complex {F} {RF : RingOps F} (W : NumLaws F) : NumLaws (cplx F).
Proof. exact (cplx_num W). Qed.
Print Assumptions C60_complex.

(** ... but no ring: 2^53 + 1 rounds to 2^53, and Inf - Inf is not zero. *)
Example C60_f64_ex :
  radd (fz (2 ^ 53)) (fz 1) = fz (2 ^ 53) /\ radd (radd (fz (2 ^ 53)) (fz 1)) (fz (- 2 ^ 53)) = fz 0 /\
  radd (FInf false) (FInf true) = FNaN /\ reqb FNaN FNaN = false /\ rmul (fz 0) (FInf false) = FNaN /\
  rdiv (fz 1) (fz 3) = FFin false 6004799503160661 (-54).
Proof. vm_compute. repeat split. Qed.
Example C60_complex_ex : radd (mkC (fz (2 ^ 53)) FNaN) (mkC (fz 1) (fz 1)) = mkC (fz (2 ^ 53)) FNaN /\
  ris0 (mkC (fz 0) FNaN) = false /\ rmul (mkC (FInf false) (fz 0)) (mkC (fz 1) (fz 0)) = mkC (FInf false) FNaN.
Proof. vm_compute. repeat split. Qed.
Example C60_f32_ex : let R := F32 in
  radd (FFin false 8388608 1) r1 = FFin false 8388608 1 /\ rmul r1 (FFin true 8388608 3) = FFin true 8388608 3.
Proof. vm_compute. repeat split. Qed.

(** C60. Programs over the API never panic and always return a valid multivector, whatever the
    coefficients, divisors and exponents; an error is returned only for a list of the wrong
    length or an index out of range among the program's literals. *)
Theorem C60_programs_never_panic {T} {RO : RingOps T} {W : NumLaws T} {DV : DivOps T} {CJ : ConjOps T} {m : Mode} {H : HashOrder}
  (k : kind) sg A (e : expr T) : declared sg A -> supports k A -> offers k A e ->
  match eval k A e with Ok z => valid A z | Err _ => ~ args_ok A e | Panic => False end.
Proof. exact (fun D => eval_total A sg D e k). Qed.
Print Assumptions C60_programs_never_panic.

(** e0/0 multiplied by a NaN, and a division by the zero multivector (which gives zero). *)
Example C60_programs_never_panic_ex :
  let e : expr flt := EMul (EDivs (EBasis 0) (fz 0)) (EPow (EAdd EOne (EScalar FNaN)) 3) in
  offers KDense (alg sg_e3) e /\ args_ok (alg sg_e3) e /\
  (z <- eval KDense (alg sg_e3) e ;; mv_get_by_idx z 1) = Ok FNaN /\
  (z <- eval KDense (alg sg_e3) (EDiv e EZero) ;; mv_get_by_idx z 1) = Ok (fz 0).
Proof. cbn [offers args_ok]. split; [repeat split; apply Nat.ltb_lt; reflexivity|]. split; [repeat split|]. vm_compute. split; reflexivity. Qed.

(** Neither does any operation that reads a multivector. *)
Theorem C60_observers {T} {RO : RingOps T} {W : NumLaws T} {CJ : ConjOps T} {FO : FmtOps T} {R} {NL : NormLt T R} {m : Mode} {H : HashOrder}
  (k : kind) sg A (x y : store k T) nm fl (eps : R) i : declared sg A ->
  (forall i, i < a_dim A -> a_name A i = Ok (nm i)) -> valid A x -> valid A y -> (i < 2 ^ N.of_nat (a_dim A))%N ->
  (exists v, mv_get_by_idx x i = Ok v) /\ (exists v, mv_scalar_part x = Ok v) /\
  (exists l, mv_extract_vector A x = Ok l) /\ (forall g, exists l, mv_grade_enumerate x g = Ok l) /\
  (exists v, mv_vsdot x y = Ok v) /\ (exists v, mv_vdot A x y = Ok v) /\
  (exists v, mv_mag2 A x = Ok v) /\ (exists v, mv_cmag2 A x = Ok v) /\
  (exists b, mv_approx_eq x y eps = Ok b) /\ (exists s, mv_fmt A fl x = Ok s).
Proof. exact (fun D => observers_total sg A D k x y nm fl eps i). Qed.
Print Assumptions C60_observers.

Example C60_observers_ex : valid (alg sg_e3) fx /\ mv_mag2 (alg sg_e3) fx = Ok FNaN /\ mv_get_by_idx fx 3 = Ok (FInf true).
Proof. split; [exact v_fx|]. vm_compute. split; reflexivity. Qed.

(** C61. Programs that only move, negate, add or subtract coefficients, or scale and divide by
    numbers t with 0*t = 0 and 0/t = 0, have the same outcome on every storage, to the bit. *)
Theorem C61_linear_programs_agree {T} {RO : RingOps T} {W : NumLaws T} {DV : DivOps T} {CJ : ConjOps T} {m : Mode} {H : HashOrder}
  (k k' : kind) sg A (e : expr T) : declared sg A -> rconj (T := T) r0 = r0 ->
  supports k A -> supports k' A -> wt k A e -> wt k' A e -> linear e ->
  same_outcome A (eval k A e) (eval k' A e).
Proof. exact (fun D C0 Hs Hs' Hw Hw' Hl => prog_same A sg D C0 e k k' Hs Hs' Hw Hw' (or_introl Hl)). Qed.
Print Assumptions C61_linear_programs_agree.

(** 2^53 + 1 - 2^53 in the scalar part: 0 on both, since the additions come in program order. *)
Example C61_linear_programs_agree_ex :
  let e : expr flt := ESub (EAdd (EScale (EScalar (fz (2 ^ 53))) (fz 1)) EOne) (ERev (EScalar (fz (2 ^ 53)))) in
  wt KDense (alg sg_q) e /\ wt KSparse (alg sg_q) e /\ wt KQuat (alg sg_q) e /\ linear e /\
  (z <- eval KDense (alg sg_q) e ;; mv_get_by_idx z 0) = Ok (fz 0) /\
  (z <- eval KSparse (alg sg_q) e ;; mv_get_by_idx z 0) = Ok (fz 0) /\
  (z <- eval KQuat (alg sg_q) e ;; mv_get_by_idx z 0) = Ok (fz 0).
Proof. cbn [wt linear]. repeat split; vm_compute; reflexivity. Qed.

(** What those operations give, exactly. *)
Theorem C61_linear_ops {T} {RO : RingOps T} {W : NumLaws T} {m : Mode} {H : HashOrder}
  (k : kind) sg A (x y : store k T) : declared sg A -> valid A x -> valid A y ->
  gives A (mv_add x y) (fun i => radd (rd x i) (rd y i)) /\
  gives A (mv_sub x y) (fun i => rsub (rd x i) (rd y i)) /\
  gives A (mv_neg A x) (fun i => rneg (rd x i)) /\
  same A (n <- mv_neg A x ;; mv_neg A n) (Ok x) /\
  same A (mv_add x y) (mv_add y x) /\
  same A (r <- mv_rev A x ;; mv_rev A r) (Ok x) /\
  same A (r <- mv_flip A x ;; mv_flip A r) (Ok x) /\
  same A (s <- mv_add x y ;; mv_rev A s) (u <- mv_rev A x ;; v <- mv_rev A y ;; mv_add u v) /\
  same A (s <- mv_add x y ;; mv_flip A s) (u <- mv_flip A x ;; v <- mv_flip A y ;; mv_add u v) /\
  same A (u <- mv_dual A x ;; mv_undual A u) (Ok x) /\
  same A (u <- mv_undual A x ;; mv_dual A u) (Ok x) /\
  same A (mv_sub x y) (n <- mv_neg A y ;; mv_add x n).
Proof. exact (fun D => linear_ops sg A D k x y). Qed.
Print Assumptions C61_linear_ops.

Example C61_linear_ops_ex : valid (alg sg_e3) fx /\
  (z <- (r <- mv_rev (alg sg_e3) fx ;; mv_rev (alg sg_e3) r) ;; mv_get_by_idx z 3) = Ok (FInf true) /\
  (z <- mv_sub fx fx ;; mv_get_by_idx z 3) = Ok FNaN /\ (z <- mv_sub fx fx ;; mv_get_by_idx z 5) = Ok (fz 0).
Proof. split; [exact v_fx|]. vm_compute. repeat split; reflexivity. Qed.

(** C62. The sequence of roundings of a product is fixed by the order in which the left
    operand enumerates its coefficients: coefficient k is accumulated from zero, one rounded
    term x_i * y_(i xor k) at a time, added or subtracted; nothing else is rounded. *)
Theorem C62_product_order {T} {RO : RingOps T} {W : NumLaws T} {m : Mode} {H : HashOrder}
  (k : kind) sg A (x y : store k T) : declared sg A -> valid A x -> valid A y ->
  gives A (mv_mul A x y) (ordered_product (sq sg) (a_dim A) (map fst (mv_coeff_enumerate x))
      (fun j => existsb (N.eqb j) (map fst (mv_coeff_enumerate y))) (rd x) (rd y)).
Proof. exact (fun D => mul_seq A sg D x y). Qed.
Print Assumptions C62_product_order.

Example C62_product_order_ex : let H := ho2 in valid (alg sg_e3) (fs 1) /\
  map fst (mv_coeff_enumerate (fs 1)) = [4; 2; 1]%N /\
  (z <- mv_mul (alg sg_e3) (fs 1) fo ;; mv_get_by_idx z 0) = Ok (radd (radd (radd (fz 0) (fz (- 2 ^ 53))) (fz 1)) (fz (2 ^ 53))).
Proof. cbv zeta. split; [apply v_fs|]. vm_compute. split; reflexivity. Qed.

(** The same for the outer product of the sparse storage. *)
Theorem C62_wedge_order {T} {RO : RingOps T} {W : NumLaws T} {m : Mode} {H : HashOrder}
  (k : kind) sg A (x y : store k T) : declared sg A -> valid A x -> valid A y ->
  gives A (naive_wedge A x y) (ordered_product q0 (a_dim A) (map fst (mv_coeff_enumerate x))
      (fun j => existsb (N.eqb j) (map fst (mv_coeff_enumerate y))) (rd x) (rd y)).
Proof. exact (fun D => wedge_seq A sg D x y). Qed.
Print Assumptions C62_wedge_order.

Example C62_wedge_order_ex : let H := ho2 in valid (alg sg_e3) (fs 1) /\
  (z <- naive_wedge (alg sg_e3) (fs 1) fo ;; mv_get_by_idx z 3) = Ok (rsub (radd (fz 0) (fz 1)) (fz (2 ^ 53))).
Proof. cbv zeta. split; [apply v_fs|]. vm_compute. reflexivity. Qed.

(** Dense storage: increasing left index, skipping pairs with a zero factor. *)
Theorem C62_dense_order {T} {RO : RingOps T} {W : NumLaws T} {m : Mode} {H : HashOrder}
  sg A (x y : arr T) : declared sg A -> valid A x -> valid A y ->
  gives A (mv_mul A x y) (fun k => fold_left (fun c i =>
    let j := N.lxor i k in
    if (ris0 (rd x i) || ris0 (rd y j))%bool then c
    else add_term (csign (sq sg) (a_dim A) i j) c (rmul (rd x i) (rd y j))) (idxs (a_dim A)) r0).
Proof. exact (fun D => dense_order sg A D x y). Qed.
Print Assumptions C62_dense_order.

Example C62_dense_order_ex :
  let x : arr flt := mkArr 3 [fz 0; fz (2 ^ 53); fz 1; fz 0; fz (- 2 ^ 53); FNaN; fz 0; fz 0] in
  let y : arr flt := mkArr 3 [fz 0; fz 1; fz 1; fz 0; fz 1; fz 0; fz 0; fz 0] in
  valid (alg sg_e3) x /\ valid (alg sg_e3) y /\
  (z <- mv_mul (alg sg_e3) x y ;; mv_get_by_idx z 0) = Ok (fz 0).
Proof. cbv zeta. split; [vld|]. split; [vld|]. vm_compute. reflexivity. Qed.

(** Quaternion storage: increasing left index, nothing skipped. *)
Theorem C62_quat_order {T} {RO : RingOps T} {W : NumLaws T} {m : Mode} {H : HashOrder}
  sg A (x y : qst T) : declared sg A -> a_dim A = 2 ->
  gives A (mv_mul A x y) (fun k => fold_left (fun c i =>
    let j := N.lxor i k in add_term (csign (sq sg) (a_dim A) i j) c (rmul (rd x i) (rd y j))) (idxs (a_dim A)) r0).
Proof. exact (fun D => quat_order sg A D x y). Qed.
Print Assumptions C62_quat_order.

Example C62_quat_order_ex :
  let x : qst flt := mkQ (fz (2 ^ 53)) (fz 1) (fz 1) (fz (2 ^ 53)) in
  (z <- mv_mul (alg sg_q) x x ;; mv_get_by_idx z 0) = Ok (fz 0).
Proof. vm_compute. reflexivity. Qed.

(** C63. The full claim - equal arguments give equal products, on whatever storage - is false
    for floats.  Two equal sparse multivectors, read alike at every index, whose maps iterate
    in different orders have different products; so a program's result may change from run
    to run. *)
Theorem C63_equal_arguments_refuted : exists (H : HashOrder) (x x' y : store KSparse flt) c c',
  declared sg_e3 (alg sg_e3) /\ valid (alg sg_e3) x /\ valid (alg sg_e3) x' /\ valid (alg sg_e3) y /\
  mv_eqb x x' = true /\
  (forall i, (i < 8)%N -> mv_get_by_idx x i = mv_get_by_idx x' i) /\
  (z <- mv_mul (alg sg_e3) x y ;; mv_get_by_idx z 0) = Ok c /\
  (z <- mv_mul (alg sg_e3) x' y ;; mv_get_by_idx z 0) = Ok c' /\ c <> c'.
Proof. exact (ex_intro _ ho2 (ex_intro _ (fs 0) (ex_intro _ (fs 1) (ex_intro _ fo (ex_intro _ (fz 0) (ex_intro _ (fz 1) order_matters)))))). Qed.
Print Assumptions C63_equal_arguments_refuted.

(** ... and 1 scaled by infinity is (Inf, 0, 0, 0) in dense storage but (Inf, NaN, NaN, NaN)
    as a quaternion. *)
Theorem C63_storages_agree_refuted :
  declared sg_q (alg sg_q) /\
  let x : store KDense flt := mkArr 2 [fz 1; fz 0; fz 0; fz 0] in
  let q : store KQuat flt := mkQ (fz 1) (fz 0) (fz 0) (fz 0) in
  valid (alg sg_q) x /\ valid (alg sg_q) q /\
  (forall i, (i < 4)%N -> mv_get_by_idx x i = mv_get_by_idx q i) /\
  (z <- mv_scale (alg sg_q) x (FInf false) ;; mv_get_by_idx z 1) = Ok (fz 0) /\
  (z <- mv_scale (alg sg_q) q (FInf false) ;; mv_get_by_idx z 1) = Ok FNaN.
Proof. exact scale_inf. Qed.
Print Assumptions C63_storages_agree_refuted.

(** What holds: arguments with equal coefficients, enumerated in the same order on the left and
    with the same indices in use on the right, have the same product on every storage. *)
Theorem C63_same_order_partial {T} {RO : RingOps T} {W : NumLaws T} {m : Mode} {H : HashOrder}
  (k k' : kind) sg A (x y : store k T) (x' y' : store k' T) : declared sg A ->
  valid A x -> valid A y -> valid A x' -> valid A y' ->
  (forall i, (i < 2 ^ N.of_nat (a_dim A))%N -> rd x i = rd x' i) -> (forall i, (i < 2 ^ N.of_nat (a_dim A))%N -> rd y i = rd y' i) ->
  map fst (mv_coeff_enumerate x) = map fst (mv_coeff_enumerate x') ->
  (forall j, In j (map fst (mv_coeff_enumerate y)) <-> In j (map fst (mv_coeff_enumerate y'))) ->
  same A (mv_mul A x y) (mv_mul A x' y').
Proof. exact (fun D => same_order_thm sg A D k k' x y x' y'). Qed.
Print Assumptions C63_same_order_partial.

(** Dense and sparse, the latter iterating upwards: both round 2^53 + 1 - 2^53 to 0. *)
Example C63_same_order_partial_ex : let H := ho2 in
  let x : store KDense flt := mkArr 3 [fz 0; fz (2 ^ 53); fz 1; fz 0; fz (- 2 ^ 53); fz 0; fz 0; fz 0] in
  let y : store KDense flt := mkArr 3 [fz 0; fz 1; fz 1; fz 0; fz 1; fz 0; fz 0; fz 0] in
  map fst (mv_coeff_enumerate x) = map fst (mv_coeff_enumerate (fs 0)) /\
  map fst (mv_coeff_enumerate y) = map fst (mv_coeff_enumerate fo) /\
  (z <- mv_mul (alg sg_e3) x y ;; mv_get_by_idx z 0) = Ok (fz 0) /\
  (z <- mv_mul (alg sg_e3) (fs 0) fo ;; mv_get_by_idx z 0) = Ok (fz 0).
Proof. vm_compute. repeat split; reflexivity. Qed.

(** Dense and quaternion products agree to the bit unless 0 * c is not 0 for some coefficient
    c (for floats: unless a coefficient is infinite or NaN). *)
Theorem C63_dense_quat_partial {T} {RO : RingOps T} {W : NumLaws T} {m : Mode} {H : HashOrder}
  sg A (x y : arr T) (x' y' : qst T) : declared sg A -> a_dim A = 2 -> valid A x -> valid A y ->
  (forall i, (i < 4)%N -> rd x i = rd x' i /\ rd y i = rd y' i) ->
  (forall i, (i < 4)%N -> rmul r0 (rd y i) = r0 /\ rmul (rd x i) r0 = r0) ->
  same A (mv_mul A x y) (mv_mul A x' y').
Proof. exact (fun D => dense_quat_thm sg A D x y x' y'). Qed.
Print Assumptions C63_dense_quat_partial.

Example C63_dense_quat_partial_ex :
  let x : arr flt := mkArr 2 [fz (2 ^ 53); fz 1; fz 0; fz (2 ^ 53)] in
  let q : qst flt := mkQ (fz (2 ^ 53)) (fz 1) (fz 0) (fz (2 ^ 53)) in
  valid (alg sg_q) x /\ map (rd x) [0; 1; 2; 3]%N = map (rd q) [0; 1; 2; 3]%N /\
  map (fun i => rmul r0 (rd x i)) [0; 1; 2; 3]%N = repeat r0 4 /\
  (z <- mv_mul (alg sg_q) x x ;; mv_get_by_idx z 2) = Ok (fz 0) /\
  (z <- mv_mul (alg sg_q) q q ;; mv_get_by_idx z 2) = Ok (fz 0) /\
  (z <- mv_mul (alg sg_q) q q ;; mv_get_by_idx z 1) = Ok (fz (2 ^ 54)).
Proof. cbv zeta. split; [vld|]. vm_compute. repeat split; reflexivity. Qed.

(** C09 without exactness: [==] compares all coefficients with the coefficients' [==]. *)
Theorem C09_equality_floats {T} {RO : RingOps T} {W : NumLaws T} {m : Mode} {H : HashOrder}
  (k : kind) A (x y : store k T) : valid A x -> valid A y ->
  (mv_eqb x y = true <-> forall i, (i < 2 ^ N.of_nat (a_dim A))%N ->
     exists a b, mv_get_by_idx x i = Ok a /\ mv_get_by_idx y i = Ok b /\ reqb a b = true).
Proof. exact (eq_any k A x y). Qed.
Print Assumptions C09_equality_floats.

(** A multivector with a NaN coefficient is not equal to itself. *)
Example C09_equality_floats_ex : valid (alg sg_e3) fx /\ mv_eqb fx fx = false /\ mv_eqb (fs 0) (fs 1) = true.
Proof. split; [exact v_fx|]. vm_compute. split; reflexivity. Qed.

(** C11 without exactness: conversions keep every coefficient, NaN and infinities included. *)
Theorem C11_convert_floats {T} {RO : RingOps T} {W : NumLaws T} {m : Mode} {H : HashOrder}
  (k k' : kind) sg A (x : store k T) : declared sg A -> supports k' A -> valid A x ->
  exists z : store k' T, mv_to_storage A x = Ok z /\ valid A z /\
    (forall i, (i < 2 ^ N.of_nat (a_dim A))%N -> mv_get_by_idx z i = mv_get_by_idx x i).
Proof. exact (convert_any k k' sg A x). Qed.
Print Assumptions C11_convert_floats.

Example C11_convert_floats_ex : exists z : store KSparse flt, mv_to_storage (alg sg_e3) fx = Ok z /\
  mv_get_by_idx z 1 = Ok FNaN /\ mv_get_by_idx z 3 = Ok (FInf true) /\ mv_get_by_idx z 2 = Ok (fz 0).
Proof. eexists. split; [vm_compute; reflexivity|]. vm_compute. repeat split; reflexivity. Qed.
