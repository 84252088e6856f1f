(** Properties C69 and C70: how far results in floating point are from exact arithmetic. *)
From Coq Require Import List.
Import ListNotations.
From Verif Require Import Ex_Round.
Local Open Scope Qc_scope.

(** C69. Double and single precision follow the standard model of rounding: every addition,
    product and quotient that does not overflow is the exact result up to a relative error
    u = 2^-53 (2^-24) and an absolute error of half the least positive number; negation is
    exact.  [flt_val] is the rational number a float stands for. *)
Theorem C69_f64 : @RoundLaws flt F64 (flt_div 53 1024) (flt_round 53 1024).
Proof. exact f64_rounds. Qed.
Print Assumptions C69_f64.
Theorem C69_f32 : @RoundLaws flt F32 (flt_div 24 128) (flt_round 24 128).
Proof. exact f32_rounds. Qed.
Print Assumptions C69_f32.

(** 1/10 is not exact, 1/2 is; 2^53 + 1 is rounded down by 2^-53 of itself (nearly); the square of the least number is lost. *)
Example C69_f64_ex :
  Qc_eq_bool (val (fq 1 10)) (qz 1 10) = false /\ qleb (Qcabs (val (fq 1 10) - qz 1 10)) (ulp * qz 1 10 + eta) = true /\
  Qc_eq_bool (val (fq 1 2)) (qz 1 2) = true /\
  Qc_eq_bool (val (radd (fz (2 ^ 53)) (fz 1)) - (val (fz (2 ^ 53)) + val (fz 1))) (- (1)) = true /\
  Qc_eq_bool (ulp * val (fz (2 ^ 53))) 1 = true /\
  finite (rmul (FFin false 1 (-1074)) (FFin false 1 (-1074))) = true /\
  Qc_eq_bool (val (rmul (FFin false 1 (-1074)) (FFin false 1 (-1074)))) 0 = true /\
  Qc_eq_bool (val (FFin false 1 (-1074)) * val (FFin false 1 (-1074))) 0 = false /\
  finite (rmul (FFin false 4503599627370496 971) (fz 4)) = false.
Proof. vm_compute. repeat split; reflexivity. Qed.
Example C69_f32_ex : let R := F32 in let V := flt_round 24 128 in
  Qc_eq_bool (val (radd (FFin false 8388608 1) r1)) (val (FFin false 8388608 1)) = true /\
  Qc_eq_bool (val (FFin false 8388608 1)) (qz (2 ^ 24) 1) = true /\ Qc_eq_bool ulp (qz 1 (2 ^ 24)) = true.
Proof. vm_compute. repeat split; reflexivity. Qed.

(** Sums, differences, scalar multiples and scalar quotients round each coefficient once. *)
Theorem C69_linear {F} {RF : RingOps F} {DF : DivOps F} {V : RoundOps F} {RL : RoundLaws F} {W : NumLaws F} {m : Mode} {H : HashOrder}
  (k : kind) A (x y : store k F) t : valid A x -> valid A y ->
  (exists z, mv_add x y = Ok z /\ valid A z /\ forall i, (i < 2 ^ N.of_nat (a_dim A))%N -> finite (rd z i) = true -> rounds (val (rd z i)) (val (rd x i) + val (rd y i))) /\
  (exists z, mv_sub x y = Ok z /\ valid A z /\ forall i, (i < 2 ^ N.of_nat (a_dim A))%N -> finite (rd z i) = true -> rounds (val (rd z i)) (val (rd x i) - val (rd y i))) /\
  (finite t = true ->
   exists z, mv_scale A x t = Ok z /\ valid A z /\ forall i, (i < 2 ^ N.of_nat (a_dim A))%N -> finite (rd z i) = true -> rounds (val (rd z i)) (val (rd x i) * val t)) /\
  (finite t = true -> val t <> 0 -> rdiv r0 t = r0 ->
   exists z, mv_divs A x t = Ok z /\ valid A z /\ forall i, (i < 2 ^ N.of_nat (a_dim A))%N -> finite (rd z i) = true -> rounds (val (rd z i)) (val (rd x i) / val t)).
Proof. exact (linear_error A k x y t). Qed.
Print Assumptions C69_linear.

(** 1/10 + 3/10 and (1/5) / 3, rounded. *)
Example C69_linear_ex : valid (alg sg_q) r_x /\ valid (alg sg_q) r_y /\
  finite (fz 3) = true /\ val (fz 3) <> 0 /\ rdiv (fz 0) (fz 3) = fz 0 /\
  (z <- mv_add r_x r_y ;; mv_get_by_idx z 0) = Ok (fq 4 10) /\
  Qc_eq_bool (val (fq 4 10)) (val (fq 1 10) + val (fq 3 10)) = false /\
  (z <- mv_divs (alg sg_q) r_x (fz 3) ;; mv_get_by_idx z 1) = Ok (FFin false 4803839602528529 (-56)).
Proof.
  split; [exact v_rx|]. split; [exact v_ry|]. split; [reflexivity|]. split; [intros E; vm_compute in E; discriminate E|].
  vm_compute. repeat split; reflexivity.
Qed.

(** A coefficient of a product, if finite, is within ((1+u)^(t+1) - 1) * sum of |x_j| |y_(i xor j)|
    of the exact one (plus underflows), where t is the number of coefficients x enumerates. *)
Theorem C69_product {F} {RF : RingOps F} {DF : DivOps F} {V : RoundOps F} {RL : RoundLaws F} {W : NumLaws F} {m : Mode} {H : HashOrder}
  (k : kind) sg A (x y : store k F) : declared sg A -> valid A x -> valid A y ->
  exists z, mv_mul A x y = Ok z /\ valid A z /\
  forall i, (i < 2 ^ N.of_nat (a_dim A))%N -> finite (rd z i) = true ->
  Qcabs (val (rd z i) - spec_mul (sq sg) (a_dim A) (fun j => val (rd x j)) (fun j => val (rd y j)) i)
   <= product_error (length (mv_coeff_enumerate x)) (sumI (a_dim A) (fun j => Qcabs (val (rd x j)) * Qcabs (val (rd y (N.lxor j i))))).
Proof. exact (fun D Hx Hy => mul_error sg A D k x y Hx Hy). Qed.
Print Assumptions C69_product.

(** (1/10 + e0/5)(3/10 + e0/10) with e0^2 = -1: the scalar part is not exact, the bound is below 2^-54. *)
Example C69_product_ex : declared sg_q (alg sg_q) /\ valid (alg sg_q) r_x /\ valid (alg sg_q) r_y /\
  length (mv_coeff_enumerate r_x) = 2%nat /\
  (z <- mv_mul (alg sg_q) r_x r_y ;; mv_get_by_idx z 0) = Ok (FFin false 5764607523034232 (-59)) /\
  Qc_eq_bool (val (FFin false 5764607523034232 (-59))) (val (fq 1 10) * val (fq 3 10) - val (fq 1 5) * val (fq 1 10)) = false /\
  qleb (product_error 2 (Qcabs (val (fq 1 10)) * Qcabs (val (fq 3 10)) + Qcabs (val (fq 1 5)) * Qcabs (val (fq 1 10)))) (qz 1 (2 ^ 54)) = true.
Proof.
  split; [exact d_q|]. split; [exact v_rx|]. split; [exact v_ry|]. vm_compute. repeat split; reflexivity.
Qed.

(** The same for the wedge product computed term by term (the wedge of sparse multivectors). *)
Theorem C69_wedge {F} {RF : RingOps F} {DF : DivOps F} {V : RoundOps F} {RL : RoundLaws F} {W : NumLaws F} {m : Mode} {H : HashOrder}
  (k : kind) sg A (x y : store k F) : declared sg A -> valid A x -> valid A y ->
  exists z, naive_wedge A x y = Ok z /\ valid A z /\
  forall i, (i < 2 ^ N.of_nat (a_dim A))%N -> finite (rd z i) = true ->
  Qcabs (val (rd z i) - spec_mul q0 (a_dim A) (fun j => val (rd x j)) (fun j => val (rd y j)) i)
   <= product_error (length (mv_coeff_enumerate x)) (sumI (a_dim A) (fun j => Qcabs (val (rd x j)) * Qcabs (val (rd y (N.lxor j i))))).
Proof. exact (fun D Hx Hy => wedge_error sg A D k x y Hx Hy). Qed.
Print Assumptions C69_wedge.

(** x ^ x = 0 for a vector x, though each product is rounded. *)
Example C69_wedge_ex : valid (alg sg_e3) (r_xs 0) /\ length (mv_coeff_enumerate (r_xs 0)) = 3%nat /\
  (z <- sparse_wedge (alg sg_e3) (r_xs 0) (r_xs 0) ;; mv_get_by_idx z 3) = Ok (fz 0) /\
  sparse_wedge (alg sg_e3) (r_xs 0) (r_xs 0) = naive_wedge (alg sg_e3) (r_xs 0) (r_xs 0) /\
  finite (fz 0) = true /\ Qc_eq_bool (val (rmul (fq 1 10) (fq 1 10))) (val (fq 1 10) * val (fq 1 10)) = false.
Proof. split; [apply v_rxs|]. vm_compute. repeat split; reflexivity. Qed.

(** The wedge product each storage offers; dense multivectors of six dimensions and more
    split their arguments in halves instead of forming all terms. *)
Theorem C69_wedge_storages {F} {RF : RingOps F} {DF : DivOps F} {V : RoundOps F} {RL : RoundLaws F} {W : NumLaws F} {m : Mode} {H : HashOrder}
  (k : kind) sg A (x y : store k F) : declared sg A -> k <> KQuat -> valid A x -> valid A y ->
  exists z, k_wedge k A x y = Ok z /\ valid A z /\
  forall i, (i < 2 ^ N.of_nat (a_dim A))%N -> finite (rd z i) = true ->
  Qcabs (val (rd z i) - spec_mul q0 (a_dim A) (fun j => val (rd x j)) (fun j => val (rd y j)) i)
   <= product_error (2 ^ a_dim A) (sumI (a_dim A) (fun j => Qcabs (val (rd x j)) * Qcabs (val (rd y (N.lxor j i))))).
Proof. exact (fun D HK Hx Hy => kwedge_error sg A D k x y HK Hx Hy). Qed.
Print Assumptions C69_wedge_storages.

(** x ^ x for the vector x above, dense and sparse. *)
Example C69_wedge_storages_ex : KDense <> KQuat /\ KSparse <> KQuat /\ valid (alg sg_e3) r_xd /\ valid (alg sg_e3) (r_xs 0) /\
  (z <- k_wedge KDense (alg sg_e3) r_xd r_xd ;; mv_get_by_idx z 5) = Ok (fz 0) /\
  (z <- k_wedge KSparse (alg sg_e3) (r_xs 0) (r_xs 0) ;; mv_get_by_idx z 5) = Ok (fz 0) /\
  (z <- k_wedge KDense (alg sg_e3) r_xd r_bd ;; mv_get_by_idx z 7) = Ok (FFin false 5764607523034234 (-56)).
Proof. split; [discriminate|]. split; [discriminate|]. split; [exact v_rxd|]. split; [apply v_rxs|]. vm_compute. repeat split; reflexivity. Qed.

(** Splitting also adds the terms pairwise: the relative error grows with the dimension, not
    with the number of coefficients. *)
Theorem C69_dense_wedge {F} {RF : RingOps F} {DF : DivOps F} {V : RoundOps F} {RL : RoundLaws F} {W : NumLaws F} {m : Mode} {H : HashOrder}
  A (x y : store KDense F) : (6 <= a_dim A)%nat -> valid A x -> valid A y ->
  exists z, dense_wedge A x y = Ok z /\ valid A z /\
  forall i, (i < 2 ^ N.of_nat (a_dim A))%N -> finite (rd z i) = true ->
  Qcabs (val (rd z i) - spec_mul q0 (a_dim A) (fun j => val (rd x j)) (fun j => val (rd y j)) i)
   <= tree_error (a_dim A) (sumI (a_dim A) (fun j => Qcabs (val (rd x j)) * Qcabs (val (rd y (N.lxor j i))))).
Proof. exact (dense_wedge_error A x y). Qed.
Print Assumptions C69_dense_wedge.

(** The pseudoscalar part of x ^ x in six dimensions; the relative error is below 8 u. *)
Example C69_dense_wedge_ex : (6 <= a_dim (alg sg_6))%nat /\ valid (alg sg_6) r_6 /\
  (z <- dense_wedge (alg sg_6) r_6 r_6 ;; mv_get_by_idx z 63) = Ok (FFin false 8646911284551352 (-56)) /\
  qleb (tree_error 6 1) (qz 8 (2 ^ 53)) = true.
Proof. split; [apply Nat.leb_le; reflexivity|]. split; [exact v_r6|]. vm_compute. split; reflexivity. Qed.

(** The regressive product: the same program on rational numbers gives the exact value. *)
Theorem C69_meet {F} {RF : RingOps F} {DF : DivOps F} {V : RoundOps F} {RL : RoundLaws F} {W : NumLaws F} {m : Mode} {H : HashOrder}
  (k : kind) sg A (x y : store k F) (x' y' : store k Qc) : declared sg A -> k <> KQuat ->
  valid A x -> valid A y -> valid A x' -> valid A y' ->
  (forall i, (i < 2 ^ N.of_nat (a_dim A))%N -> rd x' i = val (rd x i) /\ rd y' i = val (rd y i)) ->
  exists z z', k_meet k A x y = Ok z /\ k_meet k A x' y' = Ok z' /\ valid A z /\ valid A z' /\
  forall i, (i < 2 ^ N.of_nat (a_dim A))%N -> finite (rd z i) = true ->
  Qcabs (val (rd z i) - rd z' i)
   <= product_error (2 ^ a_dim A) (sumI (a_dim A) (fun j => Qcabs (val (rd x j)) * Qcabs (val (rd y (2 ^ N.of_nat (a_dim A) - 1 - N.lxor j i)%N)))).
Proof. exact (fun D => meet_error sg A D k x y x' y'). Qed.
Print Assumptions C69_meet.

(** The line common to two planes of space: a coefficient is not exact, the bound is below 2^-52. *)
Example C69_meet_ex : valid (alg sg_e3) r_bd /\ valid (alg sg_e3) r_cd /\ valid (alg sg_e3) r_bq /\ valid (alg sg_e3) r_cq /\
  (forall i, (i < 8)%N -> rd r_bq i = val (rd r_bd i) /\ rd r_cq i = val (rd r_cd i)) /\
  match k_meet KDense (alg sg_e3) r_bd r_cd, k_meet KDense (alg sg_e3) r_bq r_cq with Ok z, Ok z' => finite (rd z 1) && negb (Qc_eq_bool (val (rd z 1)) (rd z' 1)) | _, _ => false end = true /\
  qleb (product_error 8 (sumI 3 (fun j => Qcabs (val (rd r_bd j)) * Qcabs (val (rd r_cd (7 - N.lxor j 1)%N))))) (qz 1 (2 ^ 52)) = true.
Proof.
  split; [exact v_bd|]. split; [exact v_cd|]. split; [exact v_bq|]. split; [exact v_cq|].
  split; [|vm_compute; split; reflexivity].
  intros i Hi. destruct i as [|[[[p|p|]|[p|p|]|]|[[p|p|]|[p|p|]|]|]]; try (split; reflexivity); exfalso; lia.
Qed.

(** So the same product in two storages, or under two iteration orders of a hash map, agrees
    up to twice the bound - bit for bit it may not (C63). *)
Theorem C69_storages_close {F} {RF : RingOps F} {DF : DivOps F} {V : RoundOps F} {RL : RoundLaws F} {W : NumLaws F} {m : Mode} {H : HashOrder}
  (k k' : kind) sg A (x y : store k F) (x' y' : store k' F) z z' : declared sg A ->
  valid A x -> valid A y -> valid A x' -> valid A y' ->
  (forall i, (i < 2 ^ N.of_nat (a_dim A))%N -> rd x i = rd x' i /\ rd y i = rd y' i) ->
  mv_mul A x y = Ok z -> mv_mul A x' y' = Ok z' ->
  forall i, (i < 2 ^ N.of_nat (a_dim A))%N -> finite (rd z i) = true -> finite (rd z' i) = true ->
  Qcabs (val (rd z i) - val (rd z' i)) <=
  product_error (length (mv_coeff_enumerate x)) (sumI (a_dim A) (fun j => Qcabs (val (rd x j)) * Qcabs (val (rd y (N.lxor j i))))) +
  product_error (length (mv_coeff_enumerate x')) (sumI (a_dim A) (fun j => Qcabs (val (rd x j)) * Qcabs (val (rd y (N.lxor j i))))).
Proof. exact (fun D => mul_close sg A D k k' x y x' y' z z'). Qed.
Print Assumptions C69_storages_close.

(** The square of (1/10) e0 + (1/10) e1 + (3/10) e2, dense and sparse with a reversed order: the last bit differs. *)
Example C69_storages_close_ex : let H := ho2 in
  declared sg_e3 (alg sg_e3) /\ valid (alg sg_e3) r_xd /\ valid (alg sg_e3) (r_xs 1) /\
  (forall i, (i < 8)%N -> rd r_xd i = rd (r_xs 1) i) /\
  match mv_mul (alg sg_e3) r_xd r_xd, mv_mul (alg sg_e3) (r_xs 1) (r_xs 1) with Ok z, Ok z' => let c := rd z 0 in let c' := rd z' 0 in
    finite c = true /\ finite c' = true /\ Qc_eq_bool (val c) (val c') = false /\ qleb (Qcabs (val c - val c')) (qz 1 (2 ^ 54)) = true
  | _, _ => False end.
Proof.
  cbv zeta. split; [exact d_e3|]. split; [exact v_rxd|]. split; [apply v_rxs|]. split.
  { intros i Hi. destruct i as [|[[[p|p|]|[p|p|]|]|[[p|p|]|[p|p|]|]|]]; try reflexivity; exfalso; lia. }
  vm_compute. repeat split; reflexivity.
Qed.

(** C70. Running a program (any combination of constructors, sums, products, scalings,
    wedge and regressive products, involutions, duals, grade projections and conversions, see [arith]) on rounded
    coefficients fails exactly when it fails on rational numbers, and otherwise every coefficient is within
    [err] of the exact one, provided no step overflows.  [err] is computed from the exact
    intermediate sizes alone. *)
Theorem C70_programs {F} {RF : RingOps F} {DF : DivOps F} {CF : ConjOps F} {V : RoundOps F} {RL : RoundLaws F} {W : NumLaws F} {m : Mode} {H : HashOrder}
  (k : kind) sg A (e : expr F) : declared sg A -> supports k A -> offers k A e -> arith e -> fine k A e ->
  match eval k A e, eval k A (ex e) with
  | Ok z, Ok z' => valid A z /\ valid A z' /\ forall i, (i < 2 ^ N.of_nat (a_dim A))%N -> Qcabs (val (rd z i) - rd z' i) <= err k A e i
  | Err a, Err b => a = b
  | _, _ => False
  end.
Proof. exact (fun D => prog_error sg A D k e). Qed.
Print Assumptions C70_programs.

(** ((1/10 + e0) (3/10 + e0)) / 3 - (1/5) e0: the scalar part is not exact, the bounds are below 2^-51. *)
Example C70_programs_ex :
  let e : expr flt := ESub (EDivs (EMul (EAdd (EScalar (fq 1 10)) (EBasis 0)) (EAdd (EScalar (fq 3 10)) (EBasis 0))) (fz 3)) (EScale (ERev (EBasis 0)) (fq 1 5)) in
  offers KDense (alg sg_q) e /\ arith e /\ fine KDense (alg sg_q) e /\
  match eval KDense (alg sg_q) e, eval KDense (alg sg_q) (ex e) with Ok z, Ok z' => Qc_eq_bool (val (rd z 0)) (rd z' 0) | _, _ => true end = false /\
  qleb (err KDense (alg sg_q) e 0) (qz 1 (2 ^ 51)) = true /\ qleb (err KDense (alg sg_q) e 1) (qz 1 (2 ^ 51)) = true.
Proof.
  cbv zeta. split; [cbn [offers]; repeat split; apply Nat.ltb_lt; reflexivity|].
  split; [cbn [arith]; repeat split; try (intros E; vm_compute in E; discriminate E); vm_compute; reflexivity|].
  split; [fin_all|]. split; [vm_compute; reflexivity|].
  vm_compute. split; reflexivity.
Qed.

(** Wedge and regressive products: (((1/10) e0 + (1/5) e1) ^ ((3/10) e0 + (7/10) e1)) v ((3/10) e0), conjugated, in sparse storage. *)
Example C70_products_ex :
  let v a b : expr flt := EVec [fq a 10; fq b 10] in let e := ERevc (EMeet (EWedge (v 1 2)%Z (v 3 7)%Z) (v 3 0)%Z) in
  offers KSparse (alg sg_q) e /\ arith e /\ fine KSparse (alg sg_q) e /\
  match eval KSparse (alg sg_q) e, eval KSparse (alg sg_q) (ex e) with Ok z, Ok z' => Qc_eq_bool (val (rd z 1)) (rd z' 1) | _, _ => true end = false /\
  qleb (err KSparse (alg sg_q) e 1) (qz 1 (2 ^ 52)) = true.
Proof.
  cbv zeta. split; [cbn [offers]; repeat split; try discriminate; apply Nat.ltb_lt; reflexivity|].
  split; [cbn [arith]; repeat split; vm_compute; reflexivity|].
  split; [fin_all|]. split; vm_compute; reflexivity.
Qed.

(** Two programs with the same exact value give results that differ by at most the sum of
    their bounds: algebraic identities hold up to that. *)
Theorem C70_identities {F} {RF : RingOps F} {DF : DivOps F} {CF : ConjOps F} {V : RoundOps F} {RL : RoundLaws F} {W : NumLaws F} {m : Mode} {H : HashOrder}
  (k k' : kind) sg A (e e' : expr F) (z : store k F) (z' : store k' F) : declared sg A -> supports k A -> supports k' A ->
  offers k A e -> arith e -> fine k A e -> offers k' A e' -> arith e' -> fine k' A e' ->
  (forall i, (i < 2 ^ N.of_nat (a_dim A))%N -> exact k A e i = exact k' A e' i) ->
  eval k A e = Ok z -> eval k' A e' = Ok z' ->
  forall i, (i < 2 ^ N.of_nat (a_dim A))%N -> Qcabs (val (rd z i) - val (rd z' i)) <= err k A e i + err k' A e' i.
Proof. exact (fun D => progs_close sg A D k k' e e' z z'). Qed.
Print Assumptions C70_identities.

(** (x y) z and x (y z) for x = 1/10 + e0, y = 1/5 + e1, z = 3/10 differ, though the product is associative. *)
Example C70_identities_ex :
  let x : expr flt := EAdd (EScalar (fq 1 10)) (EBasis 0) in let y := EAdd (EScalar (fq 1 5)) (EBasis 1) in let z := EScalar (fq 3 10) in
  let e := EMul (EMul x y) z in let e' := EMul x (EMul y z) in
  offers KDense (alg sg_q) e /\ arith e /\ fine KDense (alg sg_q) e /\ offers KDense (alg sg_q) e' /\ arith e' /\ fine KDense (alg sg_q) e' /\
  (forall i, (i < 4)%N -> exact KDense (alg sg_q) e i = exact KDense (alg sg_q) e' i) /\
  match eval KDense (alg sg_q) e, eval KDense (alg sg_q) e' with Ok z, Ok z' => Qc_eq_bool (val (rd z 0)) (val (rd z' 0)) | _, _ => true end = false.
Proof.
  cbv zeta. split; [cbn [offers]; repeat split; apply Nat.ltb_lt; reflexivity|]. split; [cbn [arith]; repeat split|]. split; [fin_all|].
  split; [cbn [offers]; repeat split; apply Nat.ltb_lt; reflexivity|]. split; [cbn [arith]; repeat split|]. split; [fin_all|].
  split. { intros i Hi. apply Qc_eqb_spec. destruct i as [|[[p|p|]|[p|p|]|]]; try (vm_compute; reflexivity); exfalso; lia. }
  vm_compute. reflexivity.
Qed.

(** Powers are covered as well: they are the products they stand for. *)
Theorem C70_powers {F} {RF : RingOps F} {DF : DivOps F} {CF : ConjOps F} {V : RoundOps F} {m : Mode} {H : HashOrder}
  (k : kind) A (e : expr F) n : (0 < n)%nat ->
  eval k A (EPow e n) = eval k A (unroll (S n) e n) /\ (arith e -> arith (unroll (S n) e n)).
Proof. exact (fun Hn => conj (unroll_pow A k e n Hn) (fun He => unroll_arith e He (S n) n)). Qed.
Print Assumptions C70_powers.

(** The third power: x^2 times x; the fifth: the square of x^2 times x.  The scalar part of (1/10 + (3/10) e0)^3 is not exact. *)
Example C70_powers_ex :
  let x : expr flt := EIdx [(0%N, fq 1 10); (1%N, fq 3 10)] in let e := unroll 4 x 3 in
  e = EMul (EMul x x) x /\ unroll 6 x 5 = EMul (EMul (EMul x x) (EMul x x)) x /\ offers KDense (alg sg_q) e /\ arith e /\ fine KDense (alg sg_q) e /\
  eval KDense (alg sg_q) (EPow x 3) = eval KDense (alg sg_q) e /\
  match eval KDense (alg sg_q) (EPow x 3), eval KDense (alg sg_q) (ex e) with Ok z, Ok z' => Qc_eq_bool (val (rd z 0)) (rd z' 0) | _, _ => true end = false /\
  qleb (err KDense (alg sg_q) e 0) (qz 1 (2 ^ 46)) = true.
Proof.
  cbv zeta. split; [reflexivity|]. split; [reflexivity|]. split; [cbn [offers unroll Nat.div2 Nat.even]; repeat split; apply Nat.ltb_lt; reflexivity|].
  split; [cbn [arith unroll Nat.div2 Nat.even]; repeat split|]. split; [cbn [unroll Nat.div2 Nat.even]; fin_all|].
  split; [vm_compute; reflexivity|]. split; vm_compute; reflexivity.
Qed.
