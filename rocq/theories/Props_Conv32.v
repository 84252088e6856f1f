(** Property C73: single precision coefficients in the transforms, which work in double precision. *)
From Verif Require Import Ex_Conv32.
From Coq Require Import QArith.
Local Open Scope Qc_scope.

(** [as f64] of a single precision number is a double precision number of the same value, and [as f32] gives it back. *)
Theorem C73_widen (c : f32) : is_f32 c ->
  flt_val (f64_of_f32 c) = val c /\ flt_finite (f64_of_f32 c) = finite c /\ is_f64 (f64_of_f32 c) /\ f32_of_f64 (f64_of_f32 c) = c.
Proof. exact (widen_full c). Qed.
Print Assumptions C73_widen.

(** 1/10, the least positive number 2^-149 and the largest number. *)
Example C73_widen_ex : is_f32 (gq 1 10) /\ is_f32 (mk32 (FFin false 1 (-149))) /\ is_f32 (mk32 (FFin true 16777215 104)) /\
  as_flt (gq 1 10) = FFin false 13421773 (-27) /\ f64_of_f32 (gq 1 10) = FFin false (13421773 * 2 ^ 29) (-56).
Proof. repeat split; vm_compute; reflexivity. Qed.

(** [as f32] of any float is a single precision number; if it is finite then so is the float, and the value changes by
    at most one rounding.  A float that is close enough to a single precision number becomes that number. *)
Theorem C73_narrow (c : flt) : is_f32 (f32_of_f64 c) /\
  (finite (f32_of_f64 c) = true -> flt_finite c = true /\ @rounds f32 V32 (val (f32_of_f64 c)) (flt_val c)) /\
  (forall x, is_f32 x -> val x <> 0 -> Qcabs (flt_val c - val x) <= pow2q (-26) * Qcabs (val x) -> f32_of_f64 c = x).
Proof. exact (narrow_full c). Qed.
Print Assumptions C73_narrow.

(** 1/10 is rounded; 2^1000 is too large; 1/2 + 2^-40 is close enough to 1/2. *)
Example C73_narrow_ex :
  finite (f32_of_f64 (fq 1 10)) = true /\ Qc_eq_bool (val (f32_of_f64 (fq 1 10))) (flt_val (fq 1 10)) = false /\
  finite (f32_of_f64 (fz (2 ^ 1000))) = false /\
  is_f32 (gq 1 2) /\ val (gq 1 2) <> 0 /\
  let c := radd (fq 1 2) (fq 1 (2 ^ 40)) in
  Qc_eq_bool (flt_val c) (val (gq 1 2)) = false /\ Qcabs (flt_val c - val (gq 1 2)) <= pow2q (-26) * Qcabs (val (gq 1 2)).
Proof. repeat split; try (vm_compute; reflexivity); vm_compute; discriminate. Qed.

(** [fft] followed by [ifft] of a multivector over [f32]: the coefficients that come back are single precision numbers.
    Let e be the bound of C71 in double precision.  If the coefficients are finite then every one of them is the old one
    up to e and one rounding to single precision; and a coefficient that is at least 2^26 e in size comes back exactly. *)
Theorem C73_round_trip {m : Mode} {H : HashOrder} sg A (x : store KDense f32) : declared sg A -> (length sg < 63)%nat -> valid A x ->
  (forall i, (i < 2 ^ N.of_nat (a_dim A))%N -> is_f32 (rd x i)) ->
  exists z : store KDense f32, (X <- mv_fft (F := flt) A (x : arr f32) ;; fr_ifft A X) = Ok (z : arr f32) /\ valid A z /\
  (forall i, (i < 2 ^ N.of_nat (a_dim A))%N -> is_f32 (rd z i)) /\
  ((forall i, (i < 2 ^ N.of_nat (a_dim A))%N -> finite (rd z i) = true) ->
   forall i, (i < 2 ^ N.of_nat (a_dim A))%N ->
   let e := @round_trip_error flt V64 ((nonnull sg + 1) / 2) (sumI (a_dim A) (fun j => Qcabs (val (rd x j)))) in
   Qcabs (val (rd z i) - val (rd x i)) <= narrowed e (val (rd x i)) /\
   (val (rd x i) <> 0 -> e <= pow2q (-26) * Qcabs (val (rd x i)) -> rd z i = rd x i)).
Proof. exact (fun D Hl => rt_store32 sg A D Hl x). Qed.
Print Assumptions C73_round_trip.

(** In Cl(1,1,1): all coefficients satisfy the condition, so x is given back exactly. *)
Example C73_round_trip_ex : let A := alg sg_p11 in
  declared sg_p11 A /\ valid A c3_x /\ forallb (fun i => f32_ok (rd c3_x i)) (idxs 3) = true /\
  forallb (fun i => qleb (@round_trip_error flt V64 1 (sumI 3 (fun j => Qcabs (val (rd c3_x j))))) (pow2q (-26) * Qcabs (val (rd c3_x i)))) (idxs 3) = true /\
  match (X <- mv_fft (F := flt) A (c3_x : arr f32) ;; (fr_ifft A X : res (arr f32))) with
  | Ok z => forallb (fun i => finite (rd (S := store KDense _) z i) && f32_same (rd (S := store KDense _) z i) (rd c3_x i))%bool (idxs 3)
  | _ => false end = true.
Proof. cbv zeta. split; [dcl|]. split; [exact v_c3x|]. split; [|split]; vm_compute; reflexivity. Qed.

(** The same for [Complex32], real and imaginary parts separately. *)
Theorem C73_round_trip_complex {m : Mode} {H : HashOrder} sg A (x : store KDense (cplx f32)) : declared sg A -> (length sg < 63)%nat -> valid A x ->
  (forall i, (i < 2 ^ N.of_nat (a_dim A))%N -> is_c32 (rd x i)) ->
  exists z : store KDense (cplx f32), (X <- mv_fft (F := flt) A (x : arr (cplx f32)) ;; fr_ifft A X) = Ok (z : arr (cplx f32)) /\ valid A z /\
  (forall i, (i < 2 ^ N.of_nat (a_dim A))%N -> is_c32 (rd z i)) /\
  ((forall i, (i < 2 ^ N.of_nat (a_dim A))%N -> cfinite (rd z i) = true) ->
   forall i, (i < 2 ^ N.of_nat (a_dim A))%N ->
   let e := @round_trip_error flt V64 ((nonnull sg + 1) / 2) (sumI (a_dim A) (fun j => cabs1 (cval (rd x j)))) in
   Qcabs (val (c_re (rd z i)) - val (c_re (rd x i))) <= narrowed e (val (c_re (rd x i))) /\
   Qcabs (val (c_im (rd z i)) - val (c_im (rd x i))) <= narrowed e (val (c_im (rd x i))) /\
   (val (c_re (rd x i)) <> 0 -> e <= pow2q (-26) * Qcabs (val (c_re (rd x i))) -> c_re (rd z i) = c_re (rd x i)) /\
   (val (c_im (rd x i)) <> 0 -> e <= pow2q (-26) * Qcabs (val (c_im (rd x i))) -> c_im (rd z i) = c_im (rd x i))).
Proof. exact (fun D Hl => rt_storec32 sg A D Hl x). Qed.
Print Assumptions C73_round_trip_complex.

Example C73_round_trip_complex_ex : let A := alg sg_11 in
  declared sg_11 A /\ valid A c3_c /\ forallb (fun i => f32_ok (c_re (rd c3_c i)) && f32_ok (c_im (rd c3_c i)))%bool (idxs 2) = true /\
  forallb (fun i => qleb (@round_trip_error flt V64 1 (sumI 2 (fun j => cabs1 (cval (rd c3_c j))))) (pow2q (-26) * Qcabs (val (c_re (rd c3_c i))))) (idxs 2) = true /\
  match (X <- mv_fft (F := flt) A (c3_c : arr (cplx f32)) ;; (fr_ifft A X : res (arr (cplx f32)))) with
  | Ok z => forallb (fun i => cfinite (rd (S := store KDense _) z i) && f32_same (c_re (rd (S := store KDense _) z i)) (c_re (rd c3_c i)))%bool (idxs 2)
  | _ => false end = true.
Proof. cbv zeta. split; [dcl|]. split; [exact v_c3c|]. split; [|split]; vm_compute; reflexivity. Qed.

(** Products of multivectors over [f32] computed through the transforms: every coefficient is within the bound of C72
    in double precision, and one rounding to single precision, of the exact one. *)
Theorem C73_fast_product {m : Mode} {H : HashOrder} sg A (x y : store KDense f32) : declared sg A -> (length sg < 63)%nat -> valid A x -> valid A y ->
  (forall i, (i < 2 ^ N.of_nat (a_dim A))%N -> is_f32 (rd x i) /\ is_f32 (rd y i)) ->
  exists z : store KDense f32, (X <- mv_fft (F := flt) A (x : arr f32) ;; Y <- mv_fft A (y : arr f32) ;; P <- fr_mul X Y ;; fr_ifft A P) = Ok (z : arr f32) /\ valid A z /\
  (forall i, (i < 2 ^ N.of_nat (a_dim A))%N -> is_f32 (rd z i)) /\
  ((forall i, (i < 2 ^ N.of_nat (a_dim A))%N -> finite (rd z i) = true) ->
   forall i, (i < 2 ^ N.of_nat (a_dim A))%N ->
   let v := spec_mul (sq sg) (a_dim A) (fun j => val (rd x j)) (fun j => val (rd y j)) i in
   let e := @fast_product_error flt V64 ((nonnull sg + 1) / 2) (a_dim A - nonnull sg) (sumI (a_dim A) (fun j => Qcabs (val (rd x j)))) (sumI (a_dim A) (fun j => Qcabs (val (rd y j)))) in
   Qcabs (val (rd z i) - v) <= narrowed e v).
Proof. exact (fun D Hl => fp_store32 sg A D Hl x y). Qed.
Print Assumptions C73_fast_product.

(** In Cl(1,1,1) the scalar part is rounded; its bound is below 2^-23. *)
Example C73_fast_product_ex : let A := alg sg_p11 in
  declared sg_p11 A /\ valid A c3_x /\ valid A c3_y /\ forallb (fun i => f32_ok (rd c3_x i) && f32_ok (rd c3_y i))%bool (idxs 3) = true /\
  match (X <- mv_fft (F := flt) A (c3_x : arr f32) ;; Y <- mv_fft (F := flt) A (c3_y : arr f32) ;; P <- fr_mul X Y ;; (fr_ifft A P : res (arr f32))) with
  | Ok z => (forallb (fun i => finite (rd (S := store KDense _) z i)) (idxs 3) &&
             negb (Qc_eq_bool (val (rd (S := store KDense _) z 0)) (spec_mul (sq sg_p11) 3 (fun j => val (rd c3_x j)) (fun j => val (rd c3_y j)) 0)) &&
             qleb (narrowed (@fast_product_error flt V64 1 1 (sumI 3 (fun j => Qcabs (val (rd c3_x j)))) (sumI 3 (fun j => Qcabs (val (rd c3_y j)))))
                    (spec_mul (sq sg_p11) 3 (fun j => val (rd c3_x j)) (fun j => val (rd c3_y j)) 0)) (qz 1 (2 ^ 23)))%bool
  | _ => false end = true.
Proof. cbv zeta. split; [dcl|]. split; [exact v_c3x|]. split; [exact v_c3y|]. split; vm_compute; reflexivity. Qed.

Theorem C73_fast_product_complex {m : Mode} {H : HashOrder} sg A (x y : store KDense (cplx f32)) : declared sg A -> (length sg < 63)%nat -> valid A x -> valid A y ->
  (forall i, (i < 2 ^ N.of_nat (a_dim A))%N -> is_c32 (rd x i) /\ is_c32 (rd y i)) ->
  exists z : store KDense (cplx f32), (X <- mv_fft (F := flt) A (x : arr (cplx f32)) ;; Y <- mv_fft A (y : arr (cplx f32)) ;; P <- fr_mul X Y ;; fr_ifft A P) = Ok (z : arr (cplx f32)) /\ valid A z /\
  (forall i, (i < 2 ^ N.of_nat (a_dim A))%N -> is_c32 (rd z i)) /\
  ((forall i, (i < 2 ^ N.of_nat (a_dim A))%N -> cfinite (rd z i) = true) ->
   forall i, (i < 2 ^ N.of_nat (a_dim A))%N ->
   let v := spec_mul (sq sg) (a_dim A) (fun j => cval (rd x j)) (fun j => cval (rd y j)) i in
   let e := @fast_product_error flt V64 ((nonnull sg + 1) / 2) (a_dim A - nonnull sg) (sumI (a_dim A) (fun j => cabs1 (cval (rd x j)))) (sumI (a_dim A) (fun j => cabs1 (cval (rd y j)))) in
   Qcabs (val (c_re (rd z i)) - c_re v) <= narrowed e (c_re v) /\ Qcabs (val (c_im (rd z i)) - c_im v) <= narrowed e (c_im v)).
Proof. exact (fun D Hl => fp_storec32 sg A D Hl x y). Qed.
Print Assumptions C73_fast_product_complex.

Example C73_fast_product_complex_ex : let A := alg sg_11 in
  declared sg_11 A /\ valid A c3_c /\ valid A c3_e /\ forallb (fun i => f32_ok (c_re (rd c3_c i)) && f32_ok (c_im (rd c3_c i)) && f32_ok (c_re (rd c3_e i)) && f32_ok (c_im (rd c3_e i)))%bool (idxs 2) = true /\
  match (X <- mv_fft (F := flt) A (c3_c : arr (cplx f32)) ;; Y <- mv_fft (F := flt) A (c3_e : arr (cplx f32)) ;; P <- fr_mul X Y ;; (fr_ifft A P : res (arr (cplx f32)))) with
  | Ok z => (forallb (fun i => cfinite (rd (S := store KDense _) z i)) (idxs 2) &&
             negb (forallb (fun i => Qc_eq_bool (val (c_re (rd (S := store KDense _) z i))) (c_re (spec_mul (sq sg_11) 2 (fun j => cval (rd c3_c j)) (fun j => cval (rd c3_e j)) i))) (idxs 2)))%bool
  | _ => false end = true.
Proof. cbv zeta. split; [dcl|]. split; [exact v_c3c|]. split; [exact v_c3e|]. split; vm_compute; reflexivity. Qed.
