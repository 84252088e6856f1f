(** Property C72: rounding errors of products computed through the transforms.  F stands for the floating
    point type (C69 shows that f64 and f32 meet RoundLaws, C66 that they meet NumLaws). *)
From Verif Require Import Ex_FastProd.
From Coq Require Import QArith.
Local Open Scope Qc_scope.

(** [x.fft() * y.fft()] transformed back: every coefficient is within fast_product_error of the exact one.
    P and Q are the sums of the absolute values of the coefficients, 2^m is the side of the matrices, s the
    number of null generators.  The only condition is that the coefficients that come back are finite. *)
Theorem C72_fast_product {F} {RF : RingOps F} {DF : DivOps F} {V : RoundOps F} {RL : RoundLaws F} {W : NumLaws F} {m : Mode} {H : HashOrder}
  sg A (x y : store KDense F) : declared sg A -> (length sg < 63)%nat -> valid A x -> valid A y ->
  exists z : store KDense F, (X <- mv_fft (F := F) A (x : arr F) ;; Y <- mv_fft A (y : arr F) ;; P <- fr_mul X Y ;; fr_ifft A P) = Ok (z : arr F) /\ valid A z /\
  ((forall i, (i < 2 ^ N.of_nat (a_dim A))%N -> finite (rd z i) = true) ->
   forall i, (i < 2 ^ N.of_nat (a_dim A))%N ->
   Qcabs (val (rd z i) - spec_mul (sq sg) (a_dim A) (fun j => val (rd x j)) (fun j => val (rd y j)) i)
    <= fast_product_error ((nonnull sg + 1) / 2) (a_dim A - nonnull sg) (sumI (a_dim A) (fun j => Qcabs (val (rd x j)))) (sumI (a_dim A) (fun j => Qcabs (val (rd y j))))).
Proof. exact (fun D Hl => fast_real sg A D Hl x y). Qed.
Print Assumptions C72_fast_product.

(** Two multivectors with all kinds of terms in Cl(1,1,1): the scalar part is not exact, the bound is below 2^-43. *)
Example C72_fast_product_ex : let A := alg sg_p11 in
  declared sg_p11 A /\ valid A fr_x /\ valid A fp_y /\
  match (X <- mv_fft (F := flt) A (fr_x : arr flt) ;; Y <- mv_fft (F := flt) A (fp_y : arr flt) ;; P <- fr_mul X Y ;; (fr_ifft A P : res (arr flt))) with
  | Ok z => (forallb (fun i => finite (rd (S := store KDense _) z i)) (idxs 3) &&
             negb (Qc_eq_bool (val (rd (S := store KDense _) z 0)) (spec_mul (sq sg_p11) 3 (fun j => val (rd fr_x j)) (fun j => val (rd fp_y j)) 0)) &&
             qleb (fast_product_error 1 1 (sumI 3 (fun j => Qcabs (val (rd fr_x j)))) (sumI 3 (fun j => Qcabs (val (rd fp_y j))))) (qz 1 (2 ^ 43)))%bool
  | _ => false end = true.
Proof. cbv zeta. split; [dcl|]. split; [exact v_frx|]. split; [exact v_fpy|]. vm_compute. reflexivity. Qed.

(** The same for complex coefficients, real and imaginary parts separately. *)
Theorem C72_fast_product_complex {F} {RF : RingOps F} {DF : DivOps F} {V : RoundOps F} {RL : RoundLaws F} {W : NumLaws F} {m : Mode} {H : HashOrder}
  sg A (x y : store KDense (cplx F)) : declared sg A -> (length sg < 63)%nat -> valid A x -> valid A y ->
  exists z : store KDense (cplx F), (X <- mv_fft (F := F) A (x : arr (cplx F)) ;; Y <- mv_fft A (y : arr (cplx F)) ;; P <- fr_mul X Y ;; fr_ifft A P) = Ok (z : arr (cplx F)) /\ valid A z /\
  ((forall i, (i < 2 ^ N.of_nat (a_dim A))%N -> cfinite (rd z i) = true) ->
   forall i, (i < 2 ^ N.of_nat (a_dim A))%N ->
   cwithin (fast_product_error ((nonnull sg + 1) / 2) (a_dim A - nonnull sg) (sumI (a_dim A) (fun j => cabs1 (cval (rd x j)))) (sumI (a_dim A) (fun j => cabs1 (cval (rd y j)))))
     (rd z i) (spec_mul (sq sg) (a_dim A) (fun j => cval (rd x j)) (fun j => cval (rd y j)) i)).
Proof. exact (fun D Hl => fast_cplx sg A D Hl x y). Qed.
Print Assumptions C72_fast_product_complex.

Example C72_fast_product_complex_ex : let A := alg sg_11 in
  declared sg_11 A /\ valid A fr_c /\ valid A fp_c /\
  match (X <- mv_fft (F := flt) A (fr_c : arr (cplx flt)) ;; Y <- mv_fft (F := flt) A (fp_c : arr (cplx flt)) ;; P <- fr_mul X Y ;; (fr_ifft A P : res (arr (cplx flt)))) with
  | Ok z => (forallb (fun i => cfinite (rd (S := store KDense _) z i)) (idxs 2) &&
             negb (forallb (fun i => Qc_eq_bool (val (c_re (rd (S := store KDense _) z i))) (c_re (spec_mul (sq sg_11) 2 (fun j => cval (rd fr_c j)) (fun j => cval (rd fp_c j)) i))) (idxs 2)) &&
             qleb (fast_product_error 1 0 (sumI 2 (fun j => cabs1 (cval (rd fr_c j)))) (sumI 2 (fun j => cabs1 (cval (rd fp_c j))))) (qz 1 (2 ^ 43)))%bool
  | _ => false end = true.
Proof. cbv zeta. split; [dcl|]. split; [exact v_frc|]. split; [exact v_fpc|]. vm_compute. reflexivity. Qed.

(** The product through the transforms and the product term by term differ by at most the sum of their bounds. *)
Theorem C72_fast_slow {F} {RF : RingOps F} {DF : DivOps F} {V : RoundOps F} {RL : RoundLaws F} {W : NumLaws F} {m : Mode} {H : HashOrder}
  sg A (x y : store KDense F) : declared sg A -> (length sg < 63)%nat -> valid A x -> valid A y ->
  exists z w : store KDense F, (X <- mv_fft (F := F) A (x : arr F) ;; Y <- mv_fft A (y : arr F) ;; P <- fr_mul X Y ;; fr_ifft A P) = Ok (z : arr F) /\ mv_mul A x y = Ok w /\
  ((forall i, (i < 2 ^ N.of_nat (a_dim A))%N -> finite (rd z i) = true) ->
   forall i, (i < 2 ^ N.of_nat (a_dim A))%N -> finite (rd w i) = true ->
   Qcabs (val (rd z i) - val (rd w i))
    <= fast_product_error ((nonnull sg + 1) / 2) (a_dim A - nonnull sg) (sumI (a_dim A) (fun j => Qcabs (val (rd x j)))) (sumI (a_dim A) (fun j => Qcabs (val (rd y j))))
     + product_error (length (mv_coeff_enumerate x)) (sumI (a_dim A) (fun j => Qcabs (val (rd x j)) * Qcabs (val (rd y (N.lxor j i)))))).
Proof. exact (fun D Hl => fast_slow sg A D Hl x y). Qed.
Print Assumptions C72_fast_slow.

(** They do differ. *)
Example C72_fast_slow_ex : let A := alg sg_p11 in
  declared sg_p11 A /\ valid A fr_x /\ valid A fp_y /\
  match (X <- mv_fft (F := flt) A (fr_x : arr flt) ;; Y <- mv_fft (F := flt) A (fp_y : arr flt) ;; P <- fr_mul X Y ;; (fr_ifft A P : res (arr flt))), mv_mul A fr_x fp_y with
  | Ok z, Ok w => (forallb (fun i => finite (rd (S := store KDense _) z i) && finite (rd (S := store KDense _) w i)) (idxs 3) &&
                   negb (forallb (fun i => Qc_eq_bool (val (rd (S := store KDense _) z i)) (val (rd (S := store KDense _) w i))) (idxs 3)))%bool
  | _, _ => false end = true.
Proof. cbv zeta. split; [dcl|]. split; [exact v_frx|]. split; [exact v_fpy|]. vm_compute. reflexivity. Qed.
