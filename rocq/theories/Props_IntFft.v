(** Property C91: the transforms are exact on integers.  (prec, emax) is (53, 1024) for f64 and (24, 128) for f32;
    [flt_of_Z] writes an integer in that format. *)
From Verif Require Import Ex_IntFft.
From Coq Require Import List ZArith.
Import ListNotations.
Local Open Scope Z_scope.

(** C91. Integers whose absolute values add up to at most 2^prec / 4 come back unchanged from fft and ifft. *)
Theorem C91_round_trip prec emax {m : Mode} {H : HashOrder} sg A :
  let _ := flt_ops prec emax in let _ := flt_div prec emax in let _ := flt_laws prec emax in
  forall (x : store KDense flt) (f : N -> Z), ieee prec emax -> declared sg A -> (length sg < 63)%nat -> valid A x ->
  (forall i, (i < 2 ^ N.of_nat (a_dim A))%N -> rd x i = flt_of_Z prec emax (f i)) -> 4 * weight (a_dim A) f <= 2 ^ prec ->
  exists z : store KDense flt, (X <- mv_fft (F := flt) A (x : arr flt) ;; fr_ifft A X) = Ok (z : arr flt) /\ valid A z /\
  forall i, (i < 2 ^ N.of_nat (a_dim A))%N -> rd z i = rd x i.
Proof. exact (fun x f Hf D Hl => back_real prec emax Hf sg A D Hl x f). Qed.
Print Assumptions C91_round_trip.

(** Numbers of up to fifteen digits in Cl(1,1,1). *)
Example C91_round_trip_ex : let A := alg sg_p11 in
  ieee 53 1024 /\ declared sg_p11 A /\ valid A j_a /\ (forall i, (i < 8)%N -> rd j_a i = flt_of_Z 53 1024 (zf l_a i)) /\ 4 * weight 3 (zf l_a) <= 2 ^ 53 /\
  (X <- mv_fft (F := flt) A (j_a : arr flt) ;; (fr_ifft A X : res (arr flt))) = Ok (j_a : arr flt).
Proof.
  cbv zeta. split; [left; auto|]. split; [dcl|]. split; [exact v_ja|]. split; [exact r_ja|].
  split; [apply Z.leb_le; vm_compute; reflexivity|]. vm_compute. reflexivity.
Qed.
(** Larger integers need not come back, though they are floats: 2^53 + e1 e0. *)
Example C91_limit_ex : let A := alg sg_11 in let x : arr flt := mkArr 2 [fz (2 ^ 53); fz 0; fz 0; fz 1] in
  (X <- mv_fft (F := flt) A x ;; (fr_ifft A X : res (arr flt))) <> Ok x /\ (exists z, (X <- mv_fft (F := flt) A x ;; (fr_ifft A X : res (arr flt))) = Ok z).
Proof. cbv zeta. split; [vm_compute; discriminate|]. eexists. vm_compute. reflexivity. Qed.

(** C91. The same for Gaussian integers as complex coefficients. *)
Theorem C91_round_trip_complex prec emax {m : Mode} {H : HashOrder} sg A :
  let _ := flt_ops prec emax in let _ := flt_div prec emax in let _ := flt_laws prec emax in
  forall (x : store KDense (cplx flt)) (f : N -> cplx Z), ieee prec emax -> declared sg A -> (length sg < 63)%nat -> valid A x ->
  (forall i, (i < 2 ^ N.of_nat (a_dim A))%N -> rd x i = mkC (flt_of_Z prec emax (c_re (f i))) (flt_of_Z prec emax (c_im (f i)))) -> 4 * gweight (a_dim A) f <= 2 ^ prec ->
  exists z : store KDense (cplx flt), (X <- mv_fft (F := flt) A (x : arr (cplx flt)) ;; fr_ifft A X) = Ok (z : arr (cplx flt)) /\ valid A z /\
  forall i, (i < 2 ^ N.of_nat (a_dim A))%N -> rd z i = rd x i.
Proof. exact (fun x f Hf D Hl => back_cplx prec emax Hf sg A D Hl x f). Qed.
Print Assumptions C91_round_trip_complex.

Example C91_round_trip_complex_ex : let A := alg sg_11 in
  ieee 53 1024 /\ declared sg_11 A /\ valid A j_g /\ (forall i, (i < 4)%N -> rd j_g i = gz (c_re (gf l_g i)) (c_im (gf l_g i))) /\ 4 * gweight 2 (gf l_g) <= 2 ^ 53 /\
  (X <- mv_fft (F := flt) A (j_g : arr (cplx flt)) ;; (fr_ifft A X : res (arr (cplx flt)))) = Ok (j_g : arr (cplx flt)).
Proof.
  cbv zeta. split; [left; auto|]. split; [dcl|]. split; [exact v_jg|]. split; [exact r_jg|].
  split; [apply Z.leb_le; vm_compute; reflexivity|]. vm_compute. reflexivity.
Qed.

(** C91. The product through the transforms, and the product term by term, are both the exact one. *)
Theorem C91_product prec emax {m : Mode} {H : HashOrder} sg A :
  let _ := flt_ops prec emax in let _ := flt_div prec emax in let _ := flt_laws prec emax in
  forall (x y : store KDense flt) (f g : N -> Z), ieee prec emax -> declared sg A -> (length sg < 63)%nat -> valid A x -> valid A y ->
  (forall i, (i < 2 ^ N.of_nat (a_dim A))%N -> rd x i = flt_of_Z prec emax (f i)) -> (forall i, (i < 2 ^ N.of_nat (a_dim A))%N -> rd y i = flt_of_Z prec emax (g i)) ->
  weight (a_dim A) f <= 2 ^ prec -> weight (a_dim A) g <= 2 ^ prec -> 4 * (weight (a_dim A) f * weight (a_dim A) g) <= 2 ^ prec ->
  exists z w : store KDense flt, (X <- mv_fft (F := flt) A (x : arr flt) ;; Y <- mv_fft A (y : arr flt) ;; P <- fr_mul X Y ;; fr_ifft A P) = Ok (z : arr flt) /\
  mv_mul A x y = Ok w /\ valid A z /\ valid A w /\
  forall i, (i < 2 ^ N.of_nat (a_dim A))%N -> rd z i = flt_of_Z prec emax (spec_mul (sq sg) (a_dim A) f g i) /\ rd w i = rd z i.
Proof. exact (fun x y f g Hf D Hl => prod_real prec emax Hf sg A D Hl x y f g). Qed.
Print Assumptions C91_product.

Example C91_product_ex : let A := alg sg_p11 in
  ieee 53 1024 /\ declared sg_p11 A /\ valid A j_b /\ valid A j_c /\
  (forall i, (i < 8)%N -> rd j_b i = flt_of_Z 53 1024 (zf l_b i)) /\ (forall i, (i < 8)%N -> rd j_c i = flt_of_Z 53 1024 (zf l_c i)) /\
  4 * (weight 3 (zf l_b) * weight 3 (zf l_c)) <= 2 ^ 53 /\
  (X <- mv_fft (F := flt) A (j_b : arr flt) ;; Y <- mv_fft (F := flt) A (j_c : arr flt) ;; P <- fr_mul X Y ;; (fr_ifft A P : res (arr flt)))
   = (mv_mul A j_b j_c : res (arr flt)) /\
  (mv_mul A j_b j_c : res (arr flt)) = Ok (mkArr 3 (map fz (map (spec_mul (sq sg_p11) 3 (zf l_b) (zf l_c)) (idxs 3)))) /\
  spec_mul (sq sg_p11) 3 (zf l_b) (zf l_c) 7 <> 0.
Proof.
  cbv zeta. split; [left; auto|]. split; [dcl|]. split; [exact v_jb|]. split; [exact v_jc|]. split; [exact r_jb|]. split; [exact r_jc|].
  split; [apply Z.leb_le; vm_compute; reflexivity|]. split; [vm_compute; reflexivity|]. split; [vm_compute; reflexivity|]. vm_compute. discriminate.
Qed.

(** C91. The same for Gaussian integers. *)
Theorem C91_product_complex prec emax {m : Mode} {H : HashOrder} sg A :
  let _ := flt_ops prec emax in let _ := flt_div prec emax in let _ := flt_laws prec emax in
  forall (x y : store KDense (cplx flt)) (f g : N -> cplx Z), ieee prec emax -> declared sg A -> (length sg < 63)%nat -> valid A x -> valid A y ->
  (forall i, (i < 2 ^ N.of_nat (a_dim A))%N -> rd x i = mkC (flt_of_Z prec emax (c_re (f i))) (flt_of_Z prec emax (c_im (f i)))) ->
  (forall i, (i < 2 ^ N.of_nat (a_dim A))%N -> rd y i = mkC (flt_of_Z prec emax (c_re (g i))) (flt_of_Z prec emax (c_im (g i)))) ->
  gweight (a_dim A) f <= 2 ^ prec -> gweight (a_dim A) g <= 2 ^ prec -> 4 * (gweight (a_dim A) f * gweight (a_dim A) g) <= 2 ^ prec ->
  exists z w : store KDense (cplx flt), (X <- mv_fft (F := flt) A (x : arr (cplx flt)) ;; Y <- mv_fft A (y : arr (cplx flt)) ;; P <- fr_mul X Y ;; fr_ifft A P) = Ok (z : arr (cplx flt)) /\
  mv_mul A x y = Ok w /\ valid A z /\ valid A w /\
  forall i, (i < 2 ^ N.of_nat (a_dim A))%N ->
   rd z i = mkC (flt_of_Z prec emax (c_re (spec_mul (sq sg) (a_dim A) f g i))) (flt_of_Z prec emax (c_im (spec_mul (sq sg) (a_dim A) f g i))) /\ rd w i = rd z i.
Proof. exact (fun x y f g Hf D Hl => prod_cplx prec emax Hf sg A D Hl x y f g). Qed.
Print Assumptions C91_product_complex.

Example C91_product_complex_ex : let A := alg sg_11 in
  ieee 53 1024 /\ declared sg_11 A /\ valid A j_g /\ valid A j_h /\
  (forall i, (i < 4)%N -> rd j_g i = gz (c_re (gf l_g i)) (c_im (gf l_g i))) /\ (forall i, (i < 4)%N -> rd j_h i = gz (c_re (gf l_h i)) (c_im (gf l_h i))) /\
  4 * (gweight 2 (gf l_g) * gweight 2 (gf l_h)) <= 2 ^ 53 /\
  (X <- mv_fft (F := flt) A (j_g : arr (cplx flt)) ;; Y <- mv_fft (F := flt) A (j_h : arr (cplx flt)) ;; P <- fr_mul X Y ;; (fr_ifft A P : res (arr (cplx flt))))
   = (mv_mul A j_g j_h : res (arr (cplx flt))).
Proof.
  cbv zeta. split; [left; auto|]. split; [dcl|]. split; [exact v_jg|]. split; [exact v_jh|]. split; [exact r_jg|]. split; [exact r_jh|].
  split; [apply Z.leb_le; vm_compute; reflexivity|]. vm_compute. reflexivity.
Qed.

(** C91. So with integer coefficients up to B the two products are equal by [==] if 4^(d+1) B^2 is at most 2^prec. *)
Theorem C91_products_equal prec emax {m : Mode} {H : HashOrder} sg A :
  let _ := flt_ops prec emax in let _ := flt_div prec emax in let _ := flt_laws prec emax in let _ := int_emb prec emax in
  forall (x y : store KDense flt) (B : Z), ieee prec emax -> declared sg A -> (length sg < 63)%nat -> valid A x -> valid A y -> 1 <= B ->
  holds_upto (R := Z) A B x -> holds_upto (R := Z) A B y -> 4 * (2 ^ Z.of_nat (a_dim A) * 2 ^ Z.of_nat (a_dim A) * (B * B)) <= 2 ^ prec ->
  exists z w : store KDense flt, (X <- mv_fft (F := flt) A (x : arr flt) ;; Y <- mv_fft A (y : arr flt) ;; P <- fr_mul X Y ;; fr_ifft A P) = Ok (z : arr flt) /\
  mv_mul A x y = Ok w /\ forall i, (i < 2 ^ N.of_nat (a_dim A))%N -> rd z i = rd w i /\ reqb (rd z i) (rd w i) = true.
Proof. exact (fun x y B Hf D Hl => prod_upto prec emax Hf sg A D Hl x y B). Qed.
Print Assumptions C91_products_equal.

(** Coefficients up to 5000 in the Euclidean space. *)
Example C91_products_equal_ex : let A := alg sg_e3 in
  declared sg_e3 A /\ valid A i_x /\ valid A i_y /\ holds_upto (R := Z) A 5000 i_x /\ holds_upto (R := Z) A 5000 i_y /\ 4 * (2 ^ 3 * 2 ^ 3 * (5000 * 5000)) <= 2 ^ 53 /\
  (X <- mv_fft (F := flt) A (i_x : arr flt) ;; Y <- mv_fft (F := flt) A (i_y : arr flt) ;; P <- fr_mul X Y ;; (fr_ifft A P : res (arr flt))) = (mv_mul A i_x i_y : res (arr flt)).
Proof.
  cbv zeta. split; [exact d_e3|]. split; [exact v_ix|]. split; [exact v_iy|]. split; [exact h_ix|]. split; [exact h_iy|].
  split; [apply Z.leb_le; vm_compute; reflexivity|]. vm_compute. reflexivity.
Qed.

(** C91. The same for whole expressions of sums, differences, negations and products computed on transforms.  The weight
    of an input is the sum of the absolute values of its coefficients, that of a sum or difference the sum of the
    weights, that of a product their product. *)
Theorem C91_expressions prec emax {m : Mode} {H : HashOrder} sg A :
  let _ := flt_ops prec emax in let _ := flt_div prec emax in let _ := flt_laws prec emax in
  forall e : texpr, ieee prec emax -> declared sg A -> (length sg < 63)%nat -> trange (a_dim A) (2 ^ prec) e -> 4 * tweight e <= 2 ^ prec ->
  exists z : store KDense flt, (R <- trun prec emax A e ;; fr_ifft A R) = Ok (z : arr flt) /\ valid A z /\
  forall i, (i < 2 ^ N.of_nat (a_dim A))%N -> rd z i = flt_of_Z prec emax (tvalue sg (a_dim A) e i).
Proof. exact (fun e Hf D Hl => run_exact prec emax Hf sg A D Hl e). Qed.
Print Assumptions C91_expressions.

(** In f32. *)
Example C91_expressions_ex : let A := alg sg_p11 in let RF := F32 in let DF := flt_div 24 128 in
  ieee 24 128 /\ declared sg_p11 A /\ trange 3 (2 ^ 24) t_e /\ 4 * tweight t_e <= 2 ^ 24 /\
  (R <- @trun _ RF DF 24 128 A t_e ;; (@fr_ifft flt RF DF _ A flt RealFrom RF R : res (arr flt)))
   = Ok (mkArr 3 (map (flt_of_Z 24 128) (map (tvalue sg_p11 3 t_e) (idxs 3)))) /\
  map (tvalue sg_p11 3 t_e) (idxs 3) <> repeat 0 8.
Proof.
  cbv zeta. split; [right; auto|]. split; [dcl|].
  split; [cbn [trange t_e]; repeat split; apply Z.leb_le; vm_compute; reflexivity|]. split; [apply Z.leb_le; vm_compute; reflexivity|].
  split; [vm_compute; reflexivity|]. vm_compute. discriminate.
Qed.
