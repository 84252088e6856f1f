(** Properties C46 and C47: half-spin representations, and the transform of split signatures
    without complexification. *)
From Verif Require Import Ex_FFT Spec_Repr P_RealFFT.
Local Open Scope nat_scope.

(** C46. The halves always exist and have half the side. *)
Theorem C46_total {T F} {RT : RingOps T} {LT : RingLaws T} {RF : RingOps F} {LF : RingLaws F} {CF : CommLaws F}
  {DV : DivOps F} {FL : FieldLaws F} {FRl : FormallyReal F} {IC : IntoCplx T F} {FC : FromCplx T F} {CV : ConvLaws T F} {m : Mode} {H : HashOrder} sg A (x : store KDense T) :
  declared sg A -> length sg < 63 -> nonnull sg = length sg -> valid A x ->
  exists (X : fftrepr F) E O, mv_fft A (x : arr T) = Ok X /\ fr_into_half_spin_repr X = Ok (E, O) /\
    square_mat (side_of sg / 2) E /\ square_mat (side_of sg / 2) O.
Proof. exact (fun D Hl Hn => c46_total sg A D Hl Hn x). Qed.
Print Assumptions C46_total.
Example C46_total_ex := C46_total (F := Qc) [P1; M1; M1] (alg [P1; M1; M1]) (mkArr 3 a3) ltac:(dcl) ltac:(cbn; lia) eq_refl ltac:(vld).

(** Products to products: it is enough that the left factor is even. *)
Theorem C46_product {T F} {RT : RingOps T} {LT : RingLaws T} {RF : RingOps F} {LF : RingLaws F} {CF : CommLaws F}
  {DV : DivOps F} {FL : FieldLaws F} {FRl : FormallyReal F} {IC : IntoCplx T F} {FC : FromCplx T F} {CV : ConvLaws T F} {m : Mode} {H : HashOrder} sg A (x y : store KDense T) :
  declared sg A -> length sg < 63 -> nonnull sg = length sg -> valid A x -> valid A y -> even_mv sg x ->
  exists XE XO YE YO ZE ZO,
    (X <- mv_fft (F := F) A (x : arr T) ;; fr_into_half_spin_repr X) = Ok (XE, XO) /\
    (Y <- mv_fft (F := F) A (y : arr T) ;; fr_into_half_spin_repr Y) = Ok (YE, YO) /\
    (z <- mv_mul A x y ;; Z <- mv_fft (F := F) A (z : arr T) ;; fr_into_half_spin_repr Z) = Ok (ZE, ZO) /\
    m_dot XE YE = Ok ZE /\ m_dot XO YO = Ok ZO.
Proof. exact (fun D Hl Hn => c46_mul sg A D Hl Hn x y). Qed.
Print Assumptions C46_product.
(** 1 + 2 e1 e0 is even. *)
Example C46_product_ex := C46_product (F := Qc) sg_11 (alg sg_11) (mkArr 2 [qc 1 1; r0; r0; qc 2 1]) (mkArr 2 a2) d_11 ltac:(cbn; lia) eq_refl ltac:(vld) ltac:(vld)
  ltac:(intros k Hk; do 4 (destruct k as [|k] using N.peano_ind; [intros; try discriminate; vm_compute; reflexivity|clear IHk]); cbn in Hk; lia).

Theorem C46_one {T F} {RT : RingOps T} {LT : RingLaws T} {RF : RingOps F} {LF : RingLaws F} {CF : CommLaws F}
  {DV : DivOps F} {FL : FieldLaws F} {FRl : FormallyReal F} {IC : IntoCplx T F} {FC : FromCplx T F} {CV : ConvLaws T F} {m : Mode} {H : HashOrder} sg A :
  declared sg A -> length sg < 63 -> nonnull sg = length sg ->
  exists E O, (x <- (mv_one A : res (store KDense T)) ;; X <- mv_fft (F := F) A (x : arr T) ;; fr_into_half_spin_repr X) = Ok (E, O) /\
    identity_mat (side_of sg / 2) E /\ identity_mat (side_of sg / 2) O.
Proof. exact (fun D Hl Hn => c46_one (T := T) (F := F) sg A D Hl Hn). Qed.
Print Assumptions C46_one.
Example C46_one_ex := C46_one (T := Qc) (F := Qc) sg_sta (alg sg_sta) d_sta ltac:(cbn; lia) eq_refl.

(** Odd parts are ignored. *)
Theorem C46_odd_ignored {T F} {RT : RingOps T} {LT : RingLaws T} {RF : RingOps F} {LF : RingLaws F} {CF : CommLaws F}
  {DV : DivOps F} {FL : FieldLaws F} {FRl : FormallyReal F} {IC : IntoCplx T F} {FC : FromCplx T F} {CV : ConvLaws T F} {m : Mode} {H : HashOrder} sg A (x y : store KDense T) :
  declared sg A -> length sg < 63 -> nonnull sg = length sg -> valid A x -> valid A y -> same_even sg x y ->
  both_ok (X <- mv_fft (F := F) A (x : arr T) ;; fr_into_half_spin_repr X) (Y <- mv_fft (F := F) A (y : arr T) ;; fr_into_half_spin_repr Y).
Proof. exact (fun D Hl Hn => c46_odd sg A D Hl Hn x y). Qed.
Print Assumptions C46_odd_ignored.
Example C46_odd_ignored_ex := C46_odd_ignored (F := Qc) sg_11 (alg sg_11) (mkArr 2 [qc 1 1; r0; qc 5 1; qc 2 1]) (mkArr 2 [qc 1 1; qc 3 1; r0; qc 2 1]) d_11 ltac:(cbn; lia) eq_refl ltac:(vld) ltac:(vld)
  ltac:(intros k Hk; do 4 (destruct k as [|k] using N.peano_ind; [intros; try discriminate; vm_compute; reflexivity|clear IHk]); cbn in Hk; lia).

(** The two halves together determine an even multivector. *)
Theorem C46_faithful {T F} {RT : RingOps T} {LT : RingLaws T} {RF : RingOps F} {LF : RingLaws F} {CF : CommLaws F}
  {DV : DivOps F} {FL : FieldLaws F} {FRl : FormallyReal F} {IC : IntoCplx T F} {FC : FromCplx T F} {CV : ConvLaws T F} {m : Mode} {H : HashOrder} sg A (x y : store KDense T) :
  declared sg A -> length sg < 63 -> nonnull sg = length sg -> valid A x -> valid A y -> even_mv sg x -> even_mv sg y ->
  (X <- mv_fft (F := F) A (x : arr T) ;; fr_into_half_spin_repr X) = (Y <- mv_fft (F := F) A (y : arr T) ;; fr_into_half_spin_repr Y) -> x = y.
Proof. exact (fun D Hl Hn => c46_faithful sg A D Hl Hn x y). Qed.
Print Assumptions C46_faithful.

(** In three dimensions with signature +, -, -: x has odd coefficients too, xe is its even part. *)
Example C46_ex : let sg := [P1; M1; M1] in let A := alg sg in
  let x : store KDense Qc := mkArr 3 a3 in
  let xe : store KDense Qc := mkArr 3 (map (fun i => if Nat.odd (popcount (N.of_nat i)) then r0 else nth i a3 r0) (seq 0 8)) in
  declared sg A /\ nonnull sg = length sg /\ valid A x /\ valid A xe /\ even_mv sg xe /\ same_even sg x xe /\ mv_eqb x xe = false /\
  (match (X <- mv_fft (F := Qc) A (xe : arr Qc) ;; fr_into_half_spin_repr X), (X <- mv_fft (F := Qc) A (x : arr Qc) ;; fr_into_half_spin_repr X) with
   | Ok (E1, O1), Ok (E2, O2) => (Nat.eqb (m_nr E1) 2 && list_eqb (m_data E1) (m_data E2) && list_eqb (m_data O1) (m_data O2) && negb (list_eqb (m_data E1) (m_data O1)))%bool
   | _, _ => false end = true) /\
  (match (X <- mv_fft (F := Qc) A (xe : arr Qc) ;; fr_into_half_spin_repr X), (X <- mv_fft (F := Qc) A (x : arr Qc) ;; fr_into_half_spin_repr X),
      (z <- mv_mul A xe x ;; Z <- mv_fft (F := Qc) A (z : arr Qc) ;; fr_into_half_spin_repr Z) with
   | Ok (E1, O1), Ok (E2, O2), Ok (ZE, ZO) => match m_dot E1 E2, m_dot O1 O2 with Ok P, Ok Q => (list_eqb (m_data P) (m_data ZE) && list_eqb (m_data Q) (m_data ZO))%bool | _, _ => false end
   | _, _, _ => false end = true).
Proof.
  cbv zeta. split; [dcl|]. split; [reflexivity|]. split; [vld|]. split; [vld|].
  split; [intros k Hk; do 8 (destruct k as [|k] using N.peano_ind; [intros; try discriminate; vm_compute; reflexivity|clear IHk]); cbn in Hk; lia|].
  split; [intros k Hk; do 8 (destruct k as [|k] using N.peano_ind; [intros; try discriminate; vm_compute; reflexivity|clear IHk]); cbn in Hk; lia|].
  split; [vm_compute; reflexivity|]. split; vm_compute; reflexivity.
Qed.

(** C47. Which algebras have the trait. *)
Theorem C47_split_trait (sg : list tok) : impl_split_signature sg = true <-> exists h, 1 <= h /\ sg = split_sig h.
Proof. exact (split_trait sg). Qed.
Print Assumptions C47_split_trait.
Example C47_split_trait_ex : impl_split_signature [P1; M1; P1; M1] = true /\ impl_split_signature [P1; P1; M1; M1] = false /\ impl_split_signature [P1; M1; M1] = false.
Proof. repeat split. Qed.

Theorem C47_total {T} {RT : RingOps T} {LT : RingLaws T} {DV : DivOps T} {m : Mode} {H : HashOrder} h A (x : store KDense T) :
  declared (split_sig h) A -> valid A x -> exists M, mv_real_fft (x : arr T) = Ok M /\ square_mat (2 ^ h) M.
Proof. exact (fun D => c47_total h A D x). Qed.
Print Assumptions C47_total.
Example C47_total_ex := C47_total 2 (alg (split_sig 2)) (mkArr 4 (a3 ++ b2 ++ a2)) ltac:(dcl) ltac:(vld).

Theorem C47_product {T} {RT : RingOps T} {LT : RingLaws T} {DV : DivOps T} {m : Mode} {H : HashOrder} h A (x y : store KDense T) :
  declared (split_sig h) A -> valid A x -> valid A y ->
  both_ok (X <- mv_real_fft (x : arr T) ;; Y <- mv_real_fft (y : arr T) ;; m_dot X Y) (z <- mv_mul A x y ;; mv_real_fft (z : arr T)).
Proof. exact (fun D => c47_mul h A D x y). Qed.
Print Assumptions C47_product.
Example C47_product_ex := C47_product 2 (alg (split_sig 2)) (mkArr 4 (a3 ++ b2 ++ a2)) (mkArr 4 (a2 ++ a3 ++ b2)) ltac:(dcl) ltac:(vld) ltac:(vld).

Theorem C47_linear {T} {RT : RingOps T} {LT : RingLaws T} {DV : DivOps T} {m : Mode} {H : HashOrder} h A (x y : store KDense T) (t : T) :
  declared (split_sig h) A -> valid A x -> valid A y ->
  (exists X Y Z, mv_real_fft (x : arr T) = Ok X /\ mv_real_fft (y : arr T) = Ok Y /\ (z <- mv_add x y ;; mv_real_fft (z : arr T)) = Ok Z /\ entrywise2 radd X Y Z) /\
  (exists X Z, mv_real_fft (x : arr T) = Ok X /\ (z <- mv_scale A x t ;; mv_real_fft (z : arr T)) = Ok Z /\ entrywise1 (fun c => rmul c t) X Z).
Proof. exact (fun D Hx Hy => conj (c47_add h A D x y Hx Hy) (c47_scale h A D x t Hx)). Qed.
Print Assumptions C47_linear.
Example C47_linear_ex := C47_linear 2 (alg (split_sig 2)) (mkArr 4 (a3 ++ b2 ++ a2)) (mkArr 4 (a2 ++ a3 ++ b2)) (qc (-2) 3) ltac:(dcl) ltac:(vld) ltac:(vld).

Theorem C47_one {T} {RT : RingOps T} {LT : RingLaws T} {DV : DivOps T} {m : Mode} {H : HashOrder} h A :
  declared (split_sig h) A -> exists M, (z <- (mv_one A : res (store KDense T)) ;; mv_real_fft (z : arr T)) = Ok M /\ identity_mat (2 ^ h) M.
Proof. exact (fun D => c47_one (T := T) h A D). Qed.
Print Assumptions C47_one.
Example C47_one_ex := C47_one (T := Qc) 3 (alg (split_sig 3)) ltac:(dcl).

Theorem C47_bijective {T} {RT : RingOps T} {LT : RingLaws T} {CT : CommLaws T} {DV : DivOps T} {FL : FieldLaws T} {m : Mode} {H : HashOrder} h A :
  radd r1 r1 <> (r0 : T) -> declared (split_sig h) A ->
  (forall x y : store KDense T, valid A x -> valid A y -> mv_real_fft (x : arr T) = mv_real_fft (y : arr T) -> x = y) /\
  (forall M : mat T, square_mat (2 ^ h) M -> exists x : store KDense T, valid A x /\ mv_real_fft (x : arr T) = Ok M).
Proof. exact (fun two D => conj (c47_inj h A D two) (c47_onto h A D two)). Qed.
Print Assumptions C47_bijective.
Example C47_bijective_ex : forall M : mat Qc, square_mat (2 ^ 2) M -> exists x : store KDense Qc, valid (alg (split_sig 2)) x /\ mv_real_fft (x : arr Qc) = Ok M.
Proof. apply C47_bijective; [discriminate|dcl]. Qed.

Theorem C47_agrees_with_fft {T F} {RT : RingOps T} {LT : RingLaws T} {RF : RingOps F} {LF : RingLaws F}
  {IC : IntoCplx T F} {FC : FromCplx T F} {CV : ConvLaws T F} {DV : DivOps T} {m : Mode} {H : HashOrder} h A (x : store KDense T) :
  declared (split_sig h) A -> 2 * h < 63 -> valid A x ->
  exists M X Z, mv_real_fft (x : arr T) = Ok M /\ mv_fft (F := F) A (x : arr T) = Ok X /\ fr_into_array2 X = Ok Z /\
    square_mat (2 ^ h) M /\ square_mat (2 ^ h) Z /\
    forall i j, i < 2 ^ h -> j < 2 ^ h -> m_get Z i j = Ok (into_complex (m_at M i j)).
Proof. exact (fun D Hl => c47_fft (F := F) h A D Hl x). Qed.
Print Assumptions C47_agrees_with_fft.

Example C47_ex : let A := alg (split_sig 2) in
  let x : store KDense Qc := mkArr 4 (a3 ++ b2 ++ a2) in let y : store KDense Qc := mkArr 4 (a2 ++ a3 ++ b2) in
  declared (split_sig 2) A /\ valid A x /\ valid A y /\ radd r1 r1 <> (r0 : Qc) /\
  (match mv_real_fft (x : arr Qc), mv_real_fft (y : arr Qc), (z <- mv_mul A x y ;; mv_real_fft (z : arr Qc)) with
   | Ok X, Ok Y, Ok Z => match m_dot X Y with Ok P => (Nat.eqb (m_nr P) 4 && list_eqb (m_data P) (m_data Z) && negb (list_eqb (m_data X) (m_data Y)))%bool | _ => false end
   | _, _, _ => false end = true) /\
  square_mat (2 ^ 2) (mkMat 4 4 (map (fun i => nth (i mod 7) a3 r0) (seq 0 16))).
Proof.
  cbv zeta. split; [dcl|]. split; [vld|]. split; [vld|]. split; [discriminate|]. split; [vm_compute; reflexivity|]. split; [|split]; reflexivity.
Qed.
