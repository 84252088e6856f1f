(** Properties C43, C44: the inverse of the matrix representation.  F stands for the exact real
    numbers (a formally real field). *)
From Verif Require Import Ex_FFT Spec_Repr P_Props12.
Local Open Scope nat_scope.

(** C43. [inv] never panics on an array of the right shape, and what it returns is a two-sided
    inverse, also of arrays that represent no multivector. *)
Theorem C43_repr {F R} {RF : RingOps F} {LF : RingLaws F} {CF : CommLaws F} {DV : DivOps F} {FL : FieldLaws F} {FRl : FormallyReal F}
  {NC : NormCmp (cplx F) R} {NZ : NormZero (cplx F) R} sg A (X : fftrepr F) :
  declared sg A -> length sg < 63 -> nonnull sg = length sg -> repr_shape sg X ->
  exists o, fr_inv X = Ok o /\
    forall r, o = Some r -> repr_shape sg r /\ both_ok (fr_mul X r) (fr_one A) /\ both_ok (fr_mul r X) (fr_one A).
Proof. exact (fun D Hl Hn => c43_repr sg A D Hl Hn X). Qed.
Print Assumptions C43_repr.
Example C43_repr_ex := C43_repr sg_11 (alg sg_11) (mkA3 2 2 [mkMat 2 2 [cq 1 1 2 1; cq 0 1 0 1; cq 3 1 0 1; cq 1 2 1 1]]) d_11 ltac:(cbn; lia) eq_refl ltac:(split; [repeat constructor|reflexivity]).

(** Real multivectors: [inv] of the transform never panics; when it returns r, [r.ifft()] is a
    two-sided inverse in the algebra and its transform is r again, for odd signatures too. *)
Theorem C43_real {F R} {RF : RingOps F} {LF : RingLaws F} {CF : CommLaws F} {DV : DivOps F} {FL : FieldLaws F} {FRl : FormallyReal F}
  {NC : NormCmp (cplx F) R} {NZ : NormZero (cplx F) R} {m : Mode} {H : HashOrder} sg A (x : store KDense F) :
  declared sg A -> length sg < 63 -> nonnull sg = length sg -> valid A x ->
  exists X o, mv_fft (F := F) A (x : arr F) = Ok X /\ fr_inv X = Ok o /\
    forall r, o = Some r -> exists z : store KDense F, fr_ifft A r = Ok (z : arr F) /\ valid A z /\ mv_fft A (z : arr F) = Ok r /\
      both_ok (mv_mul A x z) (mv_one A) /\ both_ok (mv_mul A z x) (mv_one A).
Proof. exact (fun D Hl Hn => c43_real sg A D Hl Hn x). Qed.
Print Assumptions C43_real.
Example C43_real_ex := C43_real [P1; M1; M1] (alg [P1; M1; M1]) (mkArr 3 a3) ltac:(dcl) ltac:(cbn; lia) eq_refl ltac:(vld).

(** The same with complex coefficients. *)
Theorem C43_complex {F R} {RF : RingOps F} {LF : RingLaws F} {CF : CommLaws F} {DV : DivOps F} {FL : FieldLaws F} {FRl : FormallyReal F}
  {NC : NormCmp (cplx F) R} {NZ : NormZero (cplx F) R} {m : Mode} {H : HashOrder} sg A (x : store KDense (cplx F)) :
  declared sg A -> length sg < 63 -> nonnull sg = length sg -> valid A x ->
  exists X o, mv_fft (F := F) A (x : arr (cplx F)) = Ok X /\ fr_inv X = Ok o /\
    forall r, o = Some r -> exists z : store KDense (cplx F), fr_ifft A r = Ok (z : arr (cplx F)) /\ valid A z /\ mv_fft A (z : arr (cplx F)) = Ok r /\
      both_ok (mv_mul A x z) (mv_one A) /\ both_ok (mv_mul A z x) (mv_one A).
Proof. exact (fun D Hl Hn => c43_complex sg A D Hl Hn x). Qed.
Print Assumptions C43_complex.

(** In Cl(1,2), an odd signature, [inv] finds the inverse of 1 + 2 e_0 - 3/2 e_01 + e_2 + 5 e_12 + e_012. *)
Example C43_ex : let x : store KDense Qc := mkArr 3 a3 in let A := alg [P1; M1; M1] in
  declared [P1; M1; M1] A /\ nonnull [P1; M1; M1] = 3 /\ valid A x /\
  match X <- mv_fft (F := Qc) A (x : arr Qc) ;; fr_inv X with
  | Ok (Some r) => ok2 (mv_eqb (S := store KDense Qc)) (z <- fr_ifft A r ;; mv_mul A x z) (mv_one A)
  | _ => false
  end = true.
Proof. cbv zeta. split; [dcl|]. split; [reflexivity|]. split; [vld|]. vm_compute. reflexivity. Qed.

(** C44 fails: in Cl(3) the generator e_1 is its own inverse, but [inv] returns None, because
    after the first elimination step a diagonal entry below it happens to be zero
    (src/fftrepr/matrix.rs:68-70).  Other invertible elements are refused too, see the example. *)
Theorem C44_refuted : exists sg A (x y : store KDense Qc), declared sg A /\ nonnull sg = length sg /\ valid A x /\ valid A y /\
  ok2 mv_eqb (mv_mul A x y) (mv_one A) = true /\ ok2 mv_eqb (mv_mul A y x) (mv_one A) = true /\
  (X <- mv_fft (F := Qc) A (x : arr Qc) ;; fr_inv X) = Ok None.
Proof. exact c44_refuted. Qed.
Print Assumptions C44_refuted.

(** Only three of the eight basis elements of Cl(3) survive. *)
Example C44_refuted_ex : map (fun k : nat => match
    X <- mv_fft (F := Qc) (alg [P1; P1; P1]) (mkArr 3 (map (fun i => if Nat.eqb i k then r1 else r0) (seq 0 8)) : arr Qc) ;; fr_inv X with
    Ok (Some _) => true | _ => false end) (seq 0 8) = [true; false; false; true; false; false; false; false].
Proof. vm_compute. reflexivity. Qed.

(** C44 holds for non-degenerate algebras of at most two generators (complex numbers, quaternions,
    2 by 2 matrices), where the matrices have side at most 2.  Missing: more generators, where it is false. *)
Theorem C44_small_partial {T F R} {RT : RingOps T} {LT : RingLaws T} {RF : RingOps F} {LF : RingLaws F} {CF : CommLaws F} {DV : DivOps F}
  {FL : FieldLaws F} {FRl : FormallyReal F} {IC : IntoCplx T F} {FC : FromCplx T F} {CV : ConvLaws T F}
  {NC : NormCmp (cplx F) R} {NZ : NormZero (cplx F) R} {NL : NormLaws (cplx F) R} {m : Mode} {H : HashOrder} sg A (x y : store KDense T) :
  declared sg A -> length sg <= 2 -> nonnull sg = length sg -> valid A x -> valid A y -> both_ok (mv_mul A y x) (mv_one A) ->
  exists r : fftrepr F, (X <- mv_fft (F := F) A (x : arr T) ;; fr_inv X) = Ok (Some r).
Proof. exact (fun D Hl Hn => c44_mv sg A D Hl Hn x y). Qed.
Print Assumptions C44_small_partial.
(** The quaternion 2i and its inverse. *)
Example C44_small_partial_ex : exists r : fftrepr Qc, (X <- mv_fft (F := Qc) (alg sg_q) (mkArr 2 [qc 0 1; qc 2 1; qc 0 1; qc 0 1] : arr Qc) ;; fr_inv X) = Ok (Some r).
Proof.
  apply (C44_small_partial sg_q (alg sg_q) (mkArr 2 [qc 0 1; qc 2 1; qc 0 1; qc 0 1]) (mkArr 2 [qc 0 1; qc (-1) 2; qc 0 1; qc 0 1]));
    [exact d_q|cbn; lia|reflexivity|vld|vld|].
  eexists. split; vm_compute; reflexivity.
Qed.

(** The same for arrays. *)
Theorem C44_small_repr_partial {F R} {RF : RingOps F} {LF : RingLaws F} {CF : CommLaws F} {DV : DivOps F} {FL : FieldLaws F} {FRl : FormallyReal F}
  {NC : NormCmp (cplx F) R} {NZ : NormZero (cplx F) R} {NL : NormLaws (cplx F) R} sg A (X Y : fftrepr F) :
  declared sg A -> length sg <= 2 -> nonnull sg = length sg -> repr_shape sg X -> repr_shape sg Y -> fr_mul Y X = fr_one A ->
  exists r, fr_inv X = Ok (Some r).
Proof. exact (fun D Hl Hn => c44_repr sg A D Hl Hn X Y). Qed.
Print Assumptions C44_small_repr_partial.

(** The quaternion i, whose matrix has zeros on the diagonal of its first step. *)
Example C44_ex : let x : store KDense Qc := mkArr 2 [qc 0 1; qc 2 1; qc 0 1; qc 0 1] in let y : store KDense Qc := mkArr 2 [qc 0 1; qc (-1) 2; qc 0 1; qc 0 1] in
  let A := alg [M1; M1] in
  declared [M1; M1] A /\ nonnull [M1; M1] = 2 /\ valid A x /\ valid A y /\ ok2 mv_eqb (mv_mul A y x) (mv_one A) = true /\
  match X <- mv_fft (F := Qc) A (x : arr Qc) ;; fr_inv X with Ok (Some _) => true | _ => false end = true.
Proof.
  cbv zeta. split; [dcl|]. split; [reflexivity|]. split; [vld|]. split; [vld|]. split; vm_compute; reflexivity.
Qed.
