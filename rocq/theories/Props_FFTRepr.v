(** Properties C30 (transform domain), C38-C42, C45, C57: the matrix representation of
    dense multivectors.  F stands for the exact real numbers (a formally real field where
    division is needed), T for the coefficient type (F or cplx F). *)
From Verif Require Import Ex_FFT Spec_Repr P_Props10 P_FScal.
Local Open Scope nat_scope.

(** C38. The transform always succeeds and has the documented shape. *)
Theorem C38_total {T F} {RT : RingOps T} {LT : RingLaws T} {RF : RingOps F} {LF : RingLaws F}
  {IC : IntoCplx T F} {FC : FromCplx T F} {CV : ConvLaws T F} {m : Mode} sg A (x : store KDense T) :
  declared sg A -> length sg < 63 -> valid A x ->
  exists X : fftrepr F, mv_fft A (x : arr T) = Ok X /\ repr_shape sg X.
Proof. exact (fun D Hl => c38_total sg A D Hl x). Qed.
Print Assumptions C38_total.
Example C38_total_ex := C38_total (F := Qc) sg_pga (alg sg_pga) (mkArr 3 a3) d_pga ltac:(cbn; lia) ltac:(vld).

(** ifft recovers the multivector. *)
Theorem C38_roundtrip {T F} {RT : RingOps T} {LT : RingLaws T} {RF : RingOps F} {LF : RingLaws F} {CF : CommLaws F}
  {DV : DivOps F} {FL : FieldLaws F} {FRl : FormallyReal F} {IC : IntoCplx T F} {FC : FromCplx T F} {CV : ConvLaws T F} {m : Mode} sg A (x : store KDense T) :
  declared sg A -> length sg < 63 -> valid A x ->
  (X <- mv_fft (F := F) A (x : arr T) ;; fr_ifft A X) = Ok (x : arr T).
Proof. exact (fun D Hl => c38_roundtrip sg A D Hl x). Qed.
Print Assumptions C38_roundtrip.
Example C38_roundtrip_ex := C38_roundtrip (F := Qc) [P1; M1; M1] (alg [P1; M1; M1]) (mkArr 3 a3) ltac:(dcl) ltac:(cbn; lia) ltac:(vld).

(** With complex coefficients and an even number of non-null generators it is onto. *)
Theorem C38_onto {F} {RF : RingOps F} {LF : RingLaws F} {CF : CommLaws F}
  {DV : DivOps F} {FL : FieldLaws F} {FRl : FormallyReal F} {m : Mode} {H : HashOrder} sg A (r : fftrepr F) :
  declared sg A -> length sg < 63 -> Nat.even (nonnull sg) = true -> repr_shape sg r ->
  exists z : store KDense (cplx F), valid A z /\ fr_ifft A r = Ok (z : arr (cplx F)) /\ mv_fft A (z : arr (cplx F)) = Ok r.
Proof. exact (fun D Hl E HS => c38_onto sg A D Hl r HS E). Qed.
Print Assumptions C38_onto.

(** Odd and degenerate: e0^2 = 1, e1^2 = -1, e2^2 = -1 and e0^2 = 1, e1^2 = 1, e2^2 = 0. *)
Example C38_ex : let x : store KDense Qc := mkArr 3 a3 in
  declared [P1; M1; M1] (alg [P1; M1; M1]) /\ declared sg_pga (alg sg_pga) /\
  valid (alg [P1; M1; M1]) x /\ valid (alg sg_pga) x /\
  (exists X : fftrepr Qc, mv_fft (alg [P1; M1; M1]) (x : arr Qc) = Ok X /\ fr_shape X = (1, 4, 4)) /\
  (exists X : fftrepr Qc, mv_fft (alg sg_pga) (x : arr Qc) = Ok X /\ fr_shape X = (2, 2, 2)) /\
  ok2 (mv_eqb (S := store KDense Qc)) (X <- mv_fft (F := Qc) (alg sg_pga) (x : arr Qc) ;; fr_ifft (alg sg_pga) X) (Ok x) = true /\
  Nat.even (nonnull sg_pga) = true /\
  repr_shape sg_pga (mkA3 2 2 [mkMat 2 2 [cq 1 1 2 1; cq 0 1 0 1; cq 3 1 0 1; cq 1 2 1 1]; mkMat 2 2 [cq 0 1 0 1; cq 5 1 0 1; cq 3 1 1 1; cq 1 1 1 1]]).
Proof.
  cbv zeta. split; [dcl|]. split; [dcl|]. split; [vld|]. split; [vld|].
  split; [eexists; split; vm_compute; reflexivity|]. split; [eexists; split; vm_compute; reflexivity|].
  split; [vm_compute; reflexivity|]. split; [reflexivity|]. split; [repeat constructor|reflexivity].
Qed.

(** C39. *)
Theorem C39_product {T F} {RT : RingOps T} {LT : RingLaws T} {RF : RingOps F} {LF : RingLaws F} {CF : CommLaws F}
  {DV : DivOps F} {FL : FieldLaws F} {FRl : FormallyReal F} {IC : IntoCplx T F} {FC : FromCplx T F} {CV : ConvLaws T F} {m : Mode} sg A (x y : store KDense T) :
  declared sg A -> length sg < 63 -> valid A x -> valid A y ->
  both_ok (X <- mv_fft (F := F) A (x : arr T) ;; Y <- mv_fft A (y : arr T) ;; P <- fr_mul X Y ;; fr_ifft A P) (mv_mul A x y).
Proof. exact (fun D Hl => c39_product sg A D Hl x y). Qed.
Print Assumptions C39_product.
Example C39_product_ex := C39_product (F := Qc) [P1; M1; N1] (alg [P1; M1; N1]) (mkArr 3 a3) (mkArr 3 (b2 ++ a2)) ltac:(dcl) ltac:(cbn; lia) ltac:(vld) ltac:(vld).

Theorem C39_homomorphism {T F} {RT : RingOps T} {LT : RingLaws T} {RF : RingOps F} {LF : RingLaws F}
  {IC : IntoCplx T F} {FC : FromCplx T F} {CV : ConvLaws T F} {m : Mode} sg A (x y : store KDense T) :
  declared sg A -> length sg < 63 -> valid A x -> valid A y ->
  both_ok (X <- mv_fft (F := F) A (x : arr T) ;; Y <- mv_fft A (y : arr T) ;; fr_mul X Y) (z <- mv_mul A x y ;; mv_fft A (z : arr T)).
Proof. exact (fun D Hl => c39_repr sg A D Hl x y). Qed.
Print Assumptions C39_homomorphism.

Example C39_ex : let x : store KDense Qc := mkArr 3 a3 in let y : store KDense Qc := mkArr 3 (b2 ++ a2) in
  declared [P1; M1; N1] (alg [P1; M1; N1]) /\ valid (alg [P1; M1; N1]) x /\ valid (alg [P1; M1; N1]) y /\
  (forall sg, In sg [[P1; M1; N1]; [M1; N1; N1]; [P1; M1; M1]] ->
    ok2 (mv_eqb (S := store KDense Qc)) (X <- mv_fft (F := Qc) (alg sg) (x : arr Qc) ;; Y <- mv_fft (alg sg) (y : arr Qc) ;;
      P <- fr_mul X Y ;; fr_ifft (alg sg) P) (mv_mul (alg sg) x y) = true).
Proof.
  cbv zeta. split; [dcl|]. split; [vld|]. split; [vld|]. intros sg [<-|[<-|[<-|[]]]]; vm_compute; reflexivity.
Qed.

(** C40. *)
Theorem C40_sum {T F} {RT : RingOps T} {LT : RingLaws T} {RF : RingOps F} {LF : RingLaws F}
  {IC : IntoCplx T F} {FC : FromCplx T F} {CV : ConvLaws T F} {m : Mode} sg A (x y : store KDense T) :
  declared sg A -> length sg < 63 -> valid A x -> valid A y ->
  both_ok (X <- mv_fft (F := F) A (x : arr T) ;; Y <- mv_fft A (y : arr T) ;; fr_add X Y) (z <- mv_add x y ;; mv_fft A (z : arr T)) /\
  both_ok (X <- mv_fft (F := F) A (x : arr T) ;; Y <- mv_fft A (y : arr T) ;; fr_sub X Y) (z <- mv_sub x y ;; mv_fft A (z : arr T)) /\
  both_ok (X <- mv_fft (F := F) A (x : arr T) ;; Ok (fr_neg X)) (z <- mv_neg A x ;; mv_fft A (z : arr T)).
Proof. exact (fun D Hl Hx Hy => conj (c40_add sg A D Hl x y Hx Hy) (conj (c40_sub sg A D Hl x y Hx Hy) (c40_neg sg A D Hl x Hx))). Qed.
Print Assumptions C40_sum.
Example C40_sum_ex := C40_sum (F := Qc) sg_pga (alg sg_pga) (mkArr 3 a3) (mkArr 3 (b2 ++ a2)) d_pga ltac:(cbn; lia) ltac:(vld) ltac:(vld).

Theorem C40_scaling {T F} {RT : RingOps T} {LT : RingLaws T} {RF : RingOps F} {LF : RingLaws F} {CF : CommLaws F}
  {IC : IntoCplx T F} {FC : FromCplx T F} {CV : ConvLaws T F} {m : Mode} sg A (x : store KDense T) (t : T) :
  declared sg A -> length sg < 63 -> valid A x ->
  both_ok (X <- mv_fft (F := F) A (x : arr T) ;; Ok (fr_scale X (into_complex t))) (z <- mv_scale A x t ;; mv_fft A (z : arr T)).
Proof. exact (fun D Hl => c40_scale sg A D Hl x t). Qed.
Print Assumptions C40_scaling.
Example C40_scaling_ex := C40_scaling (F := Qc) sg_pga (alg sg_pga) (mkArr 3 a3) (qc (-2) 3) d_pga ltac:(cbn; lia) ltac:(vld).

Theorem C40_units {T F} {RT : RingOps T} {LT : RingLaws T} {RF : RingOps F} {LF : RingLaws F}
  {IC : IntoCplx T F} {FC : FromCplx T F} {CV : ConvLaws T F} {m : Mode} {H : HashOrder} sg A :
  declared sg A -> length sg < 63 ->
  both_ok (fr_zero (F := F) A) (z <- (mv_zero A : res (store KDense T)) ;; mv_fft A (z : arr T)) /\
  both_ok (fr_one (F := F) A) (z <- (mv_one A : res (store KDense T)) ;; mv_fft A (z : arr T)).
Proof. exact (fun D Hl => conj (c40_zero sg A D Hl) (c40_one sg A D Hl)). Qed.
Print Assumptions C40_units.
Example C40_units_ex := C40_units (T := Qc) (F := Qc) sg_pga (alg sg_pga) d_pga ltac:(cbn; lia).

Theorem C40_one_is_unit {F} {RF : RingOps F} {LF : RingLaws F} {CF : CommLaws F}
  {DV : DivOps F} {FL : FieldLaws F} {FRl : FormallyReal F} {m : Mode} sg A (a : fftrepr F) :
  declared sg A -> length sg < 63 -> repr_shape sg a ->
  exists o, fr_one A = Ok o /\ repr_shape sg o /\ fr_mul o a = Ok a /\ fr_mul a o = Ok a.
Proof. exact (fun D Hl => t_one sg A D Hl a). Qed.
Print Assumptions C40_one_is_unit.

Example C40_ex : let x : store KDense Qc := mkArr 3 a3 in let y : store KDense Qc := mkArr 3 (b2 ++ a2) in let A := alg sg_pga in
  declared sg_pga A /\ valid A x /\ valid A y /\
  ok2 (fr_eqb (F := Qc)) (X <- mv_fft A (x : arr Qc) ;; Y <- mv_fft A (y : arr Qc) ;; fr_sub X Y) (z <- mv_sub x y ;; mv_fft A (z : arr Qc)) = true /\
  ok2 (fr_eqb (F := Qc)) (X <- mv_fft A (x : arr Qc) ;; o <- fr_one A ;; fr_mul o X) (mv_fft A (x : arr Qc)) = true.
Proof. cbv zeta. split; [dcl|]. split; [vld|]. split; [vld|]. split; vm_compute; reflexivity. Qed.

(** C41. *)
Theorem C41_rev {T F} {RT : RingOps T} {LT : RingLaws T} {RF : RingOps F} {LF : RingLaws F}
  {IC : IntoCplx T F} {FC : FromCplx T F} {CV : ConvLaws T F} {m : Mode} sg A (x : store KDense T) :
  declared sg A -> length sg < 63 -> valid A x ->
  both_ok (X <- mv_fft (F := F) A (x : arr T) ;; fr_rev A X) (z <- mv_rev A x ;; mv_fft A (z : arr T)).
Proof. exact (fun D Hl => c41_rev sg A D Hl x). Qed.
Print Assumptions C41_rev.
Example C41_rev_ex := C41_rev (F := Qc) [P1; M1; N1] (alg [P1; M1; N1]) (mkArr 3 a3) ltac:(dcl) ltac:(cbn; lia) ltac:(vld).

Theorem C41_flip {T F} {RT : RingOps T} {LT : RingLaws T} {RF : RingOps F} {LF : RingLaws F}
  {IC : IntoCplx T F} {FC : FromCplx T F} {CV : ConvLaws T F} {m : Mode} sg A (x : store KDense T) :
  declared sg A -> length sg < 63 -> valid A x ->
  both_ok (X <- mv_fft (F := F) A (x : arr T) ;; Ok (fr_flip X)) (z <- mv_flip A x ;; mv_fft A (z : arr T)).
Proof. exact (fun D Hl => c41_flip sg A D Hl x). Qed.
Print Assumptions C41_flip.

Example C41_ex : let x : store KDense Qc := mkArr 5 (a3 ++ a3 ++ b2 ++ a3 ++ a2) in let sg := [P1; M1; N1; N1; N1] in let A := alg sg in
  declared sg A /\ valid A x /\
  ok2 (fr_eqb (F := Qc)) (X <- mv_fft A (x : arr Qc) ;; fr_rev A X) (z <- mv_rev A x ;; mv_fft A (z : arr Qc)) = true /\
  ok2 (fr_eqb (F := Qc)) (X <- mv_fft A (x : arr Qc) ;; fr_rev A X) (mv_fft A (x : arr Qc)) = false.
Proof. cbv zeta. split; [dcl|]. split; [vld|]. split; vm_compute; reflexivity. Qed.

(** C42. *)
Theorem C42_ntrace {T F} {RT : RingOps T} {LT : RingLaws T} {RF : RingOps F} {LF : RingLaws F} {CF : CommLaws F}
  {DV : DivOps F} {FL : FieldLaws F} {FRl : FormallyReal F} {IC : IntoCplx T F} {FC : FromCplx T F} {CV : ConvLaws T F} {m : Mode} sg A (x : store KDense T) :
  declared sg A -> length sg < 63 -> valid A x ->
  both_ok (X <- mv_fft (F := F) A (x : arr T) ;; fr_ntrace X) (c <- mv_scalar_part x ;; Ok (into_complex c)).
Proof. exact (fun D Hl => c42_ntrace sg A D Hl x). Qed.
Print Assumptions C42_ntrace.
Example C42_ntrace_ex := C42_ntrace (F := Qc) [P1; M1; M1] (alg [P1; M1; M1]) (mkArr 3 a3) ltac:(dcl) ltac:(cbn; lia) ltac:(vld).

(** [c_mulr c f] multiplies both parts of c by the real number f, here the side as a number. *)
Theorem C42_trace {T F} {RT : RingOps T} {LT : RingLaws T} {RF : RingOps F} {LF : RingLaws F}
  {IC : IntoCplx T F} {FC : FromCplx T F} {CV : ConvLaws T F} {m : Mode} sg A (x : store KDense T) :
  declared sg A -> length sg < 63 -> valid A x ->
  both_ok (X <- mv_fft (F := F) A (x : arr T) ;; fr_trace X) (c <- mv_scalar_part x ;; Ok (c_mulr (into_complex c) (nat_f (side_of sg)))).
Proof. exact (fun D Hl => c42_trace sg A D Hl x). Qed.
Print Assumptions C42_trace.
Example C42_trace_ex := C42_trace (F := Qc) [P1; M1; M1] (alg [P1; M1; M1]) (mkArr 3 a3) ltac:(dcl) ltac:(cbn; lia) ltac:(vld).

Theorem C42_mag2 {T F} {RT : RingOps T} {LT : RingLaws T} {RF : RingOps F} {LF : RingLaws F} {CF : CommLaws F}
  {DV : DivOps F} {FL : FieldLaws F} {FRl : FormallyReal F} {IC : IntoCplx T F} {FC : FromCplx T F} {CV : ConvLaws T F} {m : Mode} sg A (x : store KDense T) :
  declared sg A -> length sg < 63 -> valid A x ->
  both_ok (X <- mv_fft (F := F) A (x : arr T) ;; fr_mag2 A X) (c <- mv_mag2 A x ;; Ok (into_complex c)).
Proof. exact (fun D Hl => c42_mag2 sg A D Hl x). Qed.
Print Assumptions C42_mag2.

Example C42_ex : let x : store KDense Qc := mkArr 3 a3 in let A := alg [P1; M1; M1] in
  declared [P1; M1; M1] A /\ valid A x /\
  ok2 reqb (X <- mv_fft (F := Qc) A (x : arr Qc) ;; fr_trace X) (Ok (cq 4 1 0 1)) = true /\
  ok2 reqb (X <- mv_fft (F := Qc) A (x : arr Qc) ;; fr_mag2 A X) (Ok (cq 111 4 0 1)) = true.
Proof. cbv zeta. split; [dcl|]. split; [vld|]. split; vm_compute; reflexivity. Qed.

(** C45. *)
Theorem C45_from_array3 {F} {RF : RingOps F} {LF : RingLaws F} {m : Mode} sg A (a : fftrepr F) :
  declared sg A -> length sg < 63 ->
  (fr_shape a = (mats_of sg, side_of sg, side_of sg) -> fr_from_array3 A a = Ok a /\ fr_into_array3 a = a) /\
  (fr_shape a <> (mats_of sg, side_of sg, side_of sg) -> fr_from_array3 A a = Err InvalidShape).
Proof. exact (fun D Hl => conj (fun E => conj (c45_accept sg A D Hl a E) eq_refl) (c45_reject sg A D Hl a)). Qed.
Print Assumptions C45_from_array3.
Example C45_from_array3_ex : fr_from_array3 (alg sg_e3) (a3_zeros (T := cplx Qc) 1 4 4) = Ok (a3_zeros 1 4 4) /\
  fr_from_array3 (alg sg_e3) (a3_zeros (T := cplx Qc) 2 4 4) = Err InvalidShape.
Proof.
  split; [apply (proj1 (C45_from_array3 sg_e3 _ (a3_zeros 1 4 4) d_e3 ltac:(cbn; lia)) eq_refl)|apply (proj2 (C45_from_array3 sg_e3 _ _ d_e3 ltac:(cbn; lia))); discriminate].
Qed.

Theorem C45_from_array2 {F} {RF : RingOps F} {LF : RingLaws F} {m : Mode} sg A (a : mat (cplx F)) :
  declared sg A -> length sg < 63 ->
  (nonnull sg = length sg -> m_nr a = side_of sg -> m_nc a = side_of sg ->
    exists r, fr_from_array2 A a = Ok r /\ fr_into_array2 r = Ok a) /\
  (nonnull sg <> length sg \/ (m_nr a, m_nc a) <> (side_of sg, side_of sg) -> fr_from_array2 A a = Err InvalidShape).
Proof. exact (fun D Hl => conj (c45_accept2 sg A D Hl a) (c45_reject2 sg A D Hl a)). Qed.
Print Assumptions C45_from_array2.
Example C45_from_array2_ex : let a : mat (cplx Qc) := mkMat 2 2 [cq 1 1 0 1; cq 0 1 0 1; cq 0 1 0 1; cq 1 1 0 1] in
  (exists r, fr_from_array2 (alg sg_11) a = Ok r /\ fr_into_array2 r = Ok a) /\ fr_from_array2 (alg sg_pga) a = Err InvalidShape.
Proof.
  cbv zeta. split; [apply (proj1 (C45_from_array2 sg_11 _ _ d_11 ltac:(cbn; lia))); reflexivity|apply (proj2 (C45_from_array2 sg_pga _ _ d_pga ltac:(cbn; lia))); left; discriminate].
Qed.

Theorem C45_into_array2 {F} {RF : RingOps F} {LF : RingLaws F} {m : Mode} sg A (r : fftrepr F) :
  declared sg A -> length sg < 63 -> repr_shape sg r -> nonnull sg = length sg ->
  exists a, fr_into_array2 r = Ok a /\ m_nr a = side_of sg /\ m_nc a = side_of sg /\ fr_from_array2 A a = Ok r.
Proof. exact (fun D Hl => c45_into2 sg A D Hl r). Qed.
Print Assumptions C45_into_array2.
Example C45_into_array2_ex := C45_into_array2 sg_11 (alg sg_11) (mkA3 2 2 [mkMat 2 2 [cq 1 1 2 1; cq 0 1 0 1; cq 3 1 0 1; cq 1 2 1 1]]) d_11 ltac:(cbn; lia) ltac:(split; [repeat constructor|reflexivity]) eq_refl.

Theorem C45_shape_kept {F} {RF : RingOps F} {LF : RingLaws F} {CF : CommLaws F}
  {DV : DivOps F} {FL : FieldLaws F} {FRl : FormallyReal F} {m : Mode} sg A (a b : fftrepr F) (c : cplx F) (f : F) k :
  declared sg A -> length sg < 63 -> repr_shape sg a -> repr_shape sg b ->
  (exists z, fr_mul a b = Ok z /\ repr_shape sg z) /\ (exists z, fr_add a b = Ok z /\ repr_shape sg z) /\
  (exists z, fr_sub a b = Ok z /\ repr_shape sg z) /\ (exists z, fr_pow A a k = Ok z /\ repr_shape sg z) /\
  (exists z, fr_rev A a = Ok z /\ repr_shape sg z) /\
  repr_shape sg (fr_neg a) /\ repr_shape sg (fr_flip a) /\ repr_shape sg (fr_scale a c) /\
  repr_shape sg (fr_scale_r a f) /\ repr_shape sg (fr_div a c) /\ repr_shape sg (fr_div_r a f).
Proof. exact (fun D Hl => c45_kept sg A D Hl a b c f k). Qed.
Print Assumptions C45_shape_kept.

Example C45_ex : let A := alg sg_e3 in
  declared sg_e3 A /\ repr_shape sg_e3 (a3_zeros (T := cplx Qc) 1 4 4) /\ nonnull sg_e3 = length sg_e3 /\
  fr_shape (a3_zeros (T := cplx Qc) 1 4 4) = (mats_of sg_e3, side_of sg_e3, side_of sg_e3) /\
  fr_from_array3 A (a3_zeros (T := cplx Qc) 1 4 5) = Err InvalidShape /\
  fr_from_array2 (alg sg_pga) (mkMat 2 2 [cq 1 1 0 1; cq 0 1 0 1; cq 0 1 0 1; cq 1 1 0 1]) = Err InvalidShape.
Proof. cbv zeta. split; [dcl|]. split; [split; [repeat constructor|reflexivity]|]. repeat split; vm_compute; reflexivity. Qed.

(** C57. The values of one algebra's shape form a ring. *)
Theorem C57_sums {F} {RF : RingOps F} {LF : RingLaws F} {CF : CommLaws F}
  {DV : DivOps F} {FL : FieldLaws F} {FRl : FormallyReal F} sg A (a b c : fftrepr F) :
  declared sg A -> length sg < 63 -> repr_shape sg a -> repr_shape sg b -> repr_shape sg c ->
  both_ok (ab <- fr_add a b ;; fr_add ab c) (bc <- fr_add b c ;; fr_add a bc) /\
  both_ok (fr_add a b) (fr_add b a) /\
  both_ok (fr_sub a b) (fr_add a (fr_neg b)).
Proof. exact (fun D Hl Ha Hb Hc => conj (t_add_assoc sg A D Hl a b c Ha Hb Hc) (conj (t_add_comm sg A D Hl a b Ha Hb) (t_sub sg A D Hl a b Ha Hb))). Qed.
Print Assumptions C57_sums.
Example C57_sums_ex : let r := mkA3 2 2 [mkMat 2 2 [cq 1 1 2 1; cq 0 1 0 1; cq 3 1 0 1; cq 1 2 1 1]; mkMat 2 2 [cq 0 1 0 1; cq 5 1 0 1; cq 3 1 1 1; cq 1 1 1 1]] in
  both_ok (fr_sub r r) (fr_add r (fr_neg r)).
Proof. cbv zeta. apply (C57_sums sg_pga (alg sg_pga) _ _ (a3_zeros 2 2 2) d_pga); [cbn; lia| | |]; (split; [repeat constructor|reflexivity]). Qed.

Theorem C57_products {F} {RF : RingOps F} {LF : RingLaws F} {CF : CommLaws F}
  {DV : DivOps F} {FL : FieldLaws F} {FRl : FormallyReal F} sg A (a b c : fftrepr F) :
  declared sg A -> length sg < 63 -> repr_shape sg a -> repr_shape sg b -> repr_shape sg c ->
  both_ok (ab <- fr_mul a b ;; fr_mul ab c) (bc <- fr_mul b c ;; fr_mul a bc) /\
  both_ok (bc <- fr_add b c ;; fr_mul a bc) (ab <- fr_mul a b ;; ac <- fr_mul a c ;; fr_add ab ac) /\
  both_ok (ab <- fr_add a b ;; fr_mul ab c) (ac <- fr_mul a c ;; bc <- fr_mul b c ;; fr_add ac bc).
Proof. exact (fun D Hl Ha Hb Hc => conj (t_assoc sg A D Hl a b c Ha Hb Hc) (conj (t_dist_l sg A D Hl a b c Ha Hb Hc) (t_dist_r sg A D Hl a b c Ha Hb Hc))). Qed.
Print Assumptions C57_products.
Example C57_products_ex : let r := mkA3 2 2 [mkMat 2 2 [cq 1 1 2 1; cq 0 1 0 1; cq 3 1 0 1; cq 1 2 1 1]; mkMat 2 2 [cq 0 1 0 1; cq 5 1 0 1; cq 3 1 1 1; cq 1 1 1 1]] in
  both_ok (ab <- fr_mul r r ;; fr_mul ab r) (bc <- fr_mul r r ;; fr_mul r bc).
Proof. cbv zeta. apply (C57_products sg_pga (alg sg_pga) _ _ _ d_pga); [cbn; lia| | |]; (split; [repeat constructor|reflexivity]). Qed.

Theorem C57_zero {F} {RF : RingOps F} {LF : RingLaws F} {CF : CommLaws F}
  {DV : DivOps F} {FL : FieldLaws F} {FRl : FormallyReal F} {m : Mode} sg A (a : fftrepr F) :
  declared sg A -> length sg < 63 -> repr_shape sg a ->
  exists o, fr_zero A = Ok o /\ repr_shape sg o /\ fr_add o a = Ok a /\ fr_add a o = Ok a /\ fr_mul o a = Ok o /\ fr_mul a o = Ok o /\
    fr_add a (fr_neg a) = Ok o /\ fr_sub a a = Ok o.
Proof. exact (fun D Hl => t_zero sg A D Hl a). Qed.
Print Assumptions C57_zero.
Example C57_zero_ex : let r := mkA3 2 2 [mkMat 2 2 [cq 1 1 2 1; cq 0 1 0 1; cq 3 1 0 1; cq 1 2 1 1]; mkMat 2 2 [cq 0 1 0 1; cq 5 1 0 1; cq 3 1 1 1; cq 1 1 1 1]] in
  exists o, fr_zero (alg sg_pga) = Ok o /\ fr_add o r = Ok r /\ fr_sub r r = Ok o.
Proof.
  cbv zeta. destruct (C57_zero sg_pga (alg sg_pga) (mkA3 2 2 [mkMat 2 2 [cq 1 1 2 1; cq 0 1 0 1; cq 3 1 0 1; cq 1 2 1 1]; mkMat 2 2 [cq 0 1 0 1; cq 5 1 0 1; cq 3 1 1 1; cq 1 1 1 1]]) d_pga)
    as (o & E & _ & E1 & _ & _ & _ & _ & E2); [cbn; lia|split; [repeat constructor|reflexivity]|]. exists o. split; [exact E|]. split; assumption.
Qed.

(** [one()] is neutral for every array of the right shape, and no other array is. *)
Theorem C57_one {F} {RF : RingOps F} {LF : RingLaws F} {CF : CommLaws F}
  {DV : DivOps F} {FL : FieldLaws F} {FRl : FormallyReal F} {m : Mode} sg A :
  declared sg A -> length sg < 63 ->
  exists o : fftrepr F, fr_one A = Ok o /\ repr_shape sg o /\
    (forall a : fftrepr F, repr_shape sg a -> fr_mul o a = Ok a /\ fr_mul a o = Ok a) /\
    (forall o' : fftrepr F, repr_shape sg o' -> fr_mul o' o = Ok o -> o' = o).
Proof. exact (fun D Hl => t_one_unique sg A D Hl). Qed.
Print Assumptions C57_one.
Example C57_one_ex := C57_one (F := Qc) sg_pga (alg sg_pga) d_pga ltac:(cbn; lia).

Theorem C57_is_zero {F} {RF : RingOps F} {LF : RingLaws F} {CF : CommLaws F}
  {DV : DivOps F} {FL : FieldLaws F} {FRl : FormallyReal F} {m : Mode} sg A (a : fftrepr F) :
  declared sg A -> length sg < 63 -> repr_shape sg a -> (fr_is_zero a = true <-> fr_zero A = Ok a).
Proof. exact (fun D Hl => t_is_zero sg A D Hl a). Qed.
Print Assumptions C57_is_zero.
Example C57_is_zero_ex := C57_is_zero (F := Qc) sg_pga (alg sg_pga) (a3_zeros 2 2 2) d_pga ltac:(cbn; lia) ltac:(split; [repeat constructor|reflexivity]).

(** A real number acts as the complex number without imaginary part, and division undoes scaling. *)
Theorem C57_scalars {F} {RF : RingOps F} {LF : RingLaws F} {CF : CommLaws F}
  {DV : DivOps F} {FL : FieldLaws F} {FRl : FormallyReal F} (a : fftrepr F) (t : F) (z : cplx F) :
  fr_scale_r a t = fr_scale a (mkC t r0) /\
  (t <> r0 -> fr_scale_r (fr_div_r a t) t = a) /\
  (z <> r0 -> fr_scale (fr_div a z) z = a).
Proof. exact (t_scalars a t z). Qed.
Print Assumptions C57_scalars.

Example C57_ex : let r := mkA3 2 2 [mkMat 2 2 [cq 1 1 2 1; cq 0 1 0 1; cq 3 1 0 1; cq 1 2 1 1]; mkMat 2 2 [cq 0 1 0 1; cq 5 1 0 1; cq 3 1 1 1; cq 1 1 1 1]] in
  declared sg_pga (alg sg_pga) /\ repr_shape sg_pga r /\ fr_is_zero r = false /\
  ok2 (fr_eqb (F := Qc)) (ab <- fr_mul r r ;; fr_mul ab r) (bc <- fr_mul r r ;; fr_mul r bc) = true /\
  ok2 (fr_eqb (F := Qc)) (fr_mul r r) (fr_add r r) = false /\
  fr_eqb (fr_div_r r (qc 3 1)) r = false /\ fr_eqb (fr_div r (cq 1 1 2 1)) r = false.
Proof. cbv zeta. split; [dcl|]. split; [split; [repeat constructor|reflexivity]|]. repeat split; vm_compute; reflexivity. Qed.

(** C30 in the transform domain. *)
Theorem C30_repr_pow {F} {RF : RingOps F} {LF : RingLaws F} {CF : CommLaws F}
  {DV : DivOps F} {FL : FieldLaws F} {FRl : FormallyReal F} {m : Mode} sg A (a : fftrepr F) (k l : nat) :
  declared sg A -> length sg < 63 -> repr_shape sg a ->
  both_ok (fr_pow A a k) (Nat.iter k (fun r => u <- r ;; fr_mul u a) (fr_one A)) /\
  both_ok (fr_pow A a (k + l)) (u <- fr_pow A a k ;; v <- fr_pow A a l ;; fr_mul u v).
Proof. exact (fun D Hl => t_pow sg A D Hl a k l). Qed.
Print Assumptions C30_repr_pow.
Example C30_repr_pow_ex := C30_repr_pow (F := Qc) sg_11 (alg sg_11) (mkA3 2 2 [mkMat 2 2 [cq 1 1 2 1; cq 0 1 0 1; cq 3 1 0 1; cq 1 2 1 1]]) 2 3 d_11 ltac:(cbn; lia) ltac:(split; [repeat constructor|reflexivity]).

Theorem C30_fft_pow {T F} {RT : RingOps T} {LT : RingLaws T} {RF : RingOps F} {LF : RingLaws F} {CF : CommLaws F}
  {DV : DivOps F} {FL : FieldLaws F} {FRl : FormallyReal F} {IC : IntoCplx T F} {FC : FromCplx T F} {CV : ConvLaws T F} {m : Mode} {H : HashOrder} sg A (x : store KDense T) (k : nat) :
  declared sg A -> length sg < 63 -> valid A x ->
  both_ok (X <- mv_fft (F := F) A (x : arr T) ;; fr_pow A X k) (z <- mv_pow A x k ;; mv_fft A (z : arr T)).
Proof. exact (fun D Hl => c30_fft sg A D Hl x k). Qed.
Print Assumptions C30_fft_pow.

Example C30_repr_ex : let x : store KDense Qc := mkArr 3 a3 in let A := alg sg_pga in
  declared sg_pga A /\ valid A x /\
  ok2 (fr_eqb (F := Qc)) (X <- mv_fft A (x : arr Qc) ;; fr_pow A X 5) (z <- mv_pow A x 5 ;; mv_fft A (z : arr Qc)) = true.
Proof. cbv zeta. split; [dcl|]. split; [vld|]. vm_compute; reflexivity. Qed.
