(** Properties C35-C37: the transform between coefficient arrays and matrices.
    F stands for the exact real numbers, T for the coefficient type (F or cplx F). *)
From Verif Require Import Ex_FFT.
Local Open Scope nat_scope.

(** C35. *)
Theorem C35_iclifft_clifft {T F} {RT : RingOps T} {LT : RingLaws T} {RF : RingOps F} {LF : RingLaws F} {CF : CommLaws F} {DV : DivOps F}
  {FL : FieldLaws F} {FR : FormallyReal F} {IC : IntoCplx T F} {FC : FromCplx T F} {CV : ConvLaws T F} {m : Mode} n (l : list T) :
  length l = 2 ^ n ->
  exists M : mat (cplx F), clifft l = Ok M /\ square_mat (2 ^ ((n + 1) / 2)) M /\
    iclifft M = Ok (map into_complex l ++ repeat r0 (2 ^ (2 * ((n + 1) / 2)) - 2 ^ n)) /\
    (forall dest : mat (cplx F), square_mat (2 ^ ((n + 1) / 2)) dest -> clifft_into l dest = Ok M).
Proof. exact (roundtrip_thm n l). Qed.
Print Assumptions C35_iclifft_clifft.
Example C35_iclifft_clifft_ex := C35_iclifft_clifft (T := Qc) (F := Qc) 3 a3 eq_refl.

Theorem C35_clifft_iclifft {F} {RF : RingOps F} {LF : RingLaws F} {CF : CommLaws F} {DV : DivOps F}
  {FL : FieldLaws F} {FR : FormallyReal F} {m : Mode} k (M : mat (cplx F)) :
  square_mat (2 ^ k) M -> exists l, iclifft M = Ok l /\ length l = 2 ^ (2 * k) /\ clifft l = Ok M.
Proof. exact (roundtrip2_thm k M). Qed.
Print Assumptions C35_clifft_iclifft.
Example C35_clifft_iclifft_ex := C35_clifft_iclifft 1 (mkMat 2 2 [cq 1 1 2 1; cq 0 1 0 1; cq 3 1 0 1; cq 1 2 1 1]) (conj eq_refl (conj eq_refl eq_refl)).

Theorem C35_bad_length {T F} {RT : RingOps T} {RF : RingOps F} {IC : IntoCplx T F} {m : Mode} (l : list T) :
  (forall n, length l <> 2 ^ n) ->
  clifft l = (Err InvalidShape : res (mat (cplx F))) /\ forall dest : mat (cplx F), clifft_into l dest = Err InvalidShape.
Proof. exact (clifft_bad l). Qed.
Print Assumptions C35_bad_length.
Example C35_bad_length_ex : clifft [qc 1 1; qc 2 1; qc 3 1] = (Err InvalidShape : res (mat (cplx Qc))).
Proof. apply C35_bad_length. intros n E. cbn in E. destruct n as [|[|n]]; cbn in E; lia. Qed.

Theorem C35_bad_shape {F} {RF : RingOps F} {LF : RingLaws F} {DV : DivOps F} {m : Mode} (M : mat (cplx F)) :
  m_ok M -> (forall k, ~ square_mat (2 ^ k) M) ->
  iclifft M = Err InvalidShape /\ imaginary_flip M = Err InvalidShape /\ reversal M = Err InvalidShape.
Proof. exact (bad_shapes_thm M). Qed.
Print Assumptions C35_bad_shape.

Example C35_ex : length a3 = 2 ^ 3 /\
  (exists M, clifft a3 = Ok M /\ m_nr M = 4 /\ exists l, iclifft M = Ok l /\
     forallb (fun p => reqb (fst p) (snd p)) (combine l (map into_complex a3 ++ repeat r0 8)) = true /\ length l = 16) /\
  (forall n, length [qc 1 1; qc 2 1; qc 3 1] <> 2 ^ n) /\ (forall k, ~ square_mat (2 ^ k) (m_zeros 2 4 : mat (cplx Qc))).
Proof.
  split; [reflexivity|]. split.
  - eexists. split; [vm_compute; reflexivity|]. split; [reflexivity|]. eexists. split; [vm_compute; reflexivity|]. split; vm_compute; reflexivity.
  - split.
    + intros n E. cbn in E. destruct n as [|[|n]]; cbn in E; lia.
    + intros k (H1 & H2 & _). cbn in H1, H2. lia.
Qed.

(** C36. The geometric product of Cl(n) becomes the matrix product. *)
Theorem C36_matrix_product {T F} {RT : RingOps T} {LT : RingLaws T} {RF : RingOps F} {LF : RingLaws F} {DV : DivOps F}
  {IC : IntoCplx T F} {FC : FromCplx T F} {CV : ConvLaws T F} {m : Mode} n (x y z : list T) :
  n < 63 -> length x = 2 ^ n -> length y = 2 ^ n -> length z = 2 ^ n ->
  (forall k, (k < 2 ^ N.of_nat n)%N -> coefs z k = spec_mul q1 n (coefs x) (coefs y) k) ->
  exists X Y Z : mat (cplx F), clifft x = Ok X /\ clifft y = Ok Y /\ clifft z = Ok Z /\ m_dot X Y = Ok Z.
Proof. exact (product_thm n x y z). Qed.
Print Assumptions C36_matrix_product.
(** e0 (1 + 2 e0) = 2 + e0 in Cl(1). *)
Example C36_matrix_product_ex : exists X Y Z0 : mat (cplx Qc), clifft [qc 0 1; qc 1 1] = Ok X /\ clifft [qc 1 1; qc 2 1] = Ok Y /\ clifft [qc 2 1; qc 1 1] = Ok Z0 /\ m_dot X Y = Ok Z0.
Proof.
  apply (C36_matrix_product 1); [lia|reflexivity|reflexivity|reflexivity|]. intros k Hk. change (k < 2)%N in Hk.
  apply Qc_is_canon. destruct k as [|[p|p|]]; try (vm_compute; reflexivity); exfalso; lia.
Qed.

(** The same for the multivectors of the library. *)
Theorem C36_multivectors {T F} {RT : RingOps T} {LT : RingLaws T} {RF : RingOps F} {LF : RingLaws F} {DV : DivOps F}
  {IC : IntoCplx T F} {FC : FromCplx T F} {CV : ConvLaws T F} {m : Mode} {H : HashOrder} n A (x y : store KDense T) :
  declared (repeat Tplus n) A -> n < 63 -> valid A x -> valid A y ->
  exists (z : store KDense T) (X Y Z : mat (cplx F)), mv_mul A x y = Ok z /\ valid A z /\
    clifft (arr_data x) = Ok X /\ clifft (arr_data y) = Ok Y /\ clifft (arr_data z) = Ok Z /\ m_dot X Y = Ok Z.
Proof. exact (dense_product_thm n A x y). Qed.
Print Assumptions C36_multivectors.
Example C36_multivectors_ex := C36_multivectors (F := Qc) 2 (alg [P1; P1]) (mkArr 2 a2) (mkArr 2 b2) ltac:(dcl) ltac:(lia) ltac:(vld) ltac:(vld).

Theorem C36_additive {T F} {RT : RingOps T} {LT : RingLaws T} {RF : RingOps F} {LF : RingLaws F} {DV : DivOps F}
  {IC : IntoCplx T F} {FC : FromCplx T F} {CV : ConvLaws T F} {m : Mode} n (x y z : list T) :
  length x = 2 ^ n -> length y = 2 ^ n -> length z = 2 ^ n ->
  (forall k, (k < 2 ^ N.of_nat n)%N -> coefs z k = radd (coefs x k) (coefs y k)) ->
  exists X Y Z : mat (cplx F), clifft x = Ok X /\ clifft y = Ok Y /\ clifft z = Ok Z /\ entrywise2 radd X Y Z.
Proof. exact (additive_thm n x y z). Qed.
Print Assumptions C36_additive.
Example C36_additive_ex : exists X Y Z0 : mat (cplx Qc), clifft [qc 0 1; qc 1 1] = Ok X /\ clifft [qc 1 1; qc 2 1] = Ok Y /\ clifft [qc 1 1; qc 3 1] = Ok Z0 /\ entrywise2 radd X Y Z0.
Proof.
  apply (C36_additive 1); [reflexivity|reflexivity|reflexivity|]. intros k Hk. change (k < 2)%N in Hk.
  apply Qc_is_canon. destruct k as [|[p|p|]]; try (vm_compute; reflexivity); exfalso; lia.
Qed.

Theorem C36_one {T F} {RT : RingOps T} {LT : RingLaws T} {RF : RingOps F} {LF : RingLaws F} {DV : DivOps F}
  {IC : IntoCplx T F} {FC : FromCplx T F} {CV : ConvLaws T F} {m : Mode} n :
  exists M : mat (cplx F), clifft (r1 :: repeat r0 (2 ^ n - 1) : list T) = Ok M /\ identity_mat (2 ^ ((n + 1) / 2)) M.
Proof. exact (one_thm n). Qed.
Print Assumptions C36_one.

Example C36_ex : let A := alg [P1; P1] in let x : store KDense Qc := mkArr 2 a2 in let y : store KDense Qc := mkArr 2 b2 in
  declared (repeat Tplus 2) A /\ valid A x /\ valid A y /\
  exists z X Y Z, mv_mul A x y = Ok z /\ clifft (F := Qc) (arr_data x) = Ok X /\ clifft (F := Qc) (arr_data y) = Ok Y /\
    clifft (F := Qc) (arr_data z) = Ok Z /\ nth 0 (m_data Z) r0 = cq 7 2 (-9) 1.
Proof.
  cbv zeta. split; [dcl|]. split; [vld|]. split; [vld|]. do 4 eexists. do 4 (split; [vm_compute; reflexivity|]). apply reqb_spec. vm_compute. reflexivity.
Qed.

(** C37. *)
Theorem C37_parity_flip {T F} {RT : RingOps T} {LT : RingLaws T} {RF : RingOps F} {LF : RingLaws F} {DV : DivOps F}
  {IC : IntoCplx T F} {FC : FromCplx T F} {CV : ConvLaws T F} {m : Mode} n (x x' : list T) :
  length x = 2 ^ n -> length x' = 2 ^ n ->
  (forall k, (k < 2 ^ N.of_nat n)%N -> coefs x' k = msign (popcount k) (coefs x k)) ->
  exists X X' : mat (cplx F), clifft x = Ok X /\ clifft x' = Ok X' /\ Ok (parity_flip X) = Ok X'.
Proof. exact (parity_thm n x x'). Qed.
Print Assumptions C37_parity_flip.
Example C37_parity_flip_ex : exists X X' : mat (cplx Qc), clifft [qc 1 1; qc 2 1] = Ok X /\ clifft [qc 1 1; qc (-2) 1] = Ok X' /\ Ok (parity_flip X) = Ok X'.
Proof.
  apply (C37_parity_flip 1); [reflexivity|reflexivity|]. intros k Hk. change (k < 2)%N in Hk.
  apply Qc_is_canon. destruct k as [|[p|p|]]; try (vm_compute; reflexivity); exfalso; lia.
Qed.

Theorem C37_imaginary_flip {T F} {RT : RingOps T} {LT : RingLaws T} {RF : RingOps F} {LF : RingLaws F} {DV : DivOps F}
  {IC : IntoCplx T F} {FC : FromCplx T F} {CV : ConvLaws T F} {m : Mode} n (x x' : list T) :
  n < 63 -> length x = 2 ^ n -> length x' = 2 ^ n ->
  (forall k, (k < 2 ^ N.of_nat n)%N -> coefs x' k = msign (odd_gens n k) (coefs x k)) ->
  exists X X' : mat (cplx F), clifft x = Ok X /\ clifft x' = Ok X' /\ imaginary_flip X = Ok X'.
Proof. exact (fun Hn => iflip_thm n Hn x x'). Qed.
Print Assumptions C37_imaginary_flip.
Example C37_imaginary_flip_ex : exists X X' : mat (cplx Qc), clifft a2 = Ok X /\ clifft [qc 1 1; qc 2 1; qc 0 1; qc 3 2] = Ok X' /\ imaginary_flip X = Ok X'.
Proof.
  apply (C37_imaginary_flip 2); [lia|reflexivity|reflexivity|]. intros k Hk. change (k < 4)%N in Hk.
  apply Qc_is_canon. destruct k as [|[[p|p|]|[p|p|]|]]; try (vm_compute; reflexivity); exfalso; lia.
Qed.

Theorem C37_reversal {T F} {RT : RingOps T} {LT : RingLaws T} {RF : RingOps F} {LF : RingLaws F} {DV : DivOps F}
  {IC : IntoCplx T F} {FC : FromCplx T F} {CV : ConvLaws T F} {m : Mode} n (x x' : list T) :
  length x = 2 ^ n -> length x' = 2 ^ n ->
  (forall k, (k < 2 ^ N.of_nat n)%N -> coefs x' k = msign (Nat.div2 (popcount k * (popcount k - 1))) (coefs x k)) ->
  exists X X' : mat (cplx F), clifft x = Ok X /\ clifft x' = Ok X' /\ reversal X = Ok X'.
Proof. exact (reversal_thm n x x'). Qed.
Print Assumptions C37_reversal.

(** Reversal, imaginary flip and parity flip of 1 + 2 e0 - 3/2 e1 e0. *)
Example C37_ex :
  let rv := [qc 1 1; qc 2 1; qc 0 1; qc 3 2] in let im := [qc 1 1; qc 2 1; qc 0 1; qc 3 2] in let pa := [qc 1 1; qc (-2) 1; qc 0 1; qc (-3) 2] in
  (forall k, (k < 2 ^ N.of_nat 2)%N -> coefs rv k = msign (Nat.div2 (popcount k * (popcount k - 1))) (coefs a2 k)) /\
  (forall k, (k < 2 ^ N.of_nat 2)%N -> coefs im k = msign (odd_gens 2 k) (coefs a2 k)) /\
  (forall k, (k < 2 ^ N.of_nat 2)%N -> coefs pa k = msign (popcount k) (coefs a2 k)).
Proof.
  cbv zeta. assert (G : forall (f g : N -> Qc), forallb (fun k => reqb (f k) (g k)) [0; 1; 2; 3]%N = true -> forall k, (k < 2 ^ N.of_nat 2)%N -> f k = g k).
  { intros f g E k Hk. rewrite forallb_forall in E. apply reqb_spec, E. cbn in Hk. cbn. lia. }
  split; [|split]; apply G; vm_compute; reflexivity.
Qed.
