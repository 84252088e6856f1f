(** Properties C64 and C65: programs computed on [FFTRepr] values, and how these compare; and the
    index iterators of an algebra (C06).  F stands for the exact real numbers. *)
From Coq Require Import Sorting.Sorted.
From Coq Require Import List.
Import ListNotations.
From Verif Require Import Ex_FFT P_TProg.
Local Open Scope nat_scope.

(** C64. A program computed in the transform domain ([feval]) never panics and gives the
    transform of what it gives on dense multivectors ([eval]); ifft returns to the latter.
    [offers] and [args_ok] only ask that basis vectors exist and that literals are well sized. *)
Theorem C64_transform_programs {T F} {RT : RingOps T} {LT : RingLaws T} {DT : DivOps T} {CJ : ConjOps T}
  {RF : RingOps F} {LF : RingLaws F} {CF : CommLaws F} {DV : DivOps F} {FL : FieldLaws F} {FRl : FormallyReal F}
  {IC : IntoCplx T F} {FC : FromCplx T F} {CV : ConvLaws T F} {m : Mode} {H : HashOrder} sg A (e : expr T) :
  declared sg A -> length sg < 63 -> offers KDense A e -> args_ok A e ->
  exists z Z, eval KDense A e = Ok z /\ valid A z /\
    feval (F := F) A e = Ok Z /\ mv_fft A (z : arr T) = Ok Z /\ fr_ifft A Z = Ok (z : arr T).
Proof. exact (fun D Hl => tprog_thm sg A D Hl e). Qed.
Print Assumptions C64_transform_programs.

(** (2 e0 + e1 e2)^3 - rev(e0 (e2 dual)) in Cl(1,1,1). *)
Example C64_ex : let sg := [P1; M1; N1] in let A := alg sg in
  let e : expr Qc := ESub (EPow (EAdd (EScale (EBasis 0) (qc 2 1)) (EMul (EBasis 1) (EBasis 2))) 3) (ERev (EMul (EBasis 0) (EDual (EBasis 2)))) in
  declared sg A /\ offers KDense A e /\ args_ok A e /\
  ok2 (mv_eqb (S := store KDense Qc)) (Z <- feval (CJ := {| rconj := fun c : Qc => c |}) (F := Qc) A e ;; fr_ifft A Z) (eval (CJ := {| rconj := fun c : Qc => c |}) KDense A e) = true /\
  ok2 (mv_eqb (S := store KDense Qc)) (eval (CJ := {| rconj := fun c : Qc => c |}) KDense A e) (mv_zero A) = false.
Proof.
  cbv zeta. split; [dcl|]. split; [cbn [offers]; repeat split; apply Nat.ltb_lt; reflexivity|]. split; [cbn [args_ok]; repeat split|].
  split; vm_compute; reflexivity.
Qed.

(** C65. [FFTRepr::basis] lists the transforms of the basis vectors. *)
Theorem C65_basis {T F} {RT : RingOps T} {LT : RingLaws T} {RF : RingOps F} {LF : RingLaws F}
  {IC : IntoCplx T F} {FC : FromCplx T F} {CV : ConvLaws T F} {m : Mode} {H : HashOrder} sg A :
  declared sg A -> length sg < 63 ->
  exists (b : list (store KDense T)) (l : list (fftrepr F)),
    mv_basis A = Ok b /\ fr_basis A = Ok l /\ length b = a_dim A /\ length l = a_dim A /\
    forall i e, nth_error b i = Some e -> exists X, nth_error l i = Some X /\ mv_fft A (e : arr T) = Ok X.
Proof. exact (fun D Hl => basis_fft sg A D Hl). Qed.
Print Assumptions C65_basis.

(** The generators of Cl(2) as Pauli matrices. *)
Example C65_basis_ex : match fr_basis (F := Qc) (alg [P1; P1]) with
  | Ok [X; Y] => a3_eqb X (mkA3 2 2 [mkMat 2 2 [cq 0 1 0 1; cq 1 1 0 1; cq 1 1 0 1; cq 0 1 0 1]]) &&
                 a3_eqb Y (mkA3 2 2 [mkMat 2 2 [cq 0 1 0 1; cq 0 1 1 1; cq 0 1 (-1) 1; cq 0 1 0 1]]) | _ => false end = true.
Proof. vm_compute. reflexivity. Qed.

(** [==] compares all entries, [approx_eq] the norms of all differences; the latter holds for
    rounded arithmetic as well (no law is used). *)
Theorem C65_equality {F} {RF : RingOps F} {LF : RingLaws F} sg (a b : fftrepr F) : repr_shape sg a -> repr_shape sg b ->
  (fr_eqb a b = true <-> forall w i j, w < mats_of sg -> i < side_of sg -> j < side_of sg -> a3_get a w i j = a3_get b w i j).
Proof. exact (fr_eq_thm sg a b). Qed.
Print Assumptions C65_equality.

Theorem C65_approx_eq {F} {RF : RingOps F} {R} {NL : NormLt (cplx F) R} sg (a b : fftrepr F) (eps : R) : repr_shape sg a -> repr_shape sg b ->
  (fr_approx_eq a b eps = true <-> forall w i j, w < mats_of sg -> i < side_of sg -> j < side_of sg ->
     exists u v, a3_get a w i j = Ok u /\ a3_get b w i j = Ok v /\ norm_lt (rsub u v) eps = true).
Proof. exact (fr_approx_thm sg a b eps). Qed.
Print Assumptions C65_approx_eq.

Example C65_cmp_ex : let r := mkA3 2 2 [mkMat 2 2 [cq 1 1 2 1; cq 0 1 0 1; cq 3 1 0 1; cq 1 2 1 1]; mkMat 2 2 [cq 0 1 0 1; cq 5 1 0 1; cq 3 1 1 1; cq 1 1 1 1]] in
  let s := mkA3 2 2 [mkMat 2 2 [cq 1 1 2 1; cq 0 1 0 1; cq 3 1 0 1; cq 1 2 1 1]; mkMat 2 2 [cq 0 1 0 1; cq 5 1 0 1; cq 3 1 1 1; cq 1 1 3 2]] in
  let NL : NormLt (cplx Qc) Qc := {| norm_lt := fun c e => negb (QArith_base.Qle_bool (this e) (this (c_re c * c_re c + c_im c * c_im c)%Qc)) |} in
  repr_shape sg_pga r /\ repr_shape sg_pga s /\ fr_eqb r r = true /\ fr_eqb r s = false /\
  fr_approx_eq r s (qc 1 2) = true /\ fr_approx_eq r s (qc 1 4) = false.
Proof.
  cbv zeta. split; [split; [repeat constructor|reflexivity]|]. split; [split; [repeat constructor|reflexivity]|].
  repeat split; vm_compute; reflexivity.
Qed.

(** C06. [index_iter] goes through all blades in increasing order; [grade_index_iter] through the
    blades of one grade, in decreasing order. *)
Theorem C06_index_iter {m : Mode} sg A : declared sg A ->
  exists l, index_iter A = Ok l /\ StronglySorted N.lt l /\ forall x, In x l <-> (x < 2 ^ N.of_nat (a_dim A))%N.
Proof. exact (index_iter_thm sg A). Qed.
Print Assumptions C06_index_iter.
Theorem C06_grade_index_iter {m : Mode} sg A k : declared sg A ->
  exists l, grade_index_iter A k = Ok l /\ StronglySorted (fun x y => (y < x)%N) l /\
    forall x, In x l <-> (x < 2 ^ N.of_nat (a_dim A))%N /\ length (gens (a_dim A) x) = k.
Proof. exact (grade_index_iter_thm sg A k). Qed.
Print Assumptions C06_grade_index_iter.

Example C06_index_iter_ex : declared sg_e3 (alg sg_e3) /\ index_iter (alg sg_e3) = Ok [0; 1; 2; 3; 4; 5; 6; 7]%N /\
  grade_index_iter (alg sg_e3) 2 = Ok [6; 5; 3]%N.
Proof. split; [exact d_e3|]. split; reflexivity. Qed.
