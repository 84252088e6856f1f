(** Rounding errors of the transforms: vocabulary. *)
From Verif Require Export Spec_Round Spec_FFT.
From Coq Require Import QArith ZArith.
Local Open Scope Qc_scope.

Section FRound.
Context {F : Type} {V : RoundOps F}.

(** The complex number a pair of floats stands for. *)
Definition cval (z : cplx F) : cplx Qc := mkC (val (c_re z)) (val (c_im z)).
Definition cfinite (z : cplx F) : bool := (finite (c_re z) && finite (c_im z))%bool.
(** Both parts are at most e away from the exact ones. *)
Definition cwithin (e : Qc) (z : cplx F) (w : cplx Qc) : Prop :=
  Qcabs (val (c_re z) - c_re w) <= e /\ Qcabs (val (c_im z) - c_im w) <= e.
(** |re| + |im| *)
Definition cabs1 (w : cplx Qc) : Qc := Qcabs (c_re w) + Qcabs (c_im w).

(** Error of the transform to matrices of side 2^m of coefficients whose sizes add up to P:
    ((1+u)^(m+2) - 1) P, plus underflows. *)
Definition fft_error (m : nat) (P : Qc) : Qc :=
  ((1 + ulp) ^ (m + 2) - 1) * P + Q2Qc (inject_Z 3) * (1 + 1) ^ m * (1 + ulp) ^ (m + 2) * eta.
(** Error of the transform back from a matrix of side 2^m whose entries have parts of size at most B. *)
Definition ifft_error (m : nat) (B : Qc) : Qc :=
  ((1 + ulp) ^ (3 * m + 2) - 1) * B + Q2Qc (inject_Z (3 * Z.of_nat m + 2)) * (1 + ulp) ^ (3 * m + 2) * eta.
(** Error of the transform of a multivector followed by the transform back. *)
Definition round_trip_error (m : nat) (P : Qc) : Qc :=
  ((1 + ulp) ^ (4 * m + 8) - 1) * P + (Q2Qc (inject_Z 5) * (1 + 1) ^ m + Q2Qc (inject_Z (3 * Z.of_nat m + 4))) * (1 + ulp) ^ (4 * m + 8) * eta.
End FRound.
