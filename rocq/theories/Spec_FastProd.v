(** Rounding errors of products computed through the transforms: vocabulary. *)
From Verif Require Export Spec_FRound.
From Coq Require Import QArith ZArith.
Local Open Scope Qc_scope.

(** Error of the product of two representations of 2^s matrices of side 2^m, transformed from and to multivectors
    whose coefficients have sizes adding up to P and Q: ((1+u)^(2^m+5m+s+14) - 1) P Q, plus underflows. *)
Definition fast_product_error {F} {V : RoundOps F} (m s : nat) (P Q : Qc) : Qc :=
  ((1 + ulp) ^ (2 ^ m + 5 * m + s + 14) - 1) * (P * Q) +
  ((1 + 1) ^ (m + s) * (Q2Qc (inject_Z 10) * (1 + 1) ^ m * (P + Q + Q2Qc (inject_Z 5) * (1 + 1) ^ m * eta) + Q2Qc (inject_Z 5))
   + Q2Qc (inject_Z (3 * Z.of_nat m + 4))) * (1 + ulp) ^ (2 ^ m + 5 * m + s + 14) * eta.
