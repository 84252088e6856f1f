(** Specification vocabulary for C84. *)
From Verif Require Export Spec_Motion.
Local Open Scope nat_scope.

(** The coefficients of e1, ..., en and of the null vector: the equation a vector stands for. *)
Definition coeffs {T} {RO : RingOps T} {S} {St : Storage T S} {SL : StorageLaws T S} (n : nat) (h : S) : list T :=
  map (fun i => rd h (2 ^ N.of_nat i)%N) (seq 0 (n + 1)).
