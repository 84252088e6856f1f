(** Specification vocabulary for C87: the even and the odd part of the exponential series of a
    square root of s, s^0/0! + s/2! + s^2/4! + ... and s^0/1! + s/3! + s^2/5! + ... *)
From Verif Require Export Spec_ExpLim.
From Coq Require Import QArith Reals Qreals.
Local Open Scope Qc_scope.

Fixpoint even_sum (J : nat) (s : Qc) : Qc := match J with O => 1 | Datatypes.S j => even_sum j s + s ^ J / qfact (2 * J) end.
Fixpoint odd_sum (J : nat) (s : Qc) : Qc := match J with O => 1 | Datatypes.S j => odd_sum j s + s ^ J / qfact (2 * J + 1) end.

(** A rational number as a real number. *)
Definition qr (q : Qc) : R := Q2R (this q).
(** The sum over the coefficients of the absolute values of real numbers. *)
Definition rnorm1 (d : nat) (f : N -> R) : R := fold_right (fun i s => (Rabs (f i) + s)%R) 0%R (idxs d).
