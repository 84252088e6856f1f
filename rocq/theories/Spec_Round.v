(** Rounded arithmetic compared with exact arithmetic. *)
From Verif Require Export M_Float RingQc.
From Coq Require Export Qcabs.
From Coq Require Import QArith ZArith.
Local Open Scope Qc_scope.

(** What a coefficient stands for: a rational number, if it is finite.  (Infinities and NaN
    are given the number 0, but no theorem says anything about it.) *)
Class RoundOps (F : Type) := { val : F -> Qc; finite : F -> bool; ulp : Qc; eta : Qc }.

(** |a - b| <= u |b| + eta: a is b up to one rounding. *)
Definition rounds {F} {V : RoundOps F} (a b : Qc) : Prop := Qcabs (a - b) <= ulp * Qcabs b + eta.

(** The standard model of floating-point arithmetic: if the result of an operation is finite
    then so are its arguments, and the result is the exact one up to a relative error [ulp]
    and an absolute error [eta] (underflow). *)
Class RoundLaws (F : Type) {RF : RingOps F} {DF : DivOps F} {V : RoundOps F} : Prop := {
  ro_u : 0 <= ulp;
  ro_eta : 0 <= eta;
  ro_0 : val r0 = 0 /\ finite r0 = true;
  ro_1 : val r1 = 1 /\ val (radd r1 r1) = 1 + 1 /\ val (rmul (radd r1 r1) (radd r1 r1)) = (1 + 1) * (1 + 1);
  ro_4 : finite (rmul (radd r1 r1) (radd r1 r1)) = true;
  ro_neg : forall a, val (rneg a) = - val a /\ finite (rneg a) = finite a;
  ro_add : forall a b, finite (radd a b) = true -> finite a = true /\ finite b = true /\ rounds (val (radd a b)) (val a + val b);
  ro_mul : forall a b, finite (rmul a b) = true -> finite a = true /\ finite b = true /\ rounds (val (rmul a b)) (val a * val b);
  ro_mul_0 : forall a, finite a = true -> rmul a r0 = r0 /\ rmul r0 a = r0;
  ro_div : forall a b, finite b = true -> val b <> 0 -> finite (rdiv a b) = true -> finite a = true /\ rounds (val (rdiv a b)) (val a / val b) }.

(** 2^e *)
Definition pow2q (e : Z) : Qc := Q2Qc (2 ^ e).
(** The number a float stands for. *)
Definition flt_val (x : flt) : Qc :=
  match x with FFin s m e => Q2Qc (inject_Z (if s then Zneg m else Zpos m)) * pow2q e | _ => 0 end.
Definition flt_finite (x : flt) : bool := match x with FInf _ | FNaN => false | _ => true end.
(** Precision [prec] and largest exponent [emax]: half an ulp of 1 and half the least positive number. *)
Definition flt_round (prec emax : Z) : RoundOps flt :=
  {| val := flt_val; finite := flt_finite; ulp := pow2q (- prec); eta := pow2q (3 - emax - prec - 1) |}.

(** Bound on the error of a sum of t products whose absolute values add up to P:
    ((1+u)^(t+1) - 1) P, plus at most two underflows per term, carried along. *)
Definition product_error {F} {V : RoundOps F} (t : nat) (P : Qc) : Qc :=
  ((1 + ulp) ^ (S t) - 1) * P + Q2Qc (inject_Z (2 * Z.of_nat t)) * (1 + ulp) ^ t * eta.

(** The same for sums formed pairwise along a binary tree of depth n: the relative part grows
    with the depth, not with the number 2^n of terms; one underflow per node. *)
Definition tree_error {F} {V : RoundOps F} (n : nat) (P : Qc) : Qc :=
  ((1 + ulp) ^ (S n) - 1) * P + (Q2Qc (inject_Z (2 ^ Z.of_nat (S n))) - 1) * (1 + ulp) ^ n * eta.
