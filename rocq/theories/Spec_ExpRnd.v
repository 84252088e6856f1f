(** exp with rounded coefficients: the same procedure on numbers, every step made as large as
    rounding can make it. *)
From Verif Require Export Spec_Range Spec_ExpLim.
From Coq Require Import QArith.
Local Open Scope Qc_scope.

(** Rational numbers as coefficients of the exponential series. *)
Definition id_from : FromF Qc Qc := {| from_f := fun q => q |}.

(** Sum of the absolute values of the 2^d coefficients. *)
Definition norm1 (d : nat) (f : N -> Qc) : Qc := sumI d (fun i => Qcabs (f i)).

Section Top.
Context {F : Type} {V : RoundOps F} {G : RangeOps F}.
(** [rnd] may enlarge intermediate numbers (to keep them short); the identity is allowed. *)
Variable rnd : Qc -> Qc.
Variable d : nat.
(** 2^d *)
Definition two_d : Qc := Q2Qc (inject_Z (2 ^ Z.of_nat d)).
(** A number above the limit is not accepted. *)
Definition cap (a : Qc) : option Qc := let a := rnd a in match Qccompare a big with Lt => Some a | _ => None end.
(** (1 + ulp)^n, and the underflow error. *)
Fixpoint grow (n : nat) : Qc := match n with O => 1 | S n => rnd ((1 + ulp) * grow n) end.
Definition low : Qc := rnd eta.
(** Bounds for the norms of x + y, x t and x y, if those of x and y are at most a and b. *)
Definition top_add (a b : Qc) : option Qc := cap ((1 + ulp) * (a + b) + two_d * low).
Definition top_scale (a t : Qc) : option Qc := cap ((1 + ulp) * (a * t) + two_d * low).
Definition top_mul (a b : Qc) : option Qc :=
  let g := grow (2 ^ d) in
  cap (rnd ((1 + ulp) * g) * (a * b) + two_d * (Q2Qc (inject_Z (2 * Z.of_nat (2 ^ d))) * g * low)).
(** x^n by repeated squaring (n > 0). *)
Fixpoint top_pow (fuel : nat) (a : Qc) (n : nat) : option Qc :=
  match fuel, n with
  | O, _ | _, 0%nat | _, 1%nat => Some a
  | S fuel, _ =>
    match top_pow fuel a (Nat.div2 n) with
    | Some h => match top_mul h h with Some hh => if Nat.even n then Some hh else top_mul hh a | None => None end
    | None => None
    end
  end.
(** s + c1 p + c2 p y + c3 p y^2 + ... *)
Fixpoint top_sum (y : Qc) (cs : list Qc) (s p : Qc) : option Qc :=
  match cs with
  | nil => Some s
  | c :: cs =>
    match top_scale p c with
    | Some q => match top_add s q, top_mul p y with Some s, Some p => top_sum y cs s p | _, _ => None end
    | None => None
    end
  end.
(** (1 + c1 (r v) + c2 (r v)^2 + ...)^s *)
Definition top_exp (r v : Qc) (cs : list Qc) (s : nat) : option Qc :=
  match top_scale r v with
  | Some y => match top_sum y cs 1 y with Some t => top_pow (S s) t s | None => None end
  | None => None
  end.
End Top.
