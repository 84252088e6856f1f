(** Vocabulary for comparing exp with the exponential series itself, in exact arithmetic. *)
From Verif Require Export Spec_Exp RingQc.
From Coq Require Import QArith.
From Coq Require Export QArith.Qcabs.
Local Open Scope Qc_scope.

(** A size of coefficients: subadditive, submultiplicative, and the absolute value on the
    numbers that come from f64. *)
Class SizeLaws (T : Type) {RO : RingOps T} {FF : FromF T Qc} := {
  size : T -> Qc;
  size_pos : forall a, 0 <= size a;
  size_0 : size r0 = 0;
  size_add : forall a b, size (radd a b) <= size a + size b;
  size_neg : forall a, size (rneg a) = size a;
  size_mul : forall a b, size (rmul a b) <= size a * size b;
  size_from : forall q, size (from_f q) = Qcabs q }.

(** k! and the K-th partial sum of the exponential series of a number. *)
Fixpoint qfact (k : nat) : Qc := match k with O => 1 | Datatypes.S k => qfact k * (Q2Qc (inject_Z (Z.of_nat (Datatypes.S k)))) end.
Fixpoint exp_num (K : nat) (r : Qc) : Qc := match K with O => 1 | Datatypes.S k => exp_num k r + r ^ K / qfact K end.

Section Series.
Context {T : Type} {RO : RingOps T} {FF : FromF T Qc}.
(** f^n in the algebra with metric q on d generators. *)
Fixpoint spec_pow (q : nat -> Z) (d : nat) (f : N -> T) (n : nat) : N -> T :=
  match n with O => fun i => if (i =? 0)%N then r1 else r0 | Datatypes.S n => spec_mul q d (spec_pow q d f n) f end.
(** 1 + f + f^2/2! + ... + f^K/K!. *)
Fixpoint exp_sum (q : nat -> Z) (d : nat) (f : N -> T) (K : nat) (i : N) : T :=
  match K with
  | O => if (i =? 0)%N then r1 else r0
  | Datatypes.S k => radd (exp_sum q d f k i) (rmul (spec_pow q d f K i) (from_f (1 / qfact K)))
  end.
(** Sum of the sizes of the coefficients. *)
Definition total {SZ : SizeLaws T} (d : nat) (f : N -> T) : Qc := sumI d (fun i => size (f i)).
End Series.
