(** Rounding errors of whole programs. *)
From Verif Require Export Spec_Round Spec_Float.
Local Open Scope nat_scope.

(** Conjugation of a rational number. *)
#[global] Instance QcConj : ConjOps Qc := {| rconj := fun c => c |}.

Section RProg.
Context {F : Type} {RF : RingOps F} {DF : DivOps F} {CF : ConjOps F} {V : RoundOps F} {m : Mode} {H : HashOrder}.
(** The programs covered: everything but powers, multivector inverses and division and
    filtering by value; scalar factors and divisors are finite, divisors not zero; conjugation
    only of real coefficients. *)
Fixpoint arith (e : expr F) : Prop :=
  match e with
  | EZero | EOne | EScalar _ | EVec _ | EIdx _ | EBasis _ => True
  | ESet e _ _ | ENeg e | EFlip e | EFlipSub e _ | ERev e
  | EDual e | EUndual e | EGrade e _ | EGradeAs _ e _ | EVia _ e | EGrades _ e | ERetain _ e => arith e
  | EScale e t => finite t = true /\ arith e
  | EDivs e t => finite t = true /\ val t <> 0%Qc /\ rdiv r0 t = r0 /\ arith e
  | EAdd e f | ESub e f | EMul e f | EWedge e f | EMeet e f => arith e /\ arith f
  | ERevc e => (forall c, rconj c = c) /\ arith e
  | EPow _ _ | EFilter _ _ | ERevm _ | ERevcm _ | EDiv _ _ => False
  end.

(** The same program on rational numbers, which are not rounded. *)
Fixpoint ex (e : expr F) : expr Qc :=
  match e with
  | EZero => EZero | EOne => EOne | EScalar t => EScalar (val t) | EVec cs => EVec (map val cs)
  | EIdx l => EIdx (map (fun ic => (fst ic, val (snd ic))) l) | EBasis n => EBasis n
  | ESet e i v => ESet (ex e) i (val v)
  | EAdd e f => EAdd (ex e) (ex f) | ESub e f => ESub (ex e) (ex f) | ENeg e => ENeg (ex e)
  | EMul e f => EMul (ex e) (ex f) | EWedge e f => EWedge (ex e) (ex f) | EMeet e f => EMeet (ex e) (ex f)
  | EScale e t => EScale (ex e) (val t) | EDivs e t => EDivs (ex e) (val t)
  | EFlip e => EFlip (ex e) | EFlipSub e mask => EFlipSub (ex e) mask | ERev e => ERev (ex e) | ERevc e => ERevc (ex e)
  | EDual e => EDual (ex e) | EUndual e => EUndual (ex e) | EPow e n => EPow (ex e) n
  | EGrade e g => EGrade (ex e) g | EGradeAs k e g => EGradeAs k (ex e) g | EVia k e => EVia k (ex e)
  | EGrades gs e => EGrades gs (ex e) | ERetain gs e => ERetain gs (ex e)
  | ERevm e => ERevm (ex e) | ERevcm e => ERevcm (ex e) | EDiv e f => EDiv (ex e) (ex f)
  | EFilter _ _ => EZero (* not covered by [arith]: the predicate reads rounded coefficients *)
  end.

(** Coefficient i of the exact result. *)
Definition exact (k : kind) (A : algebra) (e : expr F) (i : N) : Qc :=
  match eval k A (ex e) with Ok z => rd z i | _ => 0%Qc end.

(** No program step produces an infinity or a NaN. *)
Definition all_finite (k : kind) (A : algebra) (r : res (store k F)) : Prop :=
  match r with Ok z => forall i, (i < 2 ^ N.of_nat (a_dim A))%N -> finite (rd z i) = true | _ => True end.
Fixpoint fine (k : kind) (A : algebra) (e : expr F) : Prop :=
  all_finite k A (eval k A e) /\
  match e with
  | EZero | EOne | EScalar _ | EVec _ | EIdx _ | EBasis _ => True
  | ESet e _ _ | ENeg e | EScale e _ | EDivs e _ | EFlip e | EFlipSub e _ | ERev e | ERevc e
  | EDual e | EUndual e | EPow e _ | EGrade e _ | ERevm e | ERevcm e
  | EFilter _ e | EGrades _ e | ERetain _ e => fine k A e
  | EAdd e f | ESub e f | EMul e f | EWedge e f | EMeet e f | EDiv e f => fine k A e /\ fine k A f
  | EGradeAs k' e _ | EVia k' e => fine k' A e
  end.

Local Open Scope Qc_scope.
(** The error bound, from the exact sizes of the intermediate results. *)
Fixpoint err (k : kind) (A : algebra) (e : expr F) (i : N) : Qc :=
  let size e j := Qcabs (exact k A e j) in
  match e with
  | ENeg e | EFlip e | EFlipSub e _ | ERev e | ERevc e | EGrade e _ | EGrades _ e | ERetain _ e => err k A e i
  | EGradeAs k' e _ | EVia k' e => err k' A e i
  | ESet e j _ => if (i =? j)%N then 0 else err k A e i
  | EDual e | EUndual e => err k A e (2 ^ N.of_nat (a_dim A) - 1 - i)%N
  | EAdd e f => (1 + ulp) * (err k A e i + err k A f i) + ulp * Qcabs (exact k A e i + exact k A f i) + eta
  | ESub e f => (1 + ulp) * (err k A e i + err k A f i) + ulp * Qcabs (exact k A e i - exact k A f i) + eta
  | EScale e t => (1 + ulp) * err k A e i * Qcabs (val t) + ulp * Qcabs (exact k A e i * val t) + eta
  | EDivs e t => (1 + ulp) * err k A e i * Qcabs (/ val t) + ulp * Qcabs (exact k A e i / val t) + eta
  | EMul e f | EWedge e f =>
      sumI (a_dim A) (fun j => size e j * err k A f (N.lxor j i) + err k A e j * size f (N.lxor j i) + err k A e j * err k A f (N.lxor j i))
      + product_error (2 ^ a_dim A) (sumI (a_dim A) (fun j => (size e j + err k A e j) * (size f (N.lxor j i) + err k A f (N.lxor j i))))
  | EMeet e f =>
      let p j := (2 ^ N.of_nat (a_dim A) - 1 - N.lxor j i)%N in
      sumI (a_dim A) (fun j => size e j * err k A f (p j) + err k A e j * size f (p j) + err k A e j * err k A f (p j))
      + product_error (2 ^ a_dim A) (sumI (a_dim A) (fun j => (size e j + err k A e j) * (size f (p j) + err k A f (p j))))
  | _ => 0
  end.

(** x^n (n > 0) with the products written out, as repeated squaring. *)
Fixpoint unroll (fuel : nat) (e : expr F) (n : nat) : expr F :=
  match fuel, n with
  | O, _ | _, 0%nat | _, 1%nat => e
  | S fuel, _ => let h := unroll fuel e (Nat.div2 n) in if Nat.even n then EMul h h else EMul (EMul h h) e
  end.
End RProg.
