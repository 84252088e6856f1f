(** Arithmetic that does not overflow. *)
From Verif Require Export Spec_RProg.
From Coq Require Import QArith ZArith Floats.SpecFloat.
Local Open Scope Qc_scope.

(** [okay a]: a is a number (not an infinity or a NaN) and one the type can hold.
    [big]: exact results below it do not overflow. *)
Class RangeOps (F : Type) := { okay : F -> Prop; big : Qc }.
(** An operation on numbers whose exact result is smaller than [big] gives a number. *)
Class RangeLaws (F : Type) {RF : RingOps F} {DF : DivOps F} {V : RoundOps F} {G : RangeOps F} : Prop := {
  ra_fin : forall a, okay a -> finite a = true;
  ra_0 : okay r0;
  ra_1 : okay r1;
  ra_neg : forall a, okay a -> okay (rneg a);
  ra_add : forall a b, okay a -> okay b -> Qcabs (val a + val b) < big -> okay (radd a b);
  ra_mul : forall a b, okay a -> okay b -> Qcabs (val a * val b) < big -> okay (rmul a b);
  ra_div : forall a b, okay a -> okay b -> val b <> 0 -> Qcabs (val a / val b) < big -> okay (rdiv a b) }.

(** The numbers of a binary format, as the standard library describes them, and half the
    power of two at which it overflows. *)
Definition flt_range (prec emax : Z) : RangeOps flt :=
  {| okay := fun x => match x with FZ => True | FFin _ m e => bounded prec emax m e = true | _ => False end; big := pow2q (emax - 1) |}.

(** Every coefficient is a number the type can hold. *)
Definition all_okay {F} {RF : RingOps F} {G : RangeOps F} {m : Mode} {H : HashOrder} {k : kind} (A : algebra) (x : store k F) : Prop :=
  forall i, (i < 2 ^ N.of_nat (a_dim A))%N -> okay (rd x i).

Section Small.
Context {F : Type} {RF : RingOps F} {DF : DivOps F} {CF : ConjOps F} {V : RoundOps F} {G : RangeOps F} {m : Mode} {H : HashOrder}.
(** The exact intermediate results of a program, with the error bounds of the rounded ones
    added, stay below [big]; the constants in it are numbers.  Nothing here refers to the
    rounded run of the program. *)
Fixpoint small (k : kind) (A : algebra) (e : expr F) : Prop :=
  let size e j := Qcabs (exact k A e j) + err k A e j in
  let below (f : N -> Qc) := forall i, (i < 2 ^ N.of_nat (a_dim A))%N -> f i < big in
  match e with
  | EScalar t => okay t
  | EVec cs => Forall okay cs
  | EIdx l => Forall (fun ic => okay (snd ic)) l
  | ESet e _ v => okay v /\ small k A e
  | ENeg e | EFlip e | EFlipSub e _ | ERev e | ERevc e | EDual e | EUndual e | EGrade e _ | EGrades _ e | ERetain _ e => small k A e
  | EGradeAs k' e _ | EVia k' e => small k' A e
  | EScale e t => okay t /\ small k A e /\ below (fun i => size e i * Qcabs (val t))
  | EDivs e t => okay t /\ small k A e /\ below (fun i => size e i * Qcabs (/ val t))
  | EAdd e f => small k A e /\ small k A f /\ below (fun i => Qcabs (exact k A e i + exact k A f i) + (err k A e i + err k A f i))
  | ESub e f => small k A e /\ small k A f /\ below (fun i => Qcabs (exact k A e i - exact k A f i) + (err k A e i + err k A f i))
  | EMul e f | EWedge e f => small k A e /\ small k A f /\
      below (fun i => let S := sumI (a_dim A) (fun j => size e j * size f (N.lxor j i)) in S + product_error (2 ^ a_dim A) S)
  | EMeet e f => small k A e /\ small k A f /\
      below (fun i => let S := sumI (a_dim A) (fun j => size e j * size f (2 ^ N.of_nat (a_dim A) - 1 - N.lxor j i)%N) in S + product_error (2 ^ a_dim A) S)
  | _ => True
  end.
End Small.
