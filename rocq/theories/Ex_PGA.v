(** Concrete instances for the examples about projective geometric algebra: rationals for f64
    (with the identity for the square root, whose value cancels), and rationals extended with
    the infinities and the not-a-number of IEEE 754. *)
From Coq Require Import QArith.
From Coq Require Import Qcanon.
From Verif Require Export Ex_Exp Spec_PGA.
Local Open Scope nat_scope.
#[global] Instance QcSqrt : SqrtOps Qc := {| rsqrt := fun a => a |}.
#[global] Instance QcSqrtLaws : SqrtLaws Qc. Proof. constructor. auto. Qed.

Definition leq (a : res (list Qc)) (b : list Qc) : bool :=
  match a with Ok u => (Nat.eqb (length u) (length b) && forallb (fun p => Qc_eq_bool (fst p) (snd p)) (combine u b))%bool | _ => false end.

Inductive ieee := Fin (q : Q) | Inf (neg : bool) | NaN.
Definition qneg (q : Q) : bool := (Qnum q <? 0)%Z.
Definition q0b (q : Q) : bool := (Qnum q =? 0)%Z.
Definition i_neg (a : ieee) : ieee := match a with Fin q => Fin (Qred (- q)) | Inf s => Inf (negb s) | NaN => NaN end.
Definition i_add (a b : ieee) : ieee :=
  match a, b with
  | Fin p, Fin q => Fin (Qred (p + q))
  | Inf s, Inf t => if Bool.eqb s t then Inf s else NaN
  | Inf s, Fin _ | Fin _, Inf s => Inf s
  | _, _ => NaN
  end.
Definition i_mul (a b : ieee) : ieee :=
  match a, b with
  | Fin p, Fin q => Fin (Qred (p * q))
  | Inf s, Inf t => Inf (xorb s t)
  | Inf s, Fin q | Fin q, Inf s => if q0b q then NaN else Inf (xorb s (qneg q))
  | _, _ => NaN
  end.
Definition i_div (a b : ieee) : ieee :=
  match a, b with
  | Fin p, Fin q => if q0b q then if q0b p then NaN else Inf (qneg p) else Fin (Qred (p / q))
  | Inf s, Fin q => Inf (xorb s (qneg q))
  | Fin _, Inf _ => Fin 0
  | _, _ => NaN
  end.
#[global] Instance IeeeOps : RingOps ieee := {|
  r0 := Fin 0; r1 := Fin 1; radd := i_add; rsub := fun a b => i_add a (i_neg b); rmul := i_mul; rneg := i_neg;
  ris0 := fun a => match a with Fin q => q0b q | _ => false end;
  reqb := fun a b => match a, b with Fin p, Fin q => Qeq_bool p q | Inf s, Inf t => Bool.eqb s t | _, _ => false end |}.
#[global] Instance IeeeDiv : DivOps ieee := {| rdiv := i_div |}.
#[global] Instance IeeeSqrt : SqrtOps ieee := {| rsqrt := fun a => a |}.
