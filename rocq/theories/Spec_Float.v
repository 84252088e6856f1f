(** Vocabulary for coefficient types with rounded arithmetic (floating point). *)
From Verif Require Export Spec_Prog.
Local Open Scope nat_scope.

Section Float.
Context {T : Type} {RO : RingOps T}.

(** The storage offers every operation of the program, and basis vectors that are asked for
    exist.  Nothing is assumed of the coefficients or the divisors. *)
Fixpoint offers (k : kind) (A : algebra) (e : expr T) : Prop :=
  match e with
  | EZero | EOne | EScalar _ | EVec _ | EIdx _ => True
  | EBasis n => n < a_dim A
  | ESet e _ _ | ENeg e | EScale e _ | EDivs e _ | EFlip e | EFlipSub e _ | ERev e | ERevc e
  | EDual e | EUndual e | EPow e _ | EGrade e _ | ERevm e | ERevcm e => offers k A e
  | EAdd e f | ESub e f | EMul e f | EDiv e f => offers k A e /\ offers k A f
  | EWedge e f | EMeet e f => k <> KQuat /\ offers k A e /\ offers k A f
  | EGradeAs k' e _ | EVia k' e => supports k' A /\ offers k' A e
  | EFilter _ e => k <> KQuat /\ offers k A e
  | EGrades _ e | ERetain _ e => k = KSparse /\ offers k A e
  end.

(** Every list handed to [from_vector] has one entry per generator and every index handed to
    [from_indexed_iter] is below 2^dim. *)
Fixpoint args_ok (A : algebra) (e : expr T) : Prop :=
  match e with
  | EZero | EOne | EScalar _ | EBasis _ => True
  | EVec cs => length cs = a_dim A
  | EIdx l => forall i c, In (i, c) l -> (i < 2 ^ N.of_nat (a_dim A))%N
  | ESet e _ _ | ENeg e | EScale e _ | EDivs e _ | EFlip e | EFlipSub e _ | ERev e | ERevc e
  | EDual e | EUndual e | EPow e _ | EGrade e _ | ERevm e | ERevcm e
  | EGradeAs _ e _ | EVia _ e | EFilter _ e | EGrades _ e | ERetain _ e => args_ok A e
  | EAdd e f | ESub e f | EMul e f | EDiv e f | EWedge e f | EMeet e f => args_ok A e /\ args_ok A f
  end.

(** Programs that only move, negate, add and subtract coefficients, or apply a function of
    one coefficient that fixes zero. *)
Fixpoint linear {DV : DivOps T} (e : expr T) : Prop :=
  match e with
  | EZero | EOne | EScalar _ | EVec _ | EIdx _ | EBasis _ => True
  | ESet e _ _ | ENeg e | EFlip e | EFlipSub e _ | ERev e | ERevc e
  | EDual e | EUndual e | EGrade e _ | EGradeAs _ e _ | EVia _ e
  | EFilter _ e | EGrades _ e | ERetain _ e => linear e
  | EScale e t => rmul r0 t = r0 /\ linear e
  | EDivs e t => rdiv r0 t = r0 /\ linear e
  | EAdd e f | ESub e f => linear e /\ linear f
  | EMul _ _ | EWedge _ _ | EMeet _ _ | EPow _ _ | ERevm _ | ERevcm _ | EDiv _ _ => False
  end.

(** One step of an accumulation: add, subtract or skip the term p according to the sign. *)
Definition add_term (s : Z) (c p : T) : T :=
  if (s =? 1)%Z then radd c p else if (s =? -1)%Z then rsub c p else c.

(** Coefficient k of a product: the terms x_i y_j with i xor j = k, taken in the order ord of
    the left index i, restricted to right indices j in use. *)
Definition ordered_product (q : nat -> Z) (n : nat) (ord : list N) (used : N -> bool)
  (x y : N -> T) (k : N) : T :=
  fold_left (fun c i => let j := N.lxor i k in
    if used j then add_term (csign q n i j) c (rmul (x i) (y j)) else c) ord r0.
End Float.

(** The call returns a valid multivector. *)
Definition succeeds {T} {RO : RingOps T} {S} {St : Storage T S} {SL : StorageLaws T S}
  (A : algebra) (r : res S) : Prop := exists z, r = Ok z /\ valid A z.
