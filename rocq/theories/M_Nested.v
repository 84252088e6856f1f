(** Model of multivectors used as coefficients (src/types.rs:11-39, the blanket
    [impl Ring], and src/lib.rs:595-618, src/ops.rs): the dense multivectors of one
    algebra as a coefficient type of their own. *)
From Verif Require Export M_Multivector.
Local Open Scope nat_scope.

Section Nested.
Context {T : Type} {RO : RingOps T} {m : Mode}.
Variable A : algebra.

(** The values a [Multivector<T, A>] can take: an array of 2^dim coefficients
    (src/mv_dense.rs:20-22, src/coeff_storage.rs:25-40). *)
Definition fits (x : arr T) : bool :=
  (Nat.eqb (arr_dim x) (a_dim A) && Nat.eqb (length (arr_data x)) (2 ^ a_dim A))%bool.
(** src/mv_dense.rs:20-22 [type Multivector<T, A>]. *)
Definition nested : Type := { x : arr T | fits x = true }.

Lemma fits_zero : fits (mkArr (a_dim A) (repeat r0 (2 ^ a_dim A))) = true.
Proof. unfold fits. cbn. rewrite repeat_length, !Nat.eqb_refl. reflexivity. Qed.

(** The value of a call.  A call that panics (or returns a value that does not fit) has
    no value in Rust; here it is replaced by zero.  The theorems show it never happens. *)
Definition settle (r : res (arr T)) : nested :=
  match r with
  | Ok z => match Bool.bool_dec (fits z) true with
            | left e => exist _ z e
            | right _ => exist _ _ fits_zero
            end
  | _ => exist _ _ fits_zero
  end.

(** The calls behind [T::zero()], [T::one()], [+], [-], [*], unary [-], [is_zero],
    [==] when the coefficient type is itself [Multivector<T, A>]:
    src/lib.rs:595-618, src/ops.rs:8-45, 104-112, src/lib.rs:523-532. *)
Definition nested_ops : RingOps nested := {|
  r0 := settle (mv_zero A); r1 := settle (mv_one A);
  radd := fun x y => settle (mv_add (proj1_sig x) (proj1_sig y));
  rsub := fun x y => settle (mv_sub (proj1_sig x) (proj1_sig y));
  rmul := fun x y => settle (mv_mul A (proj1_sig x) (proj1_sig y));
  rneg := fun x => settle (mv_neg A (proj1_sig x));
  ris0 := fun x => mv_is_zero (proj1_sig x);
  reqb := fun x y => mv_eqb (proj1_sig x) (proj1_sig y)
|}.
End Nested.
Arguments nested T A : clear implicits.

(** Multivectors over multivectors over ... over T
    (src/types.rs:11-39 applied to src/mv_dense.rs:20-22 repeatedly); the list gives the
    algebras from the outside in. *)
Fixpoint tower {m : Mode} (T : Type) (RO : RingOps T) (l : list algebra) : {U : Type & RingOps U} :=
  match l with
  | [] => existT _ T RO
  | A :: r => let t := tower T RO r in existT RingOps (nested (projT1 t) A) (nested_ops (RO := projT2 t) A)
  end.
