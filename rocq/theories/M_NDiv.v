(** Division of multivectors that serve as coefficients. *)
From Verif Require Export M_Nested.

(** The call behind [/] when the coefficient type is [Multivector<T, A>] with A a division algebra:
    src/ops.rs:47-68 through src/types.rs:41-43, 179-187 (the blanket [impl DivRing], [impl RefDiv]).
    As in [settle], a call without a value would give zero; [C80_calls] shows there is none. *)
Definition nested_div {T} {RO : RingOps T} {DV : DivOps T} {m : Mode} (A : algebra) : DivOps (nested T A) :=
  {| rdiv := fun x y => settle A (mv_div A (proj1_sig x) (proj1_sig y)) |}.

(** The value of a call that returns a [Quaternion<T>] (src/quaternion.rs:94-95); a call without a value
    would give zero; [C80_quaternion_calls] shows there is none. *)
Definition settle_q {T} {RO : RingOps T} (r : res (qst T)) : qst T :=
  match r with Ok z => z | _ => mkQ r0 r0 r0 r0 end.
(** The calls behind the coefficient operations when the coefficient type is [Quaternion<T>], as in
    the matrices of quaternions of src/fftrepr/matrix.rs:143-170: src/lib.rs:595-618, src/ops.rs:8-45,
    104-112, src/lib.rs:523-532 on the storage of src/quaternion.rs:5-88. *)
Definition quat_ops {T} {RO : RingOps T} {m : Mode} : RingOps (qst T) := {|
  r0 := settle_q (mv_zero QuaternionAlgebra); r1 := settle_q (mv_one QuaternionAlgebra);
  radd := fun x y => settle_q (mv_add x y);
  rsub := fun x y => settle_q (mv_sub x y);
  rmul := fun x y => settle_q (mv_mul QuaternionAlgebra x y);
  rneg := fun x => settle_q (mv_neg QuaternionAlgebra x);
  ris0 := fun x => mv_is_zero x;
  reqb := fun x y => mv_eqb x y
|}.
(** Division of quaternions: src/ops.rs:47-68 on the storage of src/quaternion.rs:5-88. *)
Definition quat_div {T} {RO : RingOps T} {DV : DivOps T} {m : Mode} : DivOps (qst T) :=
  {| rdiv := fun x y => settle_q (mv_div QuaternionAlgebra x y) |}.
