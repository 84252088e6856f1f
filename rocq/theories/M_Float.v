(** IEEE 754 binary arithmetic, round to nearest even: the [f64] and [f32] the crate is used
    with (they satisfy the bounds of src/types.rs:11-43 [Ring], [DivRing]).
    Built on the executable specification of Coq's standard library ([SpecFloat]).
    Simplifications: the two zeros are identified (the crate's [==], [is_zero], [+], [-], [*]
    cannot tell them apart; only division by zero and printing could), and so are all NaNs. *)
From Verif Require Export RingDef.
From Coq Require Import Floats.SpecFloat.

(** [f64] / [f32] (src/types.rs:11-43). *)
Inductive flt := FZ | FInf (s : bool) | FNaN | FFin (s : bool) (m : positive) (e : Z).

(** To and from the standard library's representation; used by src/types.rs:11-43 models below. *)
Definition to_sf (x : flt) : spec_float :=
  match x with FZ => S754_zero false | FInf s => S754_infinity s | FNaN => S754_nan | FFin s m e => S754_finite s m e end.
(** See [to_sf] (src/types.rs:11-43). *)
Definition of_sf (x : spec_float) : flt :=
  match x with S754_zero _ => FZ | S754_infinity s => FInf s | S754_nan => FNaN | S754_finite s m e => FFin s m e end.

Section Ops.
Variables prec emax : Z.
(** [Ring] for a binary format with the given precision and exponent range (src/types.rs:11-39). *)
Definition flt_ops : RingOps flt := {|
  r0 := FZ;
  r1 := of_sf (binary_round prec emax false 1 0);
  radd x y := of_sf (SFadd prec emax (to_sf x) (to_sf y));
  rsub x y := of_sf (SFsub prec emax (to_sf x) (to_sf y));
  rmul x y := of_sf (SFmul prec emax (to_sf x) (to_sf y));
  rneg x := of_sf (SFopp (to_sf x));
  ris0 x := match x with FZ => true | _ => false end;
  reqb x y := SFeqb (to_sf x) (to_sf y) |}.
(** [DivRing] (src/types.rs:41-43). *)
Definition flt_div : DivOps flt := {| rdiv x y := of_sf (SFdiv prec emax (to_sf x) (to_sf y)) |}.
End Ops.

(** [f64] (src/types.rs:11-39). *)
Definition F64 : RingOps flt := flt_ops 53 1024.
(** [f32] (src/types.rs:11-39). *)
Definition F32 : RingOps flt := flt_ops 24 128.
(** [c > f64::EPSILON] (src/lib.rs:319, src/fftrepr/mod.rs:122), with [EPSILON] = 2^-52. *)
Definition f64_gt_eps (c : flt) : bool := SFltb (S754_finite false 4503599627370496 (-104)) (to_sf c).
