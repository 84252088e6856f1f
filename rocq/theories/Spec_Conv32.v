(** Single precision multivectors through the double precision transforms: vocabulary. *)
From Verif Require Export Spec_FastProd M_Conv32.
From Coq Require Import QArith ZArith Floats.SpecFloat.
Local Open Scope Qc_scope.

(** A number of the single (double) precision format: the types of the model have room for more. *)
Definition is_f32 (x : f32) : Prop := valid_binary 24 128 (to_sf (as_flt x)) = true.
Definition is_f64 (x : flt) : Prop := valid_binary 53 1024 (to_sf x) = true.
Definition is_c32 (x : cplx f32) : Prop := is_f32 (c_re x) /\ is_f32 (c_im x).
(** Single precision as rounded arithmetic. *)
#[global] Instance V32 : RoundOps f32 :=
  {| val c := flt_val (as_flt c); finite c := flt_finite (as_flt c); ulp := pow2q (-24); eta := pow2q (-150) |}.
(** Double precision. *)
Definition V64 : RoundOps flt := flt_round 53 1024.
(** Error of a result computed in double precision within e of v and then rounded to single precision. *)
Definition narrowed (e v : Qc) : Qc := e + (@ulp f32 V32 * (Qcabs v + e) + @eta f32 V32).
