(** Single precision coefficients in the transforms: the conversions of src/types.rs. *)
From Verif Require Export M_Float M_CliFFT.
From Coq Require Import Floats.SpecFloat.

(** [f32], as a type of its own: coefficients are of any type with the operations of
    src/types.rs:11-39.  The type has room for floats of any precision; [is_f32] of
    Spec_Conv32.v singles out those of [f32]. *)
Record f32 := mk32 { as_flt : flt }.
(** The operations of [F32] (M_Float.v), required by src/types.rs:11-39. *)
#[global] Instance F32R : RingOps f32 := {|
  r0 := mk32 (r0 (RingOps := F32));
  r1 := mk32 (r1 (RingOps := F32));
  radd x y := mk32 (radd (RingOps := F32) (as_flt x) (as_flt y));
  rsub x y := mk32 (rsub (RingOps := F32) (as_flt x) (as_flt y));
  rmul x y := mk32 (rmul (RingOps := F32) (as_flt x) (as_flt y));
  rneg x := mk32 (rneg (RingOps := F32) (as_flt x));
  ris0 x := ris0 (RingOps := F32) (as_flt x);
  reqb x y := reqb (RingOps := F32) (as_flt x) (as_flt y) |}.

(** A float of another format, rounded to nearest even: Rust's [as f64] and [as f32]
    (src/types.rs:77-78, 91, 113, 119). *)
Definition flt_cast (prec emax : Z) (x : flt) : flt :=
  match x with FFin s m e => of_sf (binary_round prec emax s m e) | _ => x end.
(** [as f64] (src/types.rs:113, 119). *)
Definition f64_of_f32 (x : f32) : flt := flt_cast 53 1024 (as_flt x).
(** [as f32] (src/types.rs:77-78, 91). *)
Definition f32_of_f64 (x : flt) : f32 := mk32 (flt_cast 24 128 x).

(** src/types.rs:111-115 [IntoComplex64 for f32]. *)
#[global] Instance F32Into : IntoCplx f32 flt := {| into_complex c := mkC (f64_of_f32 c) FZ |}.
(** src/types.rs:117-121 [IntoComplex64 for Complex32]. *)
#[global] Instance C32Into : IntoCplx (cplx f32) flt := {| into_complex c := mkC (f64_of_f32 (c_re c)) (f64_of_f32 (c_im c)) |}.
(** src/types.rs:89-93 [FromComplex for f32]. *)
#[global] Instance F32From : FromCplx f32 flt := {| from_complex c := f32_of_f64 (c_re c) |}.
(** src/types.rs:74-81 [FromComplex for Complex32]. *)
#[global] Instance C32From : FromCplx (cplx f32) flt := {| from_complex c := mkC (f32_of_f64 (c_re c)) (f32_of_f64 (c_im c)) |}.
