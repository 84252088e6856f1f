(** Integers going through the transforms: the two formats. *)
From Verif Require Export Spec_IntProg Spec_FFT.
Local Open Scope Z_scope.

(** Mantissa bits and exponent limit of f64 and of f32. *)
Definition ieee (prec emax : Z) : Prop := (prec = 53 /\ emax = 1024) \/ (prec = 24 /\ emax = 128).

(** Sum of the absolute values of the coefficients; for Gaussian integers, of both parts. *)
Definition weight (d : nat) (f : N -> Z) : Z := sumI d (fun i => Z.abs (f i)).
Definition gweight (d : nat) (f : N -> cplx Z) : Z := sumI d (fun i => Z.abs (c_re (f i)) + Z.abs (c_im (f i))).
