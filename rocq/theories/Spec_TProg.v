(** Programs evaluated in the transform domain. *)
From Verif Require Export Spec_Float Spec_Repr.
Local Open Scope nat_scope.

(** The call returns an array of the shape used for the signature. *)
Definition fits {F} {RF : RingOps F} (sg : list tok) (r : res (fftrepr F)) : Prop := exists z, r = Ok z /\ repr_shape sg z.

Section TProg.
Context {T F : Type} {RT : RingOps T} {DT : DivOps T} {CJ : ConjOps T} {RF : RingOps F} {IC : IntoCplx T F} {m : Mode} {H : HashOrder}.

(** The same program computed on [FFTRepr] values: literals and operations that [FFTRepr] does
    not offer are computed as multivectors and then transformed, everything else is done on
    the representations. *)
Fixpoint feval (A : algebra) (e : expr T) : res (fftrepr F) :=
  match e with
  | EZero => fr_zero A
  | EOne => fr_one A
  | EBasis n => l <- fr_basis A ;; nthr l n
  | EAdd e f => x <- feval A e ;; y <- feval A f ;; fr_add x y
  | ESub e f => x <- feval A e ;; y <- feval A f ;; fr_sub x y
  | ENeg e => x <- feval A e ;; Ok (fr_neg x)
  | EMul e f => x <- feval A e ;; y <- feval A f ;; fr_mul x y
  | EScale e t => x <- feval A e ;; Ok (fr_scale x (into_complex t))
  | EFlip e => x <- feval A e ;; Ok (fr_flip x)
  | ERev e => x <- feval A e ;; fr_rev A x
  | EPow e n => x <- feval A e ;; fr_pow A x n
  | _ => z <- eval KDense A e ;; mv_fft A (z : arr T)
  end.
End TProg.
