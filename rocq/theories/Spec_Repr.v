(** Vocabulary of the properties about [FFTRepr]. *)
From Verif Require Export M_FFTRepr Spec_FFT.
Local Open Scope nat_scope.

(** Both computations succeed, with the same value. *)
Definition both_ok {X} (a b : res X) : Prop := exists v, a = Ok v /\ b = Ok v.

(** Side of the matrices, and number of matrices. *)
Definition side_of (sg : list tok) : nat := 2 ^ ((nonnull sg + 1) / 2).
Definition mats_of (sg : list tok) : nat := 2 ^ (length sg - nonnull sg).
(** An array of the shape used for the signature. *)
Definition repr_shape {F} {RF : RingOps F} (sg : list tok) (r : fftrepr F) : Prop :=
  a3_ok r /\ fr_shape r = (mats_of sg, side_of sg, side_of sg).

(** What [matrix_inv] needs of the norm: it vanishes at zero; and, for completeness, its zero
    test and comparison single out zero. *)
Class NormZero (T R : Type) {RO : RingOps T} {NC : NormCmp T R} : Prop := {
  nrm_0 : n_is0 (nrm r0) = true }.
Class NormLaws (T R : Type) {RO : RingOps T} {NC : NormCmp T R} : Prop := {
  nrm_least : forall y, n_gt (nrm r0) (nrm y) = false;
  nrm_is0 : forall x, n_is0 (nrm x) = true -> x = r0;
  nrm_gt0 : forall x y, n_is0 (nrm x) = true -> n_gt (nrm y) (nrm x) = false -> y = r0 }.

(** Only blades with an even number of generators. *)
Definition even_mv {T} {RO : RingOps T} {S} {St : Storage T S} {SL : StorageLaws T S} (sg : list tok) (x : S) : Prop :=
  forall k, (k < 2 ^ N.of_nat (length sg))%N -> Nat.odd (length (gens (length sg) k)) = true -> rd x k = r0.
(** The same coefficients at the blades with an even number of generators. *)
Definition same_even {T} {RO : RingOps T} {S} {St : Storage T S} {SL : StorageLaws T S} (sg : list tok) (x y : S) : Prop :=
  forall k, (k < 2 ^ N.of_nat (length sg))%N -> Nat.odd (length (gens (length sg) k)) = false -> rd x k = rd y k.

(** The signature +, -, +, -, ... with h pairs. *)
Fixpoint split_sig (h : nat) : list tok := match h with O => [] | Datatypes.S h => Tplus :: Tminus :: split_sig h end.
