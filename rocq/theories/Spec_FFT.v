(** Vocabulary of the properties about the transform. *)
From Verif Require Export M_CliFFT Spec_Prod.
Local Open Scope nat_scope.

(** Coefficient of blade i in an array. *)
Definition coefs {T} {RO : RingOps T} (l : list T) (i : N) : T := nth (N.to_nat i) l r0.

(** The metric of Cl(n): all generators square to 1. *)
Definition q1 : nat -> Z := fun _ => 1%Z.

(** Number of odd-numbered generators (numbering from 0) of blade k among the first n. *)
Definition odd_gens (n : nat) (k : N) : nat :=
  length (filter (fun i => (Nat.odd i && N.testbit k (N.of_nat i))%bool) (seq 0 n)).

(** A square matrix of side s. *)
Definition square_mat {T} {RO : RingOps T} (s : nat) (M : mat T) : Prop := m_nr M = s /\ m_nc M = s /\ m_ok M.

(** [Z] is the entrywise combination of [X] and [Y]. *)
Definition entrywise2 {T} {RO : RingOps T} (f : T -> T -> T) (X Y Z : mat T) : Prop :=
  m_nr X = m_nr Y /\ m_nc X = m_nc Y /\ m_nr X = m_nr Z /\ m_nc X = m_nc Z /\
  forall i j, i < m_nr X -> j < m_nc X -> m_get Z i j = Ok (f (m_at X i j) (m_at Y i j)).
Definition entrywise1 {T} {RO : RingOps T} (f : T -> T) (X Z : mat T) : Prop :=
  m_nr X = m_nr Z /\ m_nc X = m_nc Z /\
  forall i j, i < m_nr X -> j < m_nc X -> m_get Z i j = Ok (f (m_at X i j)).
(** The identity matrix of side s. *)
Definition identity_mat {T} {RO : RingOps T} (s : nat) (M : mat T) : Prop :=
  square_mat s M /\ forall i j, i < s -> j < s -> m_get M i j = Ok (if Nat.eqb i j then r1 else r0).

(** Sums of squares vanish only trivially: what the exact real numbers satisfy. *)
Class FormallyReal (F : Type) {RO : RingOps F} : Prop := { sum_sq : formally_real F }.

(** Conversions to and from complex numbers that are exact. *)
Class ConvLaws (T F : Type) {RT : RingOps T} {RF : RingOps F} {IC : IntoCplx T F} {FC : FromCplx T F} : Prop := {
  into_add : forall a b : T, into_complex (radd a b) = radd (into_complex a) (into_complex b);
  into_mul : forall a b : T, into_complex (rmul a b) = rmul (into_complex a) (into_complex b);
  into_one : into_complex (r1 : T) = r1;
  from_into : forall a : T, from_complex (into_complex a) = a
}.

(** Number of generators of a signature that are not null. *)
Definition nonnull (sg : list tok) : nat := length (filter (fun t => match t with Tnull => false | _ => true end) sg).
(** Number of generators of blade k that square to -1. *)
Definition neg_gens (sg : list tok) (k : N) : nat := length (filter (fun i => (sq sg i =? -1)%Z) (gens (length sg) k)).
(** Squares of the generators once the negative ones are multiplied by the imaginary unit. *)
Definition sq_abs (sg : list tok) (i : nat) : Z := (sq sg i * sq sg i)%Z.
(** Squares of the generators once one of square 1 is inserted at position n. *)
Definition sq_ins (sg : list tok) (n i : nat) : Z := if Nat.ltb i n then sq sg i else if Nat.eqb i n then 1%Z else sq sg (i - 1).
(** The blade i, when a generator is inserted at position n ... *)
Definition with_gap (n : nat) (i : N) : N := (i mod 2 ^ N.of_nat n + 2 ^ N.of_nat (S n) * (i / 2 ^ N.of_nat n))%N.
(** ... and coefficients f seen in the bigger algebra: zero at the blades with the new generator. *)
Definition padded {T} {RO : RingOps T} (n : nat) (f : N -> T) (k : N) : T :=
  if N.testbit k (N.of_nat n) then r0 else f (k mod 2 ^ N.of_nat n + 2 ^ N.of_nat n * (k / 2 ^ N.of_nat (S n)))%N.
