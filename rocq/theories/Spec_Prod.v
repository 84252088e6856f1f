(** Specification vocabulary for the product properties. *)
From Verif Require Export Spec Spec_Prog.
Local Open Scope nat_scope.

(** A multivector whose only coefficient is 1, at index I. *)
Definition unit_blade {T} {RO : RingOps T} {m : Mode} {S} {St : Storage T S} (A : algebra) (I : N) : res S :=
  z <- mv_zero A ;; Ok (mv_set_by_idx z I r1).

(** The product, under [mul], of the members of l listed in the word w, from left to right. *)
Fixpoint word_prod {T} {RO : RingOps T} {m : Mode} {S} {St : Storage T S} (mul : S -> S -> res S) (A : algebra)
  (l : list S) (w : list nat) : res S :=
  match w with
  | [] => mv_one A
  | i :: r => p <- word_prod mul A l r ;; e <- nthr l i ;; mul e p
  end.

(** Only grade r. *)
Definition of_grade {T} {RO : RingOps T} {S} {St : Storage T S} {SL : StorageLaws T S} (A : algebra) (r : nat) (x : S) : Prop :=
  forall i, (i < pow2 (a_dim A))%N -> popcount i <> r -> rd x i = r0.

(** (-1)^n x *)
Definition msign {T} {RO : RingOps T} (n : nat) (x : T) : T := if Nat.odd n then rneg x else x.

(** Repeated multiplication. *)
Fixpoint times {T} {RO : RingOps T} {m : Mode} {S} {St : Storage T S} (A : algebra) (x : S) (n : nat) : res S :=
  match n with O => mv_one A | Datatypes.S n => p <- times A x n ;; mv_mul A p x end.

(** *** The universal property *)
Section Univ.
Context {R : Type} {RO : RingOps R}.
Variable g : nat -> R.

(** Product of ring elements listed in a word. *)
Fixpoint pg (w : list nat) : R := match w with [] => r1 | i :: r => rmul (g i) (pg r) end.

(** The relations of a signature. *)
Definition satisfies (sg : list tok) : Prop :=
  (forall i, i < length sg -> rmul (g i) (g i) = zact (sq sg i) r1) /\
  (forall i j, i < length sg -> j < length sg -> i <> j -> rmul (g i) (g j) = rneg (rmul (g j) (g i))).

(** A ring homomorphism whose image commutes with the g_i, i < n. *)
Definition scalars_hom {T} {RT : RingOps T} (n : nat) (phi : T -> R) : Prop :=
  (forall a b, phi (radd a b) = radd (phi a) (phi b)) /\
  (forall a b, phi (rmul a b) = rmul (phi a) (phi b)) /\ phi r1 = r1 /\
  (forall a i, i < n -> rmul (phi a) (g i) = rmul (g i) (phi a)).

(** Blade I to the product of its generators, highest first, extended linearly. *)
Definition extend {T} {RT : RingOps T} (n : nat) (phi : T -> R) (x : N -> T) : R :=
  sumI n (fun I => rmul (phi (x I)) (pg (gens n I))).
End Univ.

(** *** Vectors, versors and decomposable elements *)
Section Vec.
Context {T : Type} {RO : RingOps T} {m : Mode} {S : Type} {St : Storage T S} {SL : StorageLaws T S}.

(** Nothing but a multiple of the unit pseudoscalar. *)
Definition pseudoscalar (A : algebra) (r : res S) : Prop :=
  exists z, r = Ok z /\ valid A z /\ forall i, (i < 2 ^ N.of_nat (a_dim A))%N -> i <> (2 ^ N.of_nat (a_dim A) - 1)%N -> rd z i = r0.

(** v_1 op (v_2 op (... op 1)) *)
Fixpoint prod_list (op : S -> S -> res S) (A : algebra) (vs : list S) : res S :=
  match vs with [] => mv_one A | v :: r => p <- prod_list op A r ;; op v p end.
End Vec.

(** A sum of squares is zero only if every term is. *)
Definition formally_real (T : Type) {RO : RingOps T} : Prop :=
  forall l : list T, suml (fun a => rmul a a) l = r0 -> Forall (fun a => a = r0) l.
