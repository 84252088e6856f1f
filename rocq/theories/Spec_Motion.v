(** Specification vocabulary for C83. *)
From Verif Require Export Spec_PGA Spec_Sandwich.
Local Open Scope nat_scope.

(** s * x * s.revm() *)
Notation transform := Spec_Sandwich.sandwich (only parsing).

(** x is (the dual of) a proper point: of grade n, with a coefficient of e1...en that is not zero. *)
Definition is_point {T} {RO : RingOps T} {S} {St : Storage T S} {SL : StorageLaws T S} (A : algebra) (n : nat) (x : S) : Prop :=
  valid A x /\ of_grade A n x /\ rd x (2 ^ N.of_nat n - 1)%N <> r0.

(** The mirror image of p in a0 x0 + ... + a{n-1} x{n-1} + an = 0. *)
Definition reflected {T} {RO : RingOps T} {DV : DivOps T} (a p : list T) : list T :=
  let t := rdiv (equation a p) (suml (fun i => rmul (nth i a r0) (nth i a r0)) (seq 0 (length p))) in
  map (fun i => rsub (nth i p r0) (rmul (radd t t) (nth i a r0))) (seq 0 (length p)).

(** Squared Euclidean distance. *)
Definition dist2 {T} {RO : RingOps T} (p q : list T) : T :=
  suml (fun ab => rmul (rsub (fst ab) (snd ab)) (rsub (fst ab) (snd ab))) (combine p q).
