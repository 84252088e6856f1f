(** Vocabulary for projective geometric algebra. *)
From Verif Require Export Spec_Exp M_PGA.
Local Open Scope nat_scope.

(** A square root vanishes only at zero. *)
Class SqrtLaws (T : Type) {RO : RingOps T} {SQ : SqrtOps T} : Prop := { sqrt_zero : forall s : T, rsqrt s = r0 -> s = r0 }.

(** Not all the numbers are zero. *)
Definition nonzero {T} {RO : RingOps T} (l : list T) : Prop := Exists (fun c => c <> r0) l.

(** Coordinate-wise sum. *)
Definition vadd {T} {RO : RingOps T} (p d : list T) : list T := map (fun ab => radd (fst ab) (snd ab)) (combine p d).

(** The value of a0 x0 + ... + a{n-1} x{n-1} + an at a point. *)
Definition equation {T} {RO : RingOps T} (ec p : list T) : T :=
  radd (suml (fun i => rmul (nth i ec r0) (nth i p r0)) (seq 0 (length p))) (nth (length p) ec r0).

(** The sandwich product t~ X t. *)
Definition sandwich {T} {RO : RingOps T} {m : Mode} {S} {St : Storage T S} (A : algebra) (t x : S) : res S :=
  r <- mv_rev A t ;; u <- mv_mul A r x ;; mv_mul A u t.
