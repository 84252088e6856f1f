(** Specification vocabulary for C82. *)
From Verif Require Export Spec_Prod.
Local Open Scope nat_scope.

(** s * x * s.revm() *)
Definition sandwich {T} {RO : RingOps T} {DV : DivOps T} {m : Mode} {S} {St : Storage T S} (A : algebra) (s x : S) : res S :=
  r <- mv_revm A s ;; p <- mv_mul A s x ;; mv_mul A p r.

(** s is a product of vectors whose magnitude n is not zero. *)
Definition versor {T} {RO : RingOps T} {m : Mode} {S} {St : Storage T S} {SL : StorageLaws T S} (A : algebra) (vs : list S) (s : S) (n : T) : Prop :=
  Forall (valid A) vs /\ Forall (of_grade A 1) vs /\ prod_list (mv_mul A) A vs = Ok s /\ mv_mag2 A s = Ok n /\ n <> r0.
