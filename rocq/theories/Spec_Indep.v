(** Specification vocabulary for C85. *)
From Verif Require Export Spec_PGA Spec_Prod.
Local Open Scope nat_scope.

(** v1 * c1 + ... + vr * cr *)
Fixpoint lin {T} {RO : RingOps T} {m : Mode} {S} {St : Storage T S} (A : algebra) (cs : list T) (vs : list S) : res S :=
  match cs, vs with
  | c :: cs', v :: vs' => r <- lin A cs' vs' ;; s <- mv_scale A v c ;; mv_add s r
  | _, _ => mv_default A
  end.
