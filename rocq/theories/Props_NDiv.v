(** Properties C43 (the matrix inverse itself) and C80: complex numbers and quaternions as coefficients. *)
From Verif Require Import Ex_NDiv.
Local Open Scope nat_scope.

(** C80. Division of multivectors that serve as coefficients always returns, in each of the two
    division algebras, and with [+], [-], [*] it makes them a division ring: (a / b) * b = a for b other
    than zero.  T is any commutative formally real field, e.g. the exact real numbers. *)
Theorem C80_calls {T} {RO : RingOps T} {L : RingLaws T} {DV : DivOps T} {m : Mode} {H : HashOrder} sg A :
  declared sg A -> forall x y : nested T A,
  mv_div A (proj1_sig x) (proj1_sig y) = Ok (proj1_sig (rdiv (DivOps := nested_div A) x y)).
Proof. exact (fun D => nd_call sg A D). Qed.
Print Assumptions C80_calls.
Example C80_calls_ex := C80_calls (T := Qc) sg_q (alg sg_q) d_q.

Theorem C80_division_ring {T} {RO : RingOps T} {L : RingLaws T} {CL : CommLaws T} {DV : DivOps T} {FL : FieldLaws T} {m : Mode} {H : HashOrder} sg A :
  declared sg A -> formally_real T -> sg = [Tminus] \/ sg = [Tminus; Tminus] ->
  @RingLaws (nested T A) (nested_ops A) /\ @FieldLaws (nested T A) (nested_ops A) (nested_div A).
Proof. exact (fun D HF Hs => conj (nested_laws sg A D) (nd_field sg A D HF Hs)). Qed.
Print Assumptions C80_division_ring.
Example C80_division_ring_ex := C80_division_ring (T := Qc) sg_q (alg sg_q) d_q Qc_real (or_intror eq_refl).

(** With one generator it is a field: complex numbers built from the macro. *)
Theorem C80_complex_field {T} {RO : RingOps T} {L : RingLaws T} {CL : CommLaws T} {m : Mode} {H : HashOrder} A :
  declared [Tminus] A -> @CommLaws (nested T A) (nested_ops A).
Proof. exact (nd_comm A). Qed.
Print Assumptions C80_complex_field.
Example C80_complex_field_ex := C80_complex_field (T := Qc) (alg [M1]) ltac:(dcl).

(** The same for the [Quaternion] type with its own storage. *)
Theorem C80_quaternion_calls {T} {RO : RingOps T} {L : RingLaws T} {DV : DivOps T} {m : Mode} {H : HashOrder} (x y : qst T) :
  let QA := QuaternionAlgebra in
  mv_add x y = Ok (radd (RingOps := quat_ops) x y) /\ mv_sub x y = Ok (rsub (RingOps := quat_ops) x y) /\
  mv_mul QA x y = Ok (rmul (RingOps := quat_ops) x y) /\ mv_neg QA x = Ok (rneg (RingOps := quat_ops) x) /\
  mv_div QA x y = Ok (rdiv (DivOps := quat_div) x y) /\
  mv_zero QA = Ok (r0 (RingOps := quat_ops)) /\ mv_one QA = Ok (r1 (RingOps := quat_ops)).
Proof. exact (quat_calls_thm x y). Qed.
Print Assumptions C80_quaternion_calls.
Example C80_quaternion_calls_ex := C80_quaternion_calls (T := Qc) (mkQ (qc 1 2) (qc 3 1) (qc 0 1) (qc (-2) 3)) (mkQ (qc 0 1) (qc 0 1) (qc 0 1) (qc 0 1)).

Theorem C80_quaternions {T} {RO : RingOps T} {L : RingLaws T} {CL : CommLaws T} {DV : DivOps T} {FL : FieldLaws T} {m : Mode} {H : HashOrder} :
  formally_real T -> @RingLaws (qst T) quat_ops /\ @FieldLaws (qst T) quat_ops quat_div.
Proof. exact (fun HF => conj quat_laws (quat_field HF)). Qed.
Print Assumptions C80_quaternions.
Example C80_quaternions_ex := C80_quaternions (T := Qc) Qc_real.

(** Not so for quaternions with complex or quaternion coefficients (the FIXME at src/ops.rs:47): there
    nonzero y and z have the product zero, so dividing by y cannot be undone by a multiplication. *)
Theorem C80_zero_divisors {m : Mode} sg : sg = [M1] \/ sg = [M1; M1] ->
  let O2 := nested_ops (RO := nested_ops (T := Qc) (alg sg)) (alg sg_q) in
  exists y z : nested (nested Qc (alg sg)) (alg sg_q), ris0 y = false /\ ris0 z = false /\ ris0 (rmul y z) = true.
Proof. exact (cq_refuted_thm sg). Qed.
Print Assumptions C80_zero_divisors.

(** C43. The matrix inverse, over any division ring, commutative or not, and any rule for choosing
    pivots that recognises zero: it never panics, returns nothing for matrices that are not square, and
    what it returns is a two-sided inverse. *)
Theorem C43_matrix {T R} {RO : RingOps T} {L : RingLaws T} {DV : DivOps T} {FL : FieldLaws T} {NC : NormCmp T R} {NZ : NormZero T R} (M : mat T) :
  m_ok M -> exists o, matrix_inv M = Ok o /\ (m_nr M <> m_nc M -> o = None) /\
  forall W, o = Some W -> exists E J, m_dot M W = Ok E /\ identity_mat (m_nr M) E /\ m_dot W M = Ok J /\ identity_mat (m_nr M) J.
Proof. exact (minv_thm M). Qed.
Print Assumptions C43_matrix.

(** A matrix of quaternions like those of the tests at src/fftrepr/matrix.rs:143-170. *)
Example C43_matrix_ex : let O := quat_ops (T := Qc) in let DQ := quat_div (T := Qc) in
  @RingLaws (qst Qc) O /\ @FieldLaws (qst Qc) O DQ /\ @NormZero (qst Qc) Qc O QuatNorm /\ m_ok mq /\
  match matrix_inv mq with
  | Ok (Some W) => match m_dot mq W with
                   | Ok E => list_eqb (m_data E) [qi 1 0 0 0; qi 0 0 0 0; qi 0 0 0 0; qi 1 0 0 0]
                   | _ => false
                   end
  | _ => false
  end = true.
Proof.
  intros O DQ. split; [exact (proj1 C80_quaternions_ex)|]. split; [exact (proj2 C80_quaternions_ex)|]. split; [exact (QuatNormZero (m := dbg))|]. split; [reflexivity|].
  subst O DQ. vm_compute. reflexivity.
Qed.
