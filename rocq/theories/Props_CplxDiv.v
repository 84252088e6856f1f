(** Property C31 for complex coefficients. *)
From Verif Require Import Ex P_CplxDiv P_Cplx.
Local Open Scope rg_scope.

(** C31. Complex numbers over a formally real field are themselves a division ring: dividing
    and multiplying by any b other than zero are inverse to each other, and b / b is one. *)
Theorem C31_complex_coefficients {F} {RO : RingOps F} {L : RingLaws F} {CL : CommLaws F} {DV : DivOps F} {FL : FieldLaws F} {FR : FormallyReal F}
  (a b : cplx F) : b <> 0 -> (a / b) * b = a /\ (a * b) / b = a /\ b / b = 1.
Proof. exact (cplx_div a b). Qed.
Print Assumptions C31_complex_coefficients.

(** (1 + 2i) / (3 - 4i) = -1/5 + 2/5 i *)
Example C31_complex_coefficients_ex : formally_real Qc /\ mkC (qc 3 1) (qc (-4) 1) <> 0 /\
  reqb (mkC (qc 1 1) (qc 2 1) / mkC (qc 3 1) (qc (-4) 1)) (mkC (qc (-1) 5) (qc 2 5)) = true.
Proof. split; [exact Qc_real|]. split; [intros E; vm_compute in E; discriminate E|vm_compute; reflexivity]. Qed.
