(** Division of complex coefficients. *)
From Verif Require Import P_Cplx.
Local Open Scope rg_scope.

Lemma cplx_div {F} {RO : RingOps F} {L : RingLaws F} {CL : CommLaws F} {DV : DivOps F} {FL : FieldLaws F} {FR : FormallyReal F}
  (a b : cplx F) : b <> 0 -> (a / b) * b = a /\ (a * b) / b = a /\ b / b = 1.
Proof.
  intros Hb.
  assert (I : exists v, b * v = 1) by (exists (1 / b); rewrite mul_comm; apply div_mul; exact Hb).
  destruct I as [v Hv].
  assert (K : forall x y : cplx F, x * b = y * b -> x = y).
  { intros x y E. rewrite <- (mul_1_r x), <- (mul_1_r y), <- Hv, !mul_assoc, E. reflexivity. }
  split; [apply div_mul; exact Hb|]. split; apply K; rewrite div_mul by exact Hb; [reflexivity|]. rewrite mul_1_l. reflexivity.
Qed.
