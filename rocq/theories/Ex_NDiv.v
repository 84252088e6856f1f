(** Quaternions over the rational numbers, for the examples of Props_NDiv.v. *)
From Verif Require Export Ex_FFT Spec_FFT Spec_Repr P_NDiv.

Definition qi (a b c d : Z) : qst Qc := mkQ (qc a 1) (qc b 1) (qc c 1) (qc d 1).
(** The squared norm orders the quaternions as the norm does. *)
#[global] Instance QuatNorm : NormCmp (qst Qc) Qc := {|
  nrm := fun x => radd (radd (rmul (q_0 x) (q_0 x)) (rmul (q_1 x) (q_1 x))) (radd (rmul (q_2 x) (q_2 x)) (rmul (q_3 x) (q_3 x)));
  n_gt := fun a b => if Qclt_le_dec b a then true else false;
  n_is0 := fun a => ris0 a |}.
Lemma QuatNormZero {m : Mode} : @NormZero (qst Qc) Qc quat_ops QuatNorm. Proof. constructor. reflexivity. Qed.
(** The first matrix of quaternions tested at src/fftrepr/matrix.rs:145-149, its lower right corner. *)
Definition mq : mat (qst Qc) := mkMat 2 2 [qi 0 0 0 (-1); qi 0 0 1 0; qi 0 1 0 0; qi 0 0 1 0].

(** 1 + i e_0 and 1 - i e_0 *)
Definition nu {m : Mode} sg (c : Z) : nested Qc (alg sg) := settle (alg sg) (Ok (mkArr (length sg) (qc 0 1 :: qc c 1 :: repeat (qc 0 1) (2 ^ length sg - 2)))).
Definition ncq {m : Mode} sg (c : Z) : nested (nested Qc (alg sg)) (alg sg_q) :=
  let O := nested_ops (T := Qc) (alg sg) in settle (alg sg_q) (Ok (mkArr 2 [r1; nu sg c; r0; r0])).
Lemma cq_refuted_thm {m : Mode} sg : sg = [M1] \/ sg = [M1; M1] ->
  let O2 := nested_ops (RO := nested_ops (T := Qc) (alg sg)) (alg sg_q) in
  exists y z : nested (nested Qc (alg sg)) (alg sg_q), ris0 y = false /\ ris0 z = false /\ ris0 (rmul y z) = true.
Proof.
  intros Hs O2. exists (ncq sg 1), (ncq sg (-1)). destruct m as [ [|] ], Hs as [-> | -> ]; repeat split; vm_compute; reflexivity.
Qed.
