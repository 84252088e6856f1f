(** Instances for the examples of Props_FRound.v. *)
From Coq Require Import List.
Import ListNotations.
From Coq Require Import QArith.
From Verif Require Export Ex_Round P_Round7.
Local Open Scope nat_scope.

Definition sg_p11 := [P1; M1; N1].
Definition fr_x : store KDense flt := mkArr 3 [fq 1 10; fq 11 10; fq 1 10; fq (-7) 10; fq 1 3; fz 0; fq 1 7; fz 5].
Lemma v_frx : valid (alg sg_p11) fr_x. Proof. vld. Qed.
Definition fr_c : store KDense (cplx flt) := mkArr 2 [mkC (fq 1 10) (fq 1 3); mkC (fq 11 10) (fz 0); mkC (fq 1 10) (fq 2 7); mkC (fq (-7) 10) (fz 1)].
Lemma v_frc : valid (alg sg_11) fr_c. Proof. split; [apply Nat.ltb_lt; reflexivity|split; reflexivity]. Qed.
Definition fr_l : list (cplx flt) := [mkC (fq 1 10) (fq 1 3); mkC (fq 11 10) (fz 0); mkC (fq 1 7) (fq 2 7); mkC (fq (-7) 10) (fq 7 3)].
Definition fr_m : mat (cplx flt) := mkMat 2 2 [mkC (fq 1 10) (fq 1 5); mkC (fq 1 5) (fz 0); mkC (fq 1 3) (fq 1 7); mkC (fq 3 10) (fz 0)].
Lemma qleb_ok a b : qleb a b = true -> (a <= b)%Qc.
Proof. unfold qleb. intros H. apply Qcle_alt. destruct (a ?= b)%Qc; discriminate. Qed.
