(** Instances for the examples of Props_FastProd.v. *)
From Coq Require Import List.
Import ListNotations.
From Coq Require Import QArith.
From Verif Require Export Ex_FRound P_Round11.
Local Open Scope nat_scope.

Definition fp_y : store KDense flt := mkArr 3 [fq 1 3; fq (-1) 10; fz 0; fq 3 10; fq 2 7; fz 1; fz 0; fq 1 9].
Lemma v_fpy : valid (alg sg_p11) fp_y. Proof. vld. Qed.
Definition fp_c : store KDense (cplx flt) := mkArr 2 [mkC (fq 1 3) (fq 1 10); mkC (fz 0) (fq (-3) 7); mkC (fz 1) (fq 2 7); mkC (fq 7 10) (fz 0)].
Lemma v_fpc : valid (alg sg_11) fp_c. Proof. split; [apply Nat.ltb_lt; reflexivity|split; reflexivity]. Qed.
