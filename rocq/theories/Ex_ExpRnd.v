(** Inputs for the examples of Props_ExpRnd.v. *)
From Coq Require Import QArith List.
Import ListNotations.
From Verif Require Export Ex_Range Ex_FTotal P_ExpRnd2.
Local Open Scope Qc_scope.

Definition x_er : store KDense flt := mkArr 2 [fz 0; fq 3 2; fz 0; fq (-1) 4].
Lemma go_18 j : (j < 18)%nat -> e_gt_eps (exp_coeff (F := flt) j) = true.
Proof. intros Hj. pose proof coefs_go as Q. rewrite forallb_forall in Q. apply Q. apply in_seq. lia. Qed.
Lemma coef_18 j : (j <= 18)%nat -> okay (exp_coeff (F := flt) j) /\ (1 - ulp) ^ j <= val (exp_coeff (F := flt) j) * qfact j /\ val (exp_coeff (F := flt) j) * qfact j <= (1 + ulp) ^ j.
Proof.
  intros Hj. pose proof coefs_ok as Q. rewrite forallb_forall in Q. specialize (Q j ltac:(apply in_seq; lia)). unfold coef_ok in Q.
  apply andb_prop in Q. destruct Q as [Q Q3]. apply andb_prop in Q. destruct Q as [Q1 Q2]. split; [apply fok_ok, Q1|]. split; apply qle_le; assumption.
Qed.
