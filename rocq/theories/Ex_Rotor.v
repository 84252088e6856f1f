(** Example data for C87. *)
From Coq Require Import List.
Import ListNotations.
From Coq Require Import QArith Reals Qreals Lra.
From Verif Require Export Ex_ExpRnd Ex_ExpLim P_Rotor2.
Local Open Scope Qc_scope.

(** 3/2 e0 e1 in Cl(1,1), with square 9/4: exact and in double precision. *)
Definition bo : store KDense Qc := mkArr 2 [qc 0 1; qc 0 1; qc 0 1; qc 3 2].
Definition bof : store KDense flt := mkArr 2 [fz 0; fz 0; fz 0; fq 3 2].
(** 1/4 e0 e1 + 1/4 e0 e2 - 1/2 e1 e2 in Cl(3), with square -3/8. *)
Definition rof : store KDense flt := mkArr 3 [fz 0; fz 0; fz 0; fq 1 4; fz 0; fq 1 4; fq (-1) 2; fz 0].
Lemma bo_valid : valid (alg sg_11) bo. Proof. vld. Qed.
Lemma bo_square : agree (alg sg_11) (mv_mul (alg sg_11) bo bo) (mv_from_scalar (alg sg_11) (qc 9 4)).
Proof.
  eexists _, _. split; [vm_compute; reflexivity|]. split; [vm_compute; reflexivity|]. split; [vld|]. split; [vld|]. split; [vm_compute; reflexivity|].
  intros i Hi. assert (Hi' : (i < 4)%N) by exact Hi. apply Qc_is_canon.
  assert (Hc : i = 0%N \/ i = 1%N \/ i = 2%N \/ i = 3%N) by lia. destruct Hc as [->|[->|[->| ->]]]; vm_compute; reflexivity.
Qed.
Lemma sq_b sg d (f : N -> Qc) s : forallb (fun i => Qc_eq_bool (spec_mul (sq sg) d f f i) (single 0%N s i)) (idxs d) = true ->
  forall i, (i < 2 ^ N.of_nat d)%N -> spec_mul (sq sg) d f f i = single 0%N s i.
Proof. intros E i Hi. rewrite forallb_forall in E. apply Qc_eq_bool_correct. apply (E i). apply in_idxs. exact Hi. Qed.
Lemma rof_square : forall i, (i < 2 ^ N.of_nat 3)%N -> spec_mul (sq sg_e3) 3 (fun j => val (rd rof j)) (fun j => val (rd rof j)) i = single 0%N (qc (-3) 8) i.
Proof. apply sq_b. vm_compute. reflexivity. Qed.
Lemma bof_square : forall i, (i < 2 ^ N.of_nat 2)%N -> spec_mul (sq sg_11) 2 (fun j => val (rd bof j)) (fun j => val (rd bof j)) i = single 0%N (qc 9 4) i.
Proof. apply sq_b. vm_compute. reflexivity. Qed.
Lemma qr_qc a b : qr (qc a b) = (IZR a / IZR (Zpos b))%R.
Proof. unfold qr, qc. change (this (Q2Qc ?q)) with (Qred q). rewrite (Qeq_eqR _ _ (Qred_correct _)). reflexivity. Qed.
Lemma some_of {X} (o : option X) (v : X) : match o with Some _ => true | None => false end = true -> o = Some (match o with Some u => u | None => v end).
Proof. destruct o; [reflexivity|discriminate]. Qed.
Lemma bo_scale : mv_exp_scale (F := Qc) (alg sg_11) bo = Ok (qc 3 1).
Proof. vm_compute. reflexivity. Qed.
Lemma three_usize : nat_f (F := Qc) (e_usize (qc 3 1)) = qc 3 1.
Proof. apply Qc_is_canon; vm_compute; reflexivity. Qed.
Lemma bo_total : total 2 (rd bo) <= nat_f 1 * qc 3 1.
Proof. vm_compute. discriminate. Qed.
Lemma bof_scale : mv_exp_scale (F := flt) (alg sg_11) bof = Ok (fz 2).
Proof. vm_compute. reflexivity. Qed.
Lemma rof_scale : mv_exp_scale (F := flt) (alg sg_e3) rof = Ok r1.
Proof. vm_compute. reflexivity. Qed.
