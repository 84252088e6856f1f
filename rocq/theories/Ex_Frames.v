(** Example data for C89. *)
From Coq Require Import List QArith Qcanon Lia.
Import ListNotations.
From Verif Require Export Ex_Sandwich P_Frames2.
Local Open Scope nat_scope.

(** The basis of the Lorentzian plane and a boosted frame. *)
Definition le0 : store KDense Qc := mkArr 2 [qc 0 1; qc 1 1; qc 0 1; qc 0 1].
Definition le1 : store KDense Qc := mkArr 2 [qc 0 1; qc 0 1; qc 1 1; qc 0 1].
Definition lf0 : store KDense Qc := mkArr 2 [qc 0 1; qc 5 4; qc 3 4; qc 0 1].
Definition lf1 : store KDense Qc := mkArr 2 [qc 0 1; qc 3 4; qc 5 4; qc 0 1].
Lemma le_valid : Forall (valid (alg sg_11)) [le0; le1]. Proof. repeat constructor; vld. Qed.
Lemma le_grade : Forall (of_grade (alg sg_11) 1) [le0; le1]. Proof. repeat constructor; ofg4. Qed.
Lemma lf_valid : Forall (valid (alg sg_11)) [lf0; lf1]. Proof. repeat constructor; vld. Qed.
Lemma lf_grade : Forall (of_grade (alg sg_11) 1) [lf0; lf1]. Proof. repeat constructor; ofg4. Qed.
Lemma l_orth i j : i < 2 -> j < 2 -> i <> j -> ip (alg sg_11) (nth i [le0; le1] le0) (nth j [le0; le1] le0) = r0 /\ ip (alg sg_11) (nth i [lf0; lf1] le0) (nth j [lf0; lf1] le0) = r0.
Proof.
  intros Hi Hj Hne. destruct i as [|[|i]]; [| |lia]; (destruct j as [|[|j]]; [| |lia]); try congruence; split; apply Qc_is_canon; vm_compute; reflexivity.
Qed.
Lemma l_norm i : i < 2 -> ip (alg sg_11) (nth i [le0; le1] le0) (nth i [le0; le1] le0) = ip (alg sg_11) (nth i [lf0; lf1] le0) (nth i [lf0; lf1] le0) /\ ip (alg sg_11) (nth i [lf0; lf1] le0) (nth i [lf0; lf1] le0) <> r0.
Proof.
  intros Hi. destruct i as [|[|i]]; [| |lia]; (split; [apply Qc_is_canon; vm_compute; reflexivity|]; intros E; apply (f_equal this) in E; vm_compute in E; discriminate).
Qed.
(** Twice the vector of [lv_versor]. *)
Definition lv2 : store KDense Qc := mkArr 2 [qc 0 1; qc 4 1; qc 2 1; qc 0 1].
Lemma lv2_versor : versor (alg sg_11) [lv2] lv2 (qc 12 1).
Proof.
  split; [repeat constructor; vld|]. split; [repeat constructor; ofg4|]. split; [vm_compute; reflexivity|]. split; [vm_compute; reflexivity|discriminate].
Qed.
(** A number plus a pseudoscalar in dimension 3. *)
Definition cz : store KDense Qc := mkArr 3 [qc 2 1; qc 0 1; qc 0 1; qc 0 1; qc 0 1; qc 0 1; qc 0 1; qc 5 1].
Lemma cz_valid : valid (alg sg_pga) cz. Proof. vld. Qed.
Lemma qc_two (a : Qc) : radd a a = r0 -> a = r0.
Proof.
  intros E. apply Qc_is_canon. apply (f_equal this) in E. unfold radd in E. change (this (Qcplus a a) = this 0%Qc) in E.
  unfold Qcplus, Q2Qc in E. cbn [this] in E. assert (G : (Qeq (Qplus (this a) (this a)) 0%Q)) by (rewrite <- (Qred_correct (Qplus (this a) (this a))), E; reflexivity).
  change (this r0) with 0%Q. revert G. clear. generalize (this a). intros [n p]. unfold Qeq, Qplus. cbn. lia.
Qed.
