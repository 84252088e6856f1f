(** Example data for C82. *)
From Coq Require Import List.
Import ListNotations.
From Verif Require Export Ex P_Sandwich5.
Local Open Scope nat_scope.

Ltac ofg8 := intros i Hi Hp; change (i < 8)%N in Hi;
  assert (E : i = 0%N \/ i = 1%N \/ i = 2%N \/ i = 3%N \/ i = 4%N \/ i = 5%N \/ i = 6%N \/ i = 7%N) by lia;
  destruct E as [-> | [-> | [-> | [-> | [-> | [-> | [-> | -> ]]]]]]]; try reflexivity; exfalso; apply Hp; reflexivity.
Ltac ofg4 := intros i Hi Hp; change (i < 4)%N in Hi;
  assert (E : i = 0%N \/ i = 1%N \/ i = 2%N \/ i = 3%N) by lia;
  destruct E as [-> | [-> | [-> | -> ]]]; try reflexivity; exfalso; apply Hp; reflexivity.

(** Two lines of the projective plane, the motor that is their product, and two more multivectors. *)
Definition ln1 : store KDense Qc := mkArr 3 [qc 0 1; qc 1 1; qc 2 1; qc 0 1; qc 5 1; qc 0 1; qc 0 1; qc 0 1].
Definition ln2 : store KDense Qc := mkArr 3 [qc 0 1; qc 3 1; qc (-1) 1; qc 0 1; qc 4 1; qc 0 1; qc 0 1; qc 0 1].
Definition mot : store KDense Qc :=
  match mv_mul (alg sg_pga) ln1 ln2 with Ok s => s | _ => ln1 end.
Definition px : store KDense Qc := mkArr 3 [qc 1 2; qc 1 1; qc 0 1; qc 3 1; qc (-2) 1; qc 1 3; qc 0 1; qc 7 1].
Definition py : store KDense Qc := mkArr 3 [qc 0 1; qc 2 1; qc 1 1; qc 0 1; qc 1 1; qc (-1) 1; qc 4 1; qc 1 1].

Lemma mot_versor : versor (alg sg_pga) [ln1; ln2] mot (qc 50 1).
Proof.
  split; [repeat constructor; vld|]. split; [repeat constructor; ofg8|]. split; [vm_compute; reflexivity|]. split; [vm_compute; reflexivity|discriminate].
Qed.
Lemma px_valid : valid (alg sg_pga) px. Proof. vld. Qed.
Lemma py_valid : valid (alg sg_pga) py. Proof. vld. Qed.
Lemma pga_dense : supports KDense (alg sg_pga). Proof. cbn. auto. Qed.

(** One vector in the Lorentzian plane. *)
Definition lv : store KDense Qc := mkArr 2 [qc 0 1; qc 2 1; qc 1 1; qc 0 1].
Lemma lv_versor : versor (alg sg_11) [lv] lv (qc 3 1).
Proof.
  split; [repeat constructor; vld|]. split; [repeat constructor; ofg4|]. split; [vm_compute; reflexivity|]. split; [vm_compute; reflexivity|discriminate].
Qed.
Lemma lor_dense : supports KDense (alg sg_11). Proof. cbn. auto. Qed.
Lemma two_qc : radd (r1 : Qc) r1 <> r0. Proof. discriminate. Qed.
