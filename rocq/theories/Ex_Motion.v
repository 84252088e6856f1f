(** Example data for C83. *)
From Coq Require Import List.
Import ListNotations.
From Verif Require Export Ex_Sandwich P_Motion2 Ex_PGA.
Local Open Scope nat_scope.

(** The origin and the point (2, -3) of the plane (with weight 2). *)
Definition origin : store KDense Qc := mkArr 3 [qc 0 1; qc 0 1; qc 0 1; qc 1 1; qc 0 1; qc 0 1; qc 0 1; qc 0 1].
Definition pnt : store KDense Qc := mkArr 3 [qc 0 1; qc 0 1; qc 0 1; qc 2 1; qc 0 1; qc 6 1; qc 4 1; qc 0 1].
Lemma origin_point : is_point (alg sg_pga) 2 origin.
Proof. split; [vld|]. split; [ofg8|discriminate]. Qed.
Lemma pnt_point : is_point (alg sg_pga) 2 pnt.
Proof. split; [vld|]. split; [ofg8|discriminate]. Qed.
Definition crd (x : store KDense Qc) : list Qc := match pga_extract_point (alg sg_pga) 2 x with Ok l => l | _ => [] end.
Lemma origin_crd : pga_extract_point (alg sg_pga) 2 origin = Ok (crd origin).
Proof. vm_compute. reflexivity. Qed.
Lemma pnt_crd : pga_extract_point (alg sg_pga) 2 pnt = Ok (crd pnt).
Proof. vm_compute. reflexivity. Qed.

(** The lines x = 1 and x + 2 y + 5 = 0. *)
Definition lines : list (list Qc) := [[qc 1 1; qc 0 1; qc (-1) 1]; [qc 1 1; qc 2 1; qc 5 1]].
Lemma lines_ok : Forall (fun a => length a = 3 /\ nonzero (firstn 2 a)) lines.
Proof. constructor; [split; [reflexivity|left; discriminate]|]. constructor; [split; [reflexivity|left; discriminate]|constructor]. Qed.
