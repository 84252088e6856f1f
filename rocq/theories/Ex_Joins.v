(** Example data for C84. *)
From Coq Require Import List.
Import ListNotations.
From Verif Require Export Ex_Motion P_Joins2.
Local Open Scope nat_scope.

Lemma lines_all : Forall (fun a => length a = 2 + 1 /\ nonzero a) lines.
Proof. constructor; [split; [reflexivity|left; discriminate]|]. constructor; [split; [reflexivity|left; discriminate]|constructor]. Qed.
(** The parallel lines x + 2 y + 5 = 0 and 2 x + 4 y = 1. *)
Definition parallels : list (list Qc) := [[qc 1 1; qc 2 1; qc 5 1]; [qc 2 1; qc 4 1; qc (-1) 1]].
Lemma parallels_all : Forall (fun a => length a = 2 + 1 /\ nonzero a) parallels.
Proof. constructor; [split; [reflexivity|left; discriminate]|]. constructor; [split; [reflexivity|left; discriminate]|constructor]. Qed.
Lemma two_points : Forall (is_point (alg sg_pga) 2) [origin; pnt].
Proof. constructor; [exact origin_point|]. constructor; [exact pnt_point|constructor]. Qed.
Lemma two_crd : mapM (pga_extract_point (alg sg_pga) 2) [origin; pnt] = Ok [crd origin; crd pnt].
Proof. cbn [mapM]. rewrite origin_crd, pnt_crd. reflexivity. Qed.
