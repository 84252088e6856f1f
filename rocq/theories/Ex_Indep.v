(** Example data for C85. *)
From Coq Require Import List.
Import ListNotations.
From Verif Require Export Ex_Sandwich P_Indep2.
Local Open Scope nat_scope.

(** Two vectors of the projective plane (ln1, ln2) and a third with ln3 = 2 ln1 - ln2. *)
Definition ln3 : store KDense Qc := mkArr 3 [qc 0 1; qc (-1) 1; qc 5 1; qc 0 1; qc 6 1; qc 0 1; qc 0 1; qc 0 1].
Definition null : store KDense Qc := mkArr 3 [qc 0 1; qc 0 1; qc 0 1; qc 0 1; qc 1 1; qc 0 1; qc 0 1; qc 0 1].
Lemma vecs2 : Forall (valid (alg sg_pga)) [ln1; ln2]. Proof. repeat constructor; vld. Qed.
Lemma vecs2g : Forall (of_grade (alg sg_pga) 1) [ln1; ln2]. Proof. repeat constructor; ofg8. Qed.
Lemma vecs3 : Forall (valid (alg sg_pga)) [ln1; ln2; ln3]. Proof. repeat constructor; vld. Qed.
Lemma vecs3g : Forall (of_grade (alg sg_pga) 1) [ln1; ln2; ln3]. Proof. repeat constructor; ofg8. Qed.
Lemma vecsb : Forall (valid (alg sg_pga)) [ln1; ln2; null]. Proof. repeat constructor; vld. Qed.
Lemma vecsbg : Forall (of_grade (alg sg_pga) 1) [ln1; ln2; null]. Proof. repeat constructor; ofg8. Qed.
Lemma ln3_valid : valid (alg sg_pga) ln3. Proof. vld. Qed.
Lemma ln3_grade : of_grade (alg sg_pga) 1 ln3. Proof. ofg8. Qed.
Definition wedge_of (vs : list (store KDense Qc)) : store KDense Qc := match prod_list (k_wedge KDense (alg sg_pga)) (alg sg_pga) vs with Ok w => w | _ => ln1 end.
Lemma wedge2 : prod_list (k_wedge KDense (alg sg_pga)) (alg sg_pga) [ln1; ln2] = Ok (wedge_of [ln1; ln2]).
Proof. vm_compute. reflexivity. Qed.
Lemma wedgeb : prod_list (k_wedge KDense (alg sg_pga)) (alg sg_pga) [ln1; ln2; null] = Ok (wedge_of [ln1; ln2; null]).
Proof. vm_compute. reflexivity. Qed.
(** A generic multivector of the algebra with squares -1, +1 (C86). *)
Definition st4 : store KDense Qc := mkArr 2 [qc 1 1; qc 2 1; qc 3 1; qc (-4) 1].
