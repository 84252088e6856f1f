(** Property C85: the wedge product of vectors and linear dependence.  [lin A cs vs] is
    v1 * c1 + ... + vr * cr computed with the operators of the library. *)
From Verif Require Import Ex_Indep Spec_Indep P_Indep2.
From Coq Require Import QArith.
Local Open Scope nat_scope.

(** C85. The wedge of vectors vanishes exactly if they are linearly dependent. *)
Theorem C85_dependent {T} {RO : RingOps T} {L : RingLaws T} {CL : CommLaws T} {DV : DivOps T} {FL : FieldLaws T}
  {m : Mode} {H : HashOrder} (k : kind) sg A (vs : list (store k T)) :
  declared sg A -> supports k A -> k <> KQuat -> radd (r1 : T) r1 <> r0 ->
  Forall (valid A) vs -> Forall (of_grade A 1) vs ->
  exists w, prod_list (k_wedge k A) A vs = Ok w /\
    (mv_is_zero w = true <-> exists cs z, length cs = length vs /\ nonzero cs /\ lin A cs vs = Ok z /\ mv_is_zero z = true).
Proof. exact (fun D Hs Hk two => c85_dependent k sg A D Hs Hk two vs). Qed.
Print Assumptions C85_dependent.
Example C85_dependent_ex := C85_dependent KDense sg_pga (alg sg_pga) [ln1; ln2; ln3] d_pga I ltac:(discriminate) two_qc vecs3 vecs3g.
Example C85_zero_ex : mv_is_zero (wedge_of [ln1; ln2; ln3]) = true /\ mv_is_zero (wedge_of [ln1; ln2; null]) = false.
Proof. split; vm_compute; reflexivity. Qed.

(** A vector is a linear combination of independent ones exactly if its wedge with their wedge
    vanishes. *)
Theorem C85_span {T} {RO : RingOps T} {L : RingLaws T} {CL : CommLaws T} {DV : DivOps T} {FL : FieldLaws T}
  {m : Mode} {H : HashOrder} (k : kind) sg A (vs : list (store k T)) w u :
  declared sg A -> supports k A -> k <> KQuat -> radd (r1 : T) r1 <> r0 ->
  Forall (valid A) vs -> Forall (of_grade A 1) vs -> prod_list (k_wedge k A) A vs = Ok w -> mv_is_zero w = false ->
  valid A u -> of_grade A 1 u ->
  exists z, k_wedge k A u w = Ok z /\
    (mv_is_zero z = true <-> exists cs v, length cs = length vs /\ lin A cs vs = Ok v /\ mv_eqb u v = true).
Proof. exact (fun D Hs Hk two => c85_span k sg A D Hs Hk two vs w u). Qed.
Print Assumptions C85_span.
Example C85_span_ex := C85_span KDense sg_pga (alg sg_pga) [ln1; ln2] _ ln3 d_pga I ltac:(discriminate) two_qc vecs2 vecs2g wedge2 eq_refl ln3_valid ln3_grade.
Example C85_lin_ex : match lin (alg sg_pga) [qc 2 1; qc (-1) 1] [ln1; ln2] with Ok v => mv_eqb ln3 v | _ => false end = true.
Proof. vm_compute. reflexivity. Qed.

(** dim() vectors whose wedge does not vanish span all vectors. *)
Theorem C85_basis {T} {RO : RingOps T} {L : RingLaws T} {CL : CommLaws T} {DV : DivOps T} {FL : FieldLaws T}
  {m : Mode} {H : HashOrder} (k : kind) sg A (vs : list (store k T)) w u :
  declared sg A -> supports k A -> k <> KQuat -> radd (r1 : T) r1 <> r0 ->
  Forall (valid A) vs -> Forall (of_grade A 1) vs -> length vs = length sg -> prod_list (k_wedge k A) A vs = Ok w -> mv_is_zero w = false ->
  valid A u -> of_grade A 1 u ->
  exists cs v, length cs = length vs /\ lin A cs vs = Ok v /\ mv_eqb u v = true.
Proof. exact (fun D Hs Hk two Hv Hg Hl => c85_basis k sg A D Hs Hk two vs w u Hv Hg (eq_trans Hl (eq_sym (declared_dim sg A D)))). Qed.
Print Assumptions C85_basis.
Example C85_basis_ex := C85_basis KDense sg_pga (alg sg_pga) [ln1; ln2; null] _ ln3 d_pga I ltac:(discriminate) two_qc vecsb vecsbg eq_refl wedgeb eq_refl ln3_valid ln3_grade.
