(** Property C88: wedges of vectors and determinants.  [det n M] is the determinant of the
    n x n matrix M, [ip A u v] the value of u.vdot(v), and [gens n I] the basis vectors of the
    blade with index I, in the order of its label. *)
From Verif Require Import Ex_Indep P_Det2.
From Coq Require Import QArith.
Local Open Scope nat_scope.

(** C88. The coefficient of v1 ^ ... ^ vr at a blade of r basis vectors is the r x r minor of the
    coefficients of the vectors at these basis vectors; the other coefficients are 0.  The scalars
    may be any ring. *)
Theorem C88_coeff {T} {RO : RingOps T} {L : RingLaws T} {m : Mode} {H : HashOrder} (k : kind) sg A (vs : list (store k T)) h :
  declared sg A -> supports k A -> k <> KQuat -> Forall (valid A) vs -> Forall (of_grade A 1) vs ->
  exists w, prod_list (k_wedge k A) A vs = Ok w /\ valid A w /\
    forall I, (I < 2 ^ N.of_nat (length sg))%N -> mv_get_by_idx w I = Ok (
      let g := gens (length sg) I in
      if length g =? length vs then det (length vs) (fun a b => rd (nth a vs h) (2 ^ N.of_nat (nth b g 0)%nat)) else r0).
Proof. exact (fun D Hs Hk => c88_coeff k sg A D Hs Hk vs h). Qed.
Print Assumptions C88_coeff.
Example C88_coeff_ex := C88_coeff KDense sg_pga (alg sg_pga) [ln1; ln2; null] ln1 d_pga I ltac:(discriminate) vecsb vecsbg.
Example C88_coeff_val : this (rd (wedge_of [ln1; ln2; null]) 7) = (7 # 1)%Q
  /\ this (det 3 (fun a b => rd (nth a [ln1; ln2; null] ln1) (2 ^ N.of_nat (nth b (gens 3 7) 0)%nat))) = (7 # 1)%Q.
Proof. split; vm_compute; reflexivity. Qed.

(** The scalar part of (u1 ^ ... ^ ur).rev() * (v1 ^ ... ^ vr) is the determinant of the scalar
    products of the vectors; mag2 of a wedge of vectors is their Gram determinant. *)
Theorem C88_gram {T} {RO : RingOps T} {L : RingLaws T} {CL : CommLaws T} {DV : DivOps T} {FL : FieldLaws T} {m : Mode} {H : HashOrder}
  (k : kind) sg A (us vs : list (store k T)) h :
  declared sg A -> supports k A -> k <> KQuat -> radd (r1 : T) r1 <> r0 -> length us = length vs ->
  Forall (valid A) us -> Forall (of_grade A 1) us -> Forall (valid A) vs -> Forall (of_grade A 1) vs ->
  (forall u v, In u us -> In v vs -> mv_vdot A u v = Ok (ip A u v)) /\
  exists x y r, prod_list (k_wedge k A) A us = Ok x /\ prod_list (k_wedge k A) A vs = Ok y /\ mv_rev A x = Ok r /\
    mv_vdot A r y = Ok (det (length vs) (fun a b => ip A (nth a us h) (nth b vs h))).
Proof. exact (fun D Hs Hk two => c88_gram k sg A D Hs Hk two us vs h). Qed.
Print Assumptions C88_gram.
Example C88_gram_ex := C88_gram KDense sg_pga (alg sg_pga) [ln3; ln1] [ln1; ln2] ln1 d_pga I ltac:(discriminate) two_qc eq_refl
  (Forall_cons _ ln3_valid (Forall_cons _ (Forall_inv vecs2) (Forall_nil _))) (Forall_cons _ ln3_grade (Forall_cons _ (Forall_inv vecs2g) (Forall_nil _))) vecs2 vecs2g.
Example C88_gram_val : this (det 2 (fun a b => ip (alg sg_pga) (nth a [ln3; ln1] ln1) (nth b [ln1; ln2] ln1))) = (49 # 1)%Q.
Proof. vm_compute. reflexivity. Qed.

Theorem C88_mag2 {T} {RO : RingOps T} {L : RingLaws T} {CL : CommLaws T} {DV : DivOps T} {FL : FieldLaws T} {m : Mode} {H : HashOrder}
  (k : kind) sg A (vs : list (store k T)) h :
  declared sg A -> supports k A -> k <> KQuat -> radd (r1 : T) r1 <> r0 ->
  Forall (valid A) vs -> Forall (of_grade A 1) vs ->
  exists x, prod_list (k_wedge k A) A vs = Ok x /\ mv_mag2 A x = Ok (det (length vs) (fun a b => ip A (nth a vs h) (nth b vs h))).
Proof. exact (fun D Hs Hk two => c88_mag2 k sg A D Hs Hk two vs h). Qed.
Print Assumptions C88_mag2.
Example C88_mag2_ex := C88_mag2 KDense sg_pga (alg sg_pga) [ln1; ln2] ln1 d_pga I ltac:(discriminate) two_qc vecs2 vecs2g.
Example C88_mag2_val : this (det 2 (fun a b => ip (alg sg_pga) (nth a [ln1; ln2] ln1) (nth b [ln1; ln2] ln1))) = (49 # 1)%Q.
Proof. vm_compute. reflexivity. Qed.
