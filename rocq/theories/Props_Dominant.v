(** Property C44, continued: [inv] on multivectors whose scalar part outweighs the rest. *)
From Verif Require Import Ex_FFT Spec_Repr Spec_FRound P_Gauss4.
Local Open Scope Qc_scope.

(** In a non-degenerate algebra of any number of generators [inv] finds the inverse of every real
    multivector whose scalar part is larger than the other coefficients together, provided the
    pivot search compares entries by their absolute value.  Missing: other invertible
    multivectors, some of which are refused (C44_refuted). *)
Theorem C44_dominant_partial {R} {m : Mode} {H : HashOrder} {NC : NormCmp (cplx Qc) R} {NZ : NormZero (cplx Qc) R} {NL : NormLaws (cplx Qc) R}
  sg A (x : store KDense Qc) :
  declared sg A -> (length sg < 63)%nat -> nonnull sg = length sg ->
  (forall u v : cplx Qc, n_gt (nrm u) (nrm v) = true -> c_re v * c_re v + c_im v * c_im v < c_re u * c_re u + c_im u * c_im u) ->
  valid A x ->
  sumI (a_dim A) (fun i => if (i =? 0)%N then 0 else Qcabs (rd x i)) < Qcabs (rd x 0) ->
  exists (r : fftrepr Qc) (z : store KDense Qc), (X <- mv_fft (F := Qc) A (x : arr Qc) ;; fr_inv X) = Ok (Some r) /\
    fr_ifft A r = Ok (z : arr Qc) /\ valid A z /\ both_ok (mv_mul A x z) (mv_one A) /\ both_ok (mv_mul A z x) (mv_one A).
Proof. exact (fun D Hl Hn Hgt => c44_dom_real sg A D Hl Hn Hgt x). Qed.
Print Assumptions C44_dominant_partial.
(** 9 + e_0 - 3/2 e_01 + ... in Cl(1,2). *)
Example C44_dominant_partial_ex := C44_dominant_partial [P1; M1; M1] (alg [P1; M1; M1])
  (mkArr 3 [qc 9 1; qc 1 1; qc 0 1; qc (-3) 2; qc 1 1; qc 0 1; qc 2 1; qc 1 3]) ltac:(dcl) ltac:(cbn; lia) eq_refl
  ltac:(intros u v; cbn [n_gt QcNorm]; destruct (Qclt_le_dec (nrm v) (nrm u)) as [L|]; [intros _; exact L|discriminate]) ltac:(vld) ltac:(reflexivity).

(** The same with complex coefficients, measured by |re| + |im|. *)
Theorem C44_dominant_complex_partial {R} {m : Mode} {H : HashOrder} {NC : NormCmp (cplx Qc) R} {NZ : NormZero (cplx Qc) R} {NL : NormLaws (cplx Qc) R}
  sg A (x : store KDense (cplx Qc)) :
  declared sg A -> (length sg < 63)%nat -> nonnull sg = length sg ->
  (forall u v : cplx Qc, n_gt (nrm u) (nrm v) = true -> c_re v * c_re v + c_im v * c_im v < c_re u * c_re u + c_im u * c_im u) ->
  valid A x -> rd x 0 <> r0 ->
  sumI (a_dim A) (fun i => if (i =? 0)%N then 0 else cabs1 (rmul (rd x i) (rdiv r1 (rd x 0)))) < 1 ->
  exists (r : fftrepr Qc) (z : store KDense (cplx Qc)), (X <- mv_fft (F := Qc) A (x : arr (cplx Qc)) ;; fr_inv X) = Ok (Some r) /\
    fr_ifft A r = Ok (z : arr (cplx Qc)) /\ valid A z /\ both_ok (mv_mul A x z) (mv_one A) /\ both_ok (mv_mul A z x) (mv_one A).
Proof. exact (fun D Hl Hn Hgt => c44_dom_cplx sg A D Hl Hn Hgt x). Qed.
Print Assumptions C44_dominant_complex_partial.
Example C44_dominant_complex_partial_ex := C44_dominant_complex_partial sg_11 (alg sg_11)
  (mkArr 2 [cq 3 1 4 1; cq 1 1 0 1; cq 0 1 (-1) 1; cq 1 2 1 2]) d_11 ltac:(cbn; lia) eq_refl
  ltac:(intros u v; cbn [n_gt QcNorm]; destruct (Qclt_le_dec (nrm v) (nrm u)) as [L|]; [intros _; exact L|discriminate]) ltac:(vld) ltac:(discriminate) ltac:(reflexivity).

(** Matrices: [inv] (src/fftrepr/matrix.rs) inverts every complex matrix of any side whose
    diagonal entries outweigh the rest of their columns. *)
Theorem C44_matrix_partial {R} {NC : NormCmp (cplx Qc) R} {NZ : NormZero (cplx Qc) R} {NL : NormLaws (cplx Qc) R} n (M : mat (cplx Qc)) :
  (forall u v : cplx Qc, n_gt (nrm u) (nrm v) = true -> c_re v * c_re v + c_im v * c_im v < c_re u * c_re u + c_im u * c_im u) ->
  square_mat n M ->
  (forall k, (k < n)%nat -> m_at M k k <> r0 /\
    suml (fun r => if Nat.eqb r k then 0 else cabs1 (rmul (m_at M r k) (rdiv r1 (m_at M k k)))) (seq 0 n) < 1) ->
  exists M', matrix_inv M = Ok (Some M').
Proof. exact (c44_dom_matrix n M). Qed.
Print Assumptions C44_matrix_partial.
Example C44_matrix_partial_ex := C44_matrix_partial (R := Qc) (NC := QcNorm) 3
  (mkMat 3 3 [cq 4 1 0 1; cq 1 1 0 1; cq 0 1 1 1;  cq 1 1 0 1; cq 0 1 5 1; cq (-1) 1 0 1;  cq 0 1 2 1; cq 1 1 1 1; cq 3 1 0 1])
  ltac:(intros u v; cbn [n_gt QcNorm]; destruct (Qclt_le_dec (nrm v) (nrm u)) as [L|]; [intros _; exact L|discriminate])
  ltac:(repeat split) ltac:(intros [|[|[|k]]] Hk; [split; [intros E; apply (f_equal ris0) in E; vm_compute in E; discriminate E|vm_compute; reflexivity] ..|exfalso; lia]).
