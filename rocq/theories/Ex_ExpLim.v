(** Concrete instances for the theorems comparing exp with the exponential series. *)
From Coq Require Import QArith.
From Verif Require Export Ex_Exp Spec_ExpLim.
From Coq Require Import Lqa.
Local Open Scope Qc_scope.
#[global] Instance QcSize : SizeLaws Qc.
Proof.
  refine {| size := QArith.Qcabs.Qcabs |}; cbn [radd rmul rneg r0 QcOps from_f QcFromF].
  - apply Qcabs_nonneg.
  - apply Qcabs_pos, Qcle_refl.
  - apply Qcabs_triangle.
  - apply Qcabs_opp.
  - intros a b. rewrite Qcabs_Qcmult. apply Qcle_refl.
  - reflexivity.
Defined.
(** Complex coefficients, |re| + |im| as their size. *)
#[global] Instance CqFromF : FromF (cplx Qc) Qc := {| from_f := fun a => mkC a 0 |}.
#[global] Instance CqFrom : FromLaws (cplx Qc) Qc.
Proof. constructor; intros; cbn [radd rmul r1 CplxOps from_f CqFromF c_re c_im QcOps]; try reflexivity; f_equal; change (@radd Qc QcOps) with Qcplus; cbn; ring. Qed.
#[global] Instance CqSize : SizeLaws (cplx Qc).
Proof.
  refine {| size := fun w => QArith.Qcabs.Qcabs (c_re w) + QArith.Qcabs.Qcabs (c_im w) |}.
  - intros a. replace 0 with (0 + 0) by ring. apply Qcplus_le_compat; apply Qcabs_nonneg.
  - reflexivity.
  - intros a b. change (c_re (radd a b)) with (c_re a + c_re b). change (c_im (radd a b)) with (c_im a + c_im b).
    replace (_ + _ + (_ + _)) with (QArith.Qcabs.Qcabs (c_re a) + QArith.Qcabs.Qcabs (c_re b) + (QArith.Qcabs.Qcabs (c_im a) + QArith.Qcabs.Qcabs (c_im b))) by ring. apply Qcplus_le_compat; apply Qcabs_triangle.
  - intros a. change (c_re (rneg a)) with (- c_re a). change (c_im (rneg a)) with (- c_im a). rewrite !Qcabs_opp. reflexivity.
  - intros a b. change (c_re (rmul a b)) with (c_re a * c_re b - c_im a * c_im b). change (c_im (rmul a b)) with (c_re a * c_im b + c_im a * c_re b).
    eapply Qcle_trans; [apply Qcplus_le_compat; apply Qcabs_triangle|]. rewrite Qcabs_opp, !Qcabs_Qcmult.
    match goal with |- ?u <= ?v => replace u with v by ring end. apply Qcle_refl.
  - intros q. cbn [from_f CqFromF c_re c_im]. rewrite (Qcabs_pos 0) by apply Qcle_refl. ring.
Defined.
