(** The rational numbers (standard library, in lowest terms) as exact coefficients: the
    reference rounded results are compared with.  Nothing in /repo corresponds to them. *)
From Coq Require Export QArith.Qcanon.
From Coq Require Import QArith.
From Verif Require Export RingDef.

(** Rational coefficients. *)
#[global] Instance QcOps : RingOps Qc := {|
  r0 := 0%Qc; r1 := 1%Qc; radd := Qcplus; rsub := Qcminus; rmul := Qcmult; rneg := Qcopp;
  ris0 := fun a => Qc_eq_bool a 0%Qc; reqb := Qc_eq_bool |}.
Lemma Qc_eqb_spec (a b : Qc) : Qc_eq_bool a b = true <-> a = b.
Proof. unfold Qc_eq_bool. destruct (Qc_eq_dec a b); split; congruence. Qed.
#[global] Instance QcLaws : RingLaws Qc.
Proof.
  constructor; cbn; intros; try ring.
  - apply Qc_eqb_spec.
  - apply Qc_eqb_spec.
Qed.
#[global] Instance QcComm : CommLaws Qc. Proof. constructor; cbn; intros; ring. Qed.
#[global] Instance QcDiv : DivOps Qc := {| rdiv := Qcdiv |}.
#[global] Instance QcField : FieldLaws Qc.
Proof. constructor; cbn; [discriminate|]. intros a b Hb. unfold Qcdiv. rewrite <- Qcmult_assoc, (Qcmult_comm (/ b)), Qcmult_inv_r, Qcmult_1_r; auto. Qed.
