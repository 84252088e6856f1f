(** Concrete instances for the examples about the exponential: rationals for f64, with the
    1-norm for the absolute value of a complex number and the identity for the square root. *)
From Coq Require Import QArith Qround Lqa.
From Coq Require Import Qcanon.
From Verif Require Export Ex_FFT Spec_Exp.
Local Open Scope nat_scope.
Definition Qcabs (a : Qc) : Qc := if Qclt_le_dec a 0 then Qcopp a else a.
Definition Qcmx (a b : Qc) : Qc := if Qclt_le_dec a b then b else a.
Definition eps52 : Qc := Q2Qc (1 # 4503599627370496).
#[global] Instance QcExp : ExpOps Qc := {|
  e_norm := fun z => Qcplus (Qcabs (c_re z)) (Qcabs (c_im z)); e_max := Qcmx; e_sqrt := fun a => a;
  e_ceil := fun a => Q2Qc (inject_Z (Qceiling a)); e_usize := fun a => Z.to_nat (Qfloor a);
  e_gt_eps := fun a => if Qclt_le_dec eps52 a then true else false |}.
Lemma Qc_le_trans (a b c : Qc) : Qcle a b -> Qcle b c -> Qcle a c.
Proof. apply Qcle_trans. Qed.
#[global] Instance QcMax : MaxLaws Qc.
Proof.
  refine {| f_le := Qcle |}.
  - apply Qc_le_trans.
  - intros a b. cbn. unfold Qcmx. destruct (Qclt_le_dec a b) as [H|H]; [apply Qclt_le_weak; auto|apply Qcle_refl].
  - intros a b. cbn. unfold Qcmx. destruct (Qclt_le_dec a b) as [H|H]; [apply Qcle_refl|auto].
  - intros a. cbn [e_ceil QcExp]. unfold Qcle, Q2Qc. cbn [this]. rewrite Qred_correct. apply Qle_ceiling.
  - intros a H ->. revert H. apply Qclt_not_le. reflexivity.
Defined.
Lemma nat_f_Qc n : Qeq (nat_f (F := Qc) n) (inject_Z (Z.of_nat n)).
Proof.
  induction n as [|n IH]; [reflexivity|]. cbn [nat_f radd QcOps]. unfold Qcplus, Q2Qc. cbn [this]. rewrite Qred_correct, IH, Nat2Z.inj_succ. unfold Z.succ. rewrite inject_Z_plus. reflexivity.
Qed.
Lemma eps_mul k : Qeq ((1 # 4503599627370496) * inject_Z k) (k # 4503599627370496).
Proof. unfold Qeq. cbn [Qnum Qden Qmult inject_Z]. rewrite Pos.mul_1_r, Z.mul_1_l. reflexivity. Qed.
#[global] Instance QcEps : EpsLaws Qc.
Proof.
  constructor. intros k c E. apply (f_equal this) in E. cbn [rmul QcOps] in E. unfold Qcmult, Q2Qc in E. cbn [this] in E.
  assert (E1 : Qeq (c * inject_Z (Z.of_N k)) 1).
  { rewrite <- (N_nat_Z k), <- nat_f_Qc, <- Qred_correct, E. reflexivity. }
  clear E. assert (Hk : (0 < k)%N) by (destruct k; [rewrite Qmult_0_r in E1; discriminate|lia]).
  assert (Hk' : Qlt 0 (inject_Z (Z.of_N k))) by (unfold Qlt; cbn [Qnum Qden inject_Z]; lia).
  assert (Ee : Qeq eps52 (1 # 4503599627370496)) by (unfold eps52, Q2Qc; cbn [this]; apply Qred_correct).
  assert (M : Qlt eps52 c <-> (k < 4503599627370496)%N).
  { rewrite <- (Qmult_lt_r _ _ _ Hk'), E1, Ee, eps_mul. unfold Qlt. cbn [Qnum Qden]. rewrite Z.mul_1_r, Z.mul_1_l. lia. }
  change (2 ^ 52)%N with 4503599627370496%N. cbn [e_gt_eps QcExp]. destruct (Qclt_le_dec eps52 c) as [H|H]; unfold Qclt, Qcle in H; symmetry.
  - apply N.ltb_lt, M. exact H.
  - apply N.ltb_ge. apply N.le_ngt. intros H'. apply M in H'. apply Qle_not_lt in H. auto.
Qed.
#[global] Instance QcNormF : NormF Qc Qc := {| norm_f := Qcabs |}.
#[global] Instance QcFromF : FromF Qc Qc := {| from_f := fun a => a |}.
#[global] Instance QcFrom : FromLaws Qc Qc.
Proof. constructor; reflexivity. Qed.
(** Boolean comparison of the two results of dense computations. *)
Definition aeq (a b : res (arr Qc)) : bool := match a, b with Ok u, Ok v => arr_eqb u v | _, _ => false end.
Lemma Qcabs_sq (c : Qc) : rmul (norm_f (F := Qc) c) (norm_f c) = rmul c c.
Proof. cbn. unfold Qcabs. destruct (Qclt_le_dec c 0); [ring|reflexivity]. Qed.

Lemma Qcmx_swap a b c : Qcmx a (Qcmx b c) = Qcmx b (Qcmx a c).
Proof.
  unfold Qcmx. destruct (Qclt_le_dec b c), (Qclt_le_dec a c), (Qclt_le_dec a b), (Qclt_le_dec b a); repeat match goal with |- context [Qclt_le_dec ?u ?v] => destruct (Qclt_le_dec u v) end; try reflexivity;
  unfold Qclt, Qcle in *; try (exfalso; Lqa.lra); apply Qcle_antisym; unfold Qcle; Lqa.lra.
Qed.
#[global] Instance QcMaxSym : MaxSym Qc Qc.
Proof.
  constructor.
  - apply Qcmx_swap.
  - reflexivity.
  - intros c. cbn. assert (N : Qeq (- c)%Qc (- this c)) by (unfold Qcopp, Q2Qc; cbn [this]; apply Qred_correct).
    unfold Qcabs. destruct (Qclt_le_dec c 0) as [H|H], (Qclt_le_dec (- c) 0) as [H'|H']; try reflexivity; try ring; unfold Qclt, Qcle in *; rewrite N in H'; change (this 0%Qc) with 0%Q in *.
    + exfalso. Lqa.lra.
    + apply Qcle_antisym; unfold Qcle; rewrite N; Lqa.lra.
Qed.
