(** Concrete instances for the examples about the transform. *)
From Verif Require Export Ex P_Transform Spec_Repr.
#[global] Instance QcReal : FormallyReal Qc := {| sum_sq := Qc_real |}.
(** Arrays of Cl(2) and Cl(3) with rational coefficients. *)
Definition a2 : list Qc := [qc 1 1; qc 2 1; qc 0 1; qc (-3) 2].
Definition b2 : list Qc := [qc 0 1; qc 1 1; qc 5 1; qc 1 1].
Definition a3 : list Qc := a2 ++ b2.
Definition cq (a b c d : Z) : cplx Qc := mkC (qc a (Z.to_pos b)) (qc c (Z.to_pos d)).
(** Both computations return a value, and the test accepts the two values. *)
Definition ok2 {X} (e : X -> X -> bool) (a b : res X) : bool :=
  match a, b with Ok u, Ok v => e u v | _, _ => false end.
(** The squared norm orders the complex numbers as the norm does. *)
#[global] Instance QcNorm : NormCmp (cplx Qc) Qc := {|
  nrm := fun z => radd (rmul (c_re z) (c_re z)) (rmul (c_im z) (c_im z));
  n_gt := fun a b => if Qclt_le_dec b a then true else false;
  n_is0 := fun a => ris0 a |}.
#[global] Instance QcNormZero : NormZero (cplx Qc) Qc. Proof. constructor. reflexivity. Qed.
Lemma Qc_norm0 (z : cplx Qc) : nrm z = (r0 : Qc) -> z = r0.
Proof.
  intros E. assert (F : Forall (fun a : Qc => a = r0) [c_re z; c_im z]).
  { apply Qc_real. cbn [suml]. etransitivity; [|exact E]. cbn [nrm QcNorm]. rewrite add_0_r. reflexivity. }
  inversion F as [|? ? F1 F2]; subst. inversion F2 as [|? ? F3 F4]; subst. apply cplx_ext; assumption.
Qed.
Lemma Qc_norm_pos (z : cplx Qc) : (0 <= nrm z)%Qc.
Proof.
  cbn. apply (Qcle_trans _ (0 + 0)%Qc); [apply Qcle_refl|]. apply Qcplus_le_compat; apply Qc_sq_pos.
Qed.
#[global] Instance QcNormLaws : NormLaws (cplx Qc) Qc.
Proof.
  constructor.
  - intros y. cbn [n_gt QcNorm]. destruct (Qclt_le_dec (nrm y) (nrm r0)) as [H|]; [|reflexivity]. exfalso. apply (Qclt_not_le _ _ H). apply Qc_norm_pos.
  - intros x H. apply Qc_norm0. apply is0_spec. exact H.
  - intros x y H G. apply Qc_norm0. apply is0_spec in H. cbn [n_gt QcNorm] in G. destruct (Qclt_le_dec (nrm x) (nrm y)) as [|Hle]; [discriminate|].
    rewrite H in Hle. apply Qcle_antisym; [exact Hle|apply Qc_norm_pos].
Qed.
