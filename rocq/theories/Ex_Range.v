(** Double precision instances for the examples of Props_Range.v. *)
From Coq Require Import List.
Import ListNotations.
From Coq Require Import QArith.
From Verif Require Export Ex_Round P_Range3 P_Range4.
Local Open Scope nat_scope.

#[global] Instance F64G : RangeOps flt := flt_range 53 1024.
#[global] Instance F64K : RangeLaws flt := f64_range.

(** 2^e in double precision, for e from -1022 to 1023. *)
Definition f2 (e : Z) : flt := FFin false 4503599627370496 (e - 52).
(** [okay], decided. *)
Definition okb (x : flt) : bool := match x with FZ => true | FFin _ m e => SpecFloat.bounded 53 1024 m e | _ => false end.
Lemma okb_ok x : okb x = true -> okay x.
Proof. destruct x; cbn; auto; discriminate. Qed.
Definition okbs {k : kind} (A : algebra) (x : store k flt) : bool := forallb (fun i => okb (rd x i)) (idxs (a_dim A)).
Lemma okbs_ok {k : kind} A (x : store k flt) : okbs A x = true -> all_okay A x.
Proof. intros Hf i Hi. apply okb_ok. unfold okbs in Hf. rewrite forallb_forall in Hf. apply Hf, in_idxs. exact Hi. Qed.
(** a < b, decided. *)
Definition qltb (a b : Qc) : bool := match Qccompare a b with Lt => true | _ => false end.
Lemma qltb_ok a b : qltb a b = true -> (a < b)%Qc.
Proof. unfold qltb. intros Hq. apply Qclt_alt. destruct (Qccompare a b); congruence. Qed.
Lemma qleb_ok a b : qleb a b = true -> (a <= b)%Qc.
Proof. unfold qleb. intros Hq. apply Qcle_alt. destruct (Qccompare a b); congruence. Qed.
Lemma below_ok d (f : N -> Qc) c : forallb (fun i => qltb (f i) c) (idxs d) = true -> forall i, (i < 2 ^ N.of_nat d)%N -> (f i < c)%Qc.
Proof. intros Hf i Hi. apply qltb_ok. rewrite forallb_forall in Hf. apply (Hf i), in_idxs. exact Hi. Qed.

(** 2^500 + 2^500 e0, 2^501 - 2^400 e1 *)
Definition b_x : store KDense flt := mkArr 2 [f2 500; f2 500; fz 0; fz 0].
Definition b_y : store KDense flt := mkArr 2 [f2 501; fz 0; rneg (f2 400); fz 0].
Lemma v_bx : valid (alg sg_q) b_x. Proof. vld. Qed.
Lemma v_by : valid (alg sg_q) b_y. Proof. vld. Qed.
