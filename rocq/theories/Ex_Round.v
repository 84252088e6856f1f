(** Double precision instances for the examples of Props_Round.v. *)
From Coq Require Import List.
Import ListNotations.
From Coq Require Import QArith.
From Verif Require Export Ex_Float P_Round2 P_Round4.
Local Open Scope nat_scope.

#[global] Instance F64V : RoundOps flt := flt_round 53 1024.
#[global] Instance F64R : RoundLaws flt := f64_rounds.

(** a / b in double precision. *)
Definition fq (a b : Z) : flt := rdiv (fz a) (fz b).
(** a <= b, decided. *)
Definition qleb (a b : Qc) : bool := match Qccompare a b with Gt => false | _ => true end.
(** A rational number. *)
Definition qz (a b : Z) : Qc := (Q2Qc (inject_Z a) / Q2Qc (inject_Z b))%Qc.

(** 1/10 + e0/5 and 3/10 + e0/10 *)
Definition r_x : store KDense flt := mkArr 2 [fq 1 10; fq 1 5; fz 0; fz 0].
Definition r_y : store KDense flt := mkArr 2 [fq 3 10; fq 1 10; fz 0; fz 0].
Lemma v_rx : valid (alg sg_q) r_x. Proof. vld. Qed.
Lemma v_ry : valid (alg sg_q) r_y. Proof. vld. Qed.
Definition r_xs (seed : nat) : store KSparse flt := mkSps 3 8 seed [(1%N, fq 1 10); (2%N, fq 1 10); (4%N, fq 3 10)].
Lemma v_rxs n : valid (alg sg_e3) (r_xs n). Proof. vlds. Qed.
Definition r_xd : store KDense flt := mkArr 3 [fz 0; fq 1 10; fq 1 10; fz 0; fq 3 10; fz 0; fz 0; fz 0].
Lemma v_rxd : valid (alg sg_e3) r_xd. Proof. vld. Qed.

(** Six dimensions: the dense wedge product splits its arguments.  The first three and last three coefficients are tenths, the others 0. *)
Definition sg_6 := [P1; P1; P1; P1; P1; P1].
Lemma d_6 : declared sg_6 (alg sg_6). Proof. dcl. Qed.
Definition r_6 : store KDense flt := mkArr 6 ([fq 1 10; fq 2 10; fq 3 10] ++ repeat FZ 58 ++ [fq 4 10; fq 5 10; fq 6 10]).
Lemma v_r6 : valid (alg sg_6) r_6. Proof. vld. Qed.
(** Two bivectors, with rounded and with rational coefficients. *)
Definition r_bd : store KDense flt := mkArr 3 [fz 0; fz 0; fz 0; fq 1 10; fz 0; fq 1 5; fq 7 10; fz 0].
Definition r_bq : store KDense Qc := mkArr 3 (map val [fz 0; fz 0; fz 0; fq 1 10; fz 0; fq 1 5; fq 7 10; fz 0]).
Definition r_cd : store KDense flt := mkArr 3 [fz 0; fz 0; fz 0; fq 3 10; fz 0; fq 1 10; fq 1 10; fz 0].
Definition r_cq : store KDense Qc := mkArr 3 (map val [fz 0; fz 0; fz 0; fq 3 10; fz 0; fq 1 10; fq 1 10; fz 0]).
Lemma v_bd : valid (alg sg_e3) r_bd. Proof. vld. Qed.
Lemma v_cd : valid (alg sg_e3) r_cd. Proof. vld. Qed.
Lemma v_bq : valid (alg sg_e3) r_bq. Proof. vld. Qed.
Lemma v_cq : valid (alg sg_e3) r_cq. Proof. vld. Qed.

(** Finiteness of every step, decided. *)
Definition finb (k : kind) (A : algebra) (r : res (store k flt)) : bool :=
  match r with Ok z => forallb (fun i => finite (rd z i)) (idxs (a_dim A)) | _ => true end.
Lemma finb_ok k A r : finb k A r = true -> all_finite k A r.
Proof. destruct r as [z| |]; cbn; auto. intros Hf i Hi. rewrite forallb_forall in Hf. apply Hf, in_idxs. exact Hi. Qed.
Ltac fin_all := cbn [fine]; repeat match goal with |- _ /\ _ => split | |- True => exact I | |- all_finite _ _ _ => apply finb_ok; vm_compute; reflexivity end.
