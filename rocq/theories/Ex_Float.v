(** Double precision instances for the examples of Props_Float.v. *)
From Coq Require Import List.
Import ListNotations.
From Verif Require Export Ex M_Float P_F64 P_Float.
Local Open Scope nat_scope.

(** [f64] coefficients. *)
#[global] Instance F64O : RingOps flt := F64.
#[global] Instance F64L : NumLaws flt (O := F64O) := flt_laws 53 1024.
#[global] Instance F64D : DivOps flt := flt_div 53 1024.
#[global] Instance F64C : ConjOps flt := {| rconj := fun c => c |}.
(** The float nearest to an integer. *)
Definition fz (z : Z) : flt := of_sf (SpecFloat.binary_normalize 53 1024 z 0 false).

(** A hash map whose iteration order depends on its seed. *)
Definition ho2 : HashOrder.
Proof.
  refine {| hm_seed := 0; hm_order := fun T s l => if Nat.even s then l else rev l |}.
  intros T s l. destruct (Nat.even s); [apply Permutation_refl|apply Permutation_rev].
Defined.

Definition fx : store KDense flt := mkArr 3 [fz 1; FNaN; fz 0; FInf true; fz 0; fz 5; fz (2 ^ 60); fz 7].
Lemma v_fx : valid (alg sg_e3) fx. Proof. vld. Qed.
(** 2^53 e0 + e1 - 2^53 e2 under two seeds. *)
Definition fs (seed : nat) : store KSparse flt := mkSps 3 8 seed [(1%N, fz (2 ^ 53)); (2%N, fz 1); (4%N, fz (- 2 ^ 53))].
Lemma v_fs n : valid (alg sg_e3) (fs n). Proof. vlds. Qed.
Definition fo : store KSparse flt := mkSps 3 8 0 [(1%N, fz 1); (2%N, fz 1); (4%N, fz 1)].
Lemma v_fo : valid (alg sg_e3) fo. Proof. vlds. Qed.

Lemma order_matters : let H := ho2 in
  declared sg_e3 (alg sg_e3) /\ valid (alg sg_e3) (fs 0) /\ valid (alg sg_e3) (fs 1) /\ valid (alg sg_e3) fo /\
  mv_eqb (fs 0) (fs 1) = true /\
  (forall i, (i < 8)%N -> mv_get_by_idx (fs 0) i = mv_get_by_idx (fs 1) i) /\
  (z <- mv_mul (alg sg_e3) (fs 0) fo ;; mv_get_by_idx z 0) = Ok (fz 0) /\
  (z <- mv_mul (alg sg_e3) (fs 1) fo ;; mv_get_by_idx z 0) = Ok (fz 1) /\ fz 0 <> fz 1.
Proof.
  cbv zeta. split; [exact d_e3|]. split; [apply v_fs|]. split; [apply v_fs|]. split; [exact v_fo|].
  split; [vm_compute; reflexivity|]. split; [intros i _; reflexivity|].
  split; [vm_compute; reflexivity|]. split; [vm_compute; reflexivity|]. vm_compute. discriminate.
Qed.

Lemma scale_inf :
  declared sg_q (alg sg_q) /\
  let x : store KDense flt := mkArr 2 [fz 1; fz 0; fz 0; fz 0] in
  let q : store KQuat flt := mkQ (fz 1) (fz 0) (fz 0) (fz 0) in
  valid (alg sg_q) x /\ valid (alg sg_q) q /\
  (forall i, (i < 4)%N -> mv_get_by_idx x i = mv_get_by_idx q i) /\
  (z <- mv_scale (alg sg_q) x (FInf false) ;; mv_get_by_idx z 1) = Ok (fz 0) /\
  (z <- mv_scale (alg sg_q) q (FInf false) ;; mv_get_by_idx z 1) = Ok FNaN.
Proof.
  split; [exact d_q|]. cbv zeta. split; [vld|]. split; [reflexivity|]. split; [|split; vm_compute; reflexivity].
  intros i Hi. destruct i as [|[[p|p|]|[p|p|]|]]; try reflexivity; exfalso; lia.
Qed.
