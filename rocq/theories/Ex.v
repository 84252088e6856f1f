(** Concrete instances used by the examples beside the theorems: debug mode, one
    particular hash order, integer coefficients and small algebras. *)
From Coq Require Import QArith.
From Coq Require Export QArith.Qcanon.
From Coq Require Import List.
Import ListNotations.
From Verif Require Export P_Props6 RingQc.
Local Open Scope nat_scope.

(** A debug build. *)
#[global] Instance dbg : Mode := {| checks := true |}.
(** A release build. *)
Definition rel : Mode := {| checks := false |}.
(** Iteration in insertion order. *)
#[global] Instance ho : HashOrder :=
  {| hm_seed := 7; hm_order := fun T _ l => rev l; hm_order_perm := fun T _ l => Permutation_rev l |}.

Definition alg (sg : list tok) : algebra :=
  match declare_algebra sg [] with Some A => A | None => QuaternionAlgebra end.
Notation P1 := Tplus. Notation M1 := Tminus. Notation N1 := Tnull.

Definition sg_e3 := [P1; P1; P1].          (* Euclidean space *)
Definition sg_sta := [P1; M1; M1; M1].     (* space-time *)
Definition sg_pga := [P1; P1; N1].         (* the projective plane *)
Definition sg_11 := [P1; M1].
Definition sg_q := [M1; M1].               (* quaternions *)

Ltac dcl := split; [exists []; reflexivity | apply Nat.ltb_lt; reflexivity].
Ltac vld := unfold valid; cbn; repeat split;
  [apply Nat.ltb_lt; reflexivity | ..]; try reflexivity.
Ltac vlds := unfold valid; cbn; repeat split;
  [apply Nat.ltb_lt; reflexivity | repeat constructor; cbn; intuition discriminate |
   let i := fresh in let c := fresh in let H := fresh in
   intros i c H; cbn in H; repeat (destruct H as [H|H]; [injection H as <- <-; reflexivity|]); destruct H].

Lemma d_e3 : declared sg_e3 (alg sg_e3). Proof. dcl. Qed.
Lemma d_sta : declared sg_sta (alg sg_sta). Proof. dcl. Qed.
Lemma d_pga : declared sg_pga (alg sg_pga). Proof. dcl. Qed.
Lemma d_11 : declared sg_11 (alg sg_11). Proof. dcl. Qed.
Lemma d_q : declared sg_q (alg sg_q). Proof. dcl. Qed.

(** Dense multivectors of [sg_e3] and [sg_pga] with integer coefficients. *)
Definition x3 : store KDense Z := mkArr 3 [1; 2; 0; -3; 0; 5; 0; 7]%Z.
Definition y3 : store KDense Z := mkArr 3 [0; 1; 1; 0; -2; 0; 4; 1]%Z.
Lemma v_x3 : valid (alg sg_e3) x3. Proof. vld. Qed.
Lemma v_y3 : valid (alg sg_e3) y3. Proof. vld. Qed.
Lemma v_x3p : valid (alg sg_pga) x3. Proof. vld. Qed.
Lemma v_y3p : valid (alg sg_pga) y3. Proof. vld. Qed.
(** Sparse ones. *)
Definition xs : store KSparse Z := mkSps 3 8 1 [(5%N, 2%Z); (1%N, 3%Z)].
Definition ys : store KSparse Z := mkSps 3 8 2 [(6%N, 1%Z); (0%N, (-4)%Z); (7%N, 1%Z)].
Lemma v_xs : valid (alg sg_e3) xs. Proof. vlds. Qed.
Lemma v_ys : valid (alg sg_e3) ys. Proof. vlds. Qed.
(** Quaternions. *)
Definition xq : store KQuat Z := (mkQ 1 2 3 4)%Z.
Definition yq : store KQuat Z := (mkQ 2 0 (-1) 5)%Z.
Lemma v_xq : valid (alg sg_q) xq. Proof. reflexivity. Qed.
Lemma v_yq : valid (alg sg_q) yq. Proof. reflexivity. Qed.

Lemma Qc_sq_pos (a : Qc) : (0 <= a * a)%Qc.
Proof.
  unfold Qcle, Qcmult. change (Qred 0 <= Qred (this a * this a))%Q. rewrite !Qred_correct.
  unfold Qle, Qmult. cbn. rewrite Z.mul_1_r. apply Z.square_nonneg.
Qed.
Lemma Qc_real : formally_real Qc.
Proof.
  intros l. enough (G : (0 <= suml (fun a : Qc => rmul a a) l)%Qc /\ (suml (fun a : Qc => rmul a a) l = r0 -> Forall (fun a => a = r0) l)) by apply G.
  pose proof Qc_sq_pos as Sq.
  induction l as [|a l [IH1 IH2]]; cbn [suml]; split; intros; try constructor.
  - cbn. apply Qcle_refl.
  - apply (Qcle_trans _ (0 + 0)%Qc); [apply Qcle_refl|]. apply Qcplus_le_compat; auto.
  - cbn in *. assert (E : (a * a)%Qc = 0%Qc).
    { apply Qcle_antisym; auto. rewrite <- H. rewrite <- (Qcplus_0_r (a * a)%Qc) at 1. apply Qcplus_le_compat; [apply Qcle_refl|exact IH1]. }
    apply Qcmult_integral in E. tauto.
  - apply IH2. cbn in *. assert (E : (a * a)%Qc = 0%Qc).
    { apply Qcle_antisym; auto. rewrite <- H. rewrite <- (Qcplus_0_r (a * a)%Qc) at 1. apply Qcplus_le_compat; [apply Qcle_refl|exact IH1]. }
    rewrite E, Qcplus_0_l in H. exact H.
Qed.
(** A rational from integers. *)
Definition qc (n : Z) (p : positive) : Qc := Q2Qc (n # p).
#[global] Instance ZConj : ConjOps Z := {| rconj := fun z => z |}.

(** Witnesses used by refutations. *)
Lemma mutating_filter :
  (forall i c, In (i, c) (mv_coeff_enumerate xs) -> c <> 0%Z) /\
  let z := sparse_filter_inplace xs (fun _ _ => (0%Z, true)) in
  sparse_coeff_count z = 2 /\ (forall i, (i < 8)%N -> mv_get_by_idx (St := SpsStorage) z i = Ok 0%Z).
Proof.
  split; [|split].
  - intros i c Hi. cbn in Hi. repeat (destruct Hi as [Hi|Hi]; [injection Hi as <- <-; discriminate|]). destruct Hi.
  - reflexivity.
  - intros i Hi. unfold mv_get_by_idx. cbn [st_get SpsStorage]. unfold sps_get. cbn [sparse_filter_inplace sps_map xs flat_map fst snd app hm_get]. destruct (5 =? i)%N, (1 =? i)%N; reflexivity.
Qed.

Lemma approx_zero_prec : let x : store KDense Z := mkArr 2 [1; 2; 3; 4]%Z in
  let NL : NormLt Z Z := {| norm_lt := fun c e => (Z.abs c <? e)%Z |} in
  valid (alg sg_q) x /\ valid (alg sg_q) xq /\
  (forall i, (i < 4)%N -> mv_get_by_idx x i = mv_get_by_idx xq i) /\
  mv_approx_eq x x 0%Z = Ok true /\ mv_approx_eq xq xq 0%Z = Ok false.
Proof.
  cbv zeta. split; [vld|]. split; [exact v_xq|]. split; [|split; reflexivity].
  intros i Hi. destruct i as [|[[p|p|]|[p|p|]|]]; try reflexivity; exfalso; lia.
Qed.

Lemma revm_counterexample : exists (s : store KDense Qc) n n',
  declared [Tplus] (alg [Tplus]) /\ valid (alg [Tplus]) s /\ mv_mag2 (alg [Tplus]) s = Ok n /\ n <> r0 /\
  (p <- (r <- mv_revm (alg [Tplus]) s ;; mv_mul (alg [Tplus]) r s) ;; mv_mag2 (alg [Tplus]) p) = Ok n' /\ n' <> r1.
Proof.
  exists (mkArr 1 [qc 1 1; qc 1 1]). do 2 eexists. split; [dcl|]. split; [vld|].
  split; [vm_compute; reflexivity|]. split; [discriminate|]. split; [vm_compute; reflexivity|]. discriminate.
Qed.
