(** Integer coefficients for the examples of Props_IntProg.v. *)
From Coq Require Import List ZArith QArith Lia.
Import ListNotations.
From Verif Require Export Ex_Float P_IntFlt P_IntProg3.
Local Open Scope nat_scope.

#[global] Instance I64 : Emb Z flt := int_emb 53 1024.
#[global] Instance ZDivI : DivOps Z := {| rdiv := Z.div |}.

(** [small], decided for a list of bounds. *)
Lemma small_below d (P : N -> Z) t : forallb (fun i => (P i <=? t)%Z) (idxs d) = true -> forall i, (i < 2 ^ N.of_nat d)%N -> (P i <= t)%Z.
Proof. intros Hf i Hi. rewrite forallb_forall in Hf. apply Z.leb_le, Hf, in_idxs. exact Hi. Qed.
Lemma small_list {T} (f : T -> Z) l t : forallb (fun c => (f c <=? t)%Z) l = true -> forall c, In c l -> (f c <= t)%Z.
Proof. intros Hf c Hc. rewrite forallb_forall in Hf. apply Z.leb_le, Hf, Hc. Qed.
Ltac small_all := cbn [small]; repeat match goal with
  | |- _ /\ _ => split | |- True => exact I
  | |- (_ <= _)%Z => apply Z.leb_le; vm_compute; reflexivity
  | |- forall c, In c _ -> _ => apply small_list; vm_compute; reflexivity
  | |- forall i, (_ < _)%N -> _ => apply small_below; vm_compute; reflexivity end.

(** Three multivectors of the Euclidean space with integer coefficients up to 5000. *)
Definition i_x : store KDense flt := mkArr 3 (map fz [1; -4999; 3; 0; 17; 2; 0; 5000]%Z).
Definition i_y : store KDense flt := mkArr 3 (map fz [12; 7; -3; 4096; 0; 0; 1; -5000]%Z).
Definition i_z : store KDense flt := mkArr 3 (map fz [-5; 4321; 2; 0; 0; 9; 777; 5]%Z).
Lemma v_ix : valid (alg sg_e3) i_x. Proof. vld. Qed.
Lemma v_iy : valid (alg sg_e3) i_y. Proof. vld. Qed.
Lemma v_iz : valid (alg sg_e3) i_z. Proof. vld. Qed.
Lemma holds_list (l : list Z) B : length l = 8 -> forallb (fun c => (Z.abs c <=? B)%Z) l = true ->
  holds_upto (R := Z) (alg sg_e3) B (mkArr 3 (map fz l) : store KDense flt).
Proof.
  intros Hl Hf i Hi. exists (nth (N.to_nat i) l 0%Z). rewrite forallb_forall in Hf. cbn [a_dim alg] in Hi.
  assert (Hn : N.to_nat i < 8) by (change (i < 8)%N in Hi; lia).
  split; [|apply Z.leb_le, Hf, nth_In; rewrite Hl; exact Hn].
  destruct l as [|c0 [|c1 [|c2 [|c3 [|c4 [|c5 [|c6 [|c7 [|]]]]]]]]]; cbn [length] in Hl; try discriminate Hl.
  replace i with (N.of_nat (N.to_nat i)) by apply N2Nat.id. destruct (N.to_nat i) as [|[|[|[|[|[|[|[|n]]]]]]]]; try reflexivity.
  lia.
Qed.
Lemma h_ix : holds_upto (R := Z) (alg sg_e3) 5000 i_x. Proof. apply holds_list; reflexivity. Qed.
Lemma h_iy : holds_upto (R := Z) (alg sg_e3) 5000 i_y. Proof. apply holds_list; reflexivity. Qed.
Lemma h_iz : holds_upto (R := Z) (alg sg_e3) 5000 i_z. Proof. apply holds_list; reflexivity. Qed.

(** [f32] has 24 bits. *)
Definition fz32 (z : Z) : flt := flt_of_Z 24 128 z.

(** Exact integers, all four theorems on one operation in one statement. *)
Lemma ints_exact prec emax : (1 < prec < emax)%Z -> forall a b, (Z.abs a <= 2 ^ prec)%Z -> (Z.abs b <= 2 ^ prec)%Z ->
  let O := flt_ops prec emax in let f := flt_of_Z prec emax in
  flt_val (f a) = Q2Qc (inject_Z a) /\ @rneg flt O (f a) = f (- a)%Z /\ @reqb flt O (f a) (f b) = (a =? b)%Z /\
  ((Z.abs (a + b) <= 2 ^ prec)%Z -> @radd flt O (f a) (f b) = f (a + b)%Z) /\
  ((Z.abs (a - b) <= 2 ^ prec)%Z -> @rsub flt O (f a) (f b) = f (a - b)%Z) /\
  ((Z.abs (a * b) <= 2 ^ prec)%Z -> @rmul flt O (f a) (f b) = f (a * b)%Z).
Proof.
  intros [Hp He] a b Ha Hb. cbv zeta.
  split; [apply ofz_val; auto|]. split; [apply ofz_neg|]. split; [apply ofz_eqb; auto|].
  split; [intros; apply ofz_add; auto|]. split.
  - intros Hs. rewrite (@n_sub_def flt (flt_ops prec emax) (flt_laws prec emax)), ofz_neg. rewrite <- Z.add_opp_r in *. apply ofz_add; auto. rewrite Z.abs_opp. exact Hb.
  - intros Hm. apply ofz_mul; auto. rewrite <- Z.abs_mul. exact Hm.
Qed.
