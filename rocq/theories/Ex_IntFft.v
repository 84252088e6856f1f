(** Integer coefficients for the examples of Props_IntFft.v. *)
From Coq Require Import List ZArith.
Import ListNotations.
From Verif Require Export Ex_IntProg Ex_FastProd P_IntFft6.
Local Open Scope nat_scope.

(** The coefficient function with the given values. *)
Definition zf (l : list Z) (i : N) : Z := nth (N.to_nat i) l 0%Z.
Definition gf (l : list (cplx Z)) (i : N) : cplx Z := nth (N.to_nat i) l (mkC 0 0)%Z.
Lemma rd_below {S} {P : N -> S -> Prop} d (f : N -> S) : Forall (fun i => P i (f i)) (idxs d) -> forall i, (i < 2 ^ N.of_nat d)%N -> P i (f i).
Proof. intros Hf i Hi. rewrite Forall_forall in Hf. apply Hf, in_idxs. exact Hi. Qed.

(** Cl(1,1,1): numbers of up to fifteen digits, and factors of up to eight and seven. *)
Definition l_a : list Z := [123456789012345; -1; 998877665544332; 0; 7; -500000000000001; 65536; 42]%Z.
Definition l_b : list Z := [12345678; -1; 2; 0; 7; -5000001; 65536; 3]%Z.
Definition l_c : list Z := [-9; 1234567; 0; 31; 8; 70001; -4; 999999]%Z.
Definition j_a : store KDense flt := mkArr 3 (map fz l_a).
Definition j_b : store KDense flt := mkArr 3 (map fz l_b).
Definition j_c : store KDense flt := mkArr 3 (map fz l_c).
Lemma v_ja : valid (alg sg_p11) j_a. Proof. vld. Qed.
Lemma v_jb : valid (alg sg_p11) j_b. Proof. vld. Qed.
Lemma v_jc : valid (alg sg_p11) j_c. Proof. vld. Qed.
Lemma r_ja i : (i < 8)%N -> rd j_a i = fz (zf l_a i). Proof. revert i. apply (rd_below (P := fun i _ => rd j_a i = fz (zf l_a i)) 3 (fun _ => tt)). repeat constructor. Qed.
Lemma r_jb i : (i < 8)%N -> rd j_b i = fz (zf l_b i). Proof. revert i. apply (rd_below (P := fun i _ => rd j_b i = fz (zf l_b i)) 3 (fun _ => tt)). repeat constructor. Qed.
Lemma r_jc i : (i < 8)%N -> rd j_c i = fz (zf l_c i). Proof. revert i. apply (rd_below (P := fun i _ => rd j_c i = fz (zf l_c i)) 3 (fun _ => tt)). repeat constructor. Qed.

(** Gaussian integers in Cl(1,1). *)
Definition gz (a b : Z) : cplx flt := mkC (fz a) (fz b).
Definition l_g : list (cplx Z) := [mkC 3 (-1000000); mkC 0 77; mkC 5 5; mkC (-123456) 2]%Z.
Definition l_h : list (cplx Z) := [mkC 1 1; mkC (-70000) 1; mkC 0 0; mkC 314159 (-26535)]%Z.
Definition j_g : store KDense (cplx flt) := mkArr 2 (map (fun c => gz (c_re c) (c_im c)) l_g).
Definition j_h : store KDense (cplx flt) := mkArr 2 (map (fun c => gz (c_re c) (c_im c)) l_h).
Lemma v_jg : valid (alg sg_11) j_g. Proof. split; [apply Nat.ltb_lt; reflexivity|split; reflexivity]. Qed.
Lemma v_jh : valid (alg sg_11) j_h. Proof. split; [apply Nat.ltb_lt; reflexivity|split; reflexivity]. Qed.
Lemma r_jg i : (i < 4)%N -> rd j_g i = gz (c_re (gf l_g i)) (c_im (gf l_g i)). Proof. revert i. apply (rd_below (P := fun i _ => rd j_g i = gz (c_re (gf l_g i)) (c_im (gf l_g i))) 2 (fun _ => tt)). repeat constructor. Qed.
Lemma r_jh i : (i < 4)%N -> rd j_h i = gz (c_re (gf l_h i)) (c_im (gf l_h i)). Proof. revert i. apply (rd_below (P := fun i _ => rd j_h i = gz (c_re (gf l_h i)) (c_im (gf l_h i))) 2 (fun _ => tt)). repeat constructor. Qed.

(** (a + b) c - b (-c) in Cl(1,1,1), with coefficients up to 99. *)
Definition t_a : list Z := [3; -1; 0; 0; 7; 2; 0; 99]%Z.
Definition t_b : list Z := [0; 50; 1; -8; 0; 0; 6; 1]%Z.
Definition t_c : list Z := [-9; 1; 0; 31; 8; 0; -4; 2]%Z.
Definition t_e : texpr := TSub (TMul (TAdd (TIn t_a) (TIn t_b)) (TIn t_c)) (TMul (TIn t_b) (TNeg (TIn t_c))).
