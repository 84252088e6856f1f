(** Instances for the examples of Props_Conv32.v. *)
From Coq Require Import List.
Import ListNotations.
From Coq Require Import QArith.
From Verif Require Export Ex_FastProd P_Conv32c.
Local Open Scope nat_scope.

(** a / b in single precision. *)
Definition gq (a b : Z) : f32 := f32_of_f64 (fq a b).
Definition c3_x : store KDense f32 := mkArr 3 [gq 1 10; gq 11 10; gq 1 10; gq (-7) 10; gq 3 10; gq 1 3; gq 5 7; gq 9 10].
Lemma v_c3x : valid (alg sg_p11) c3_x. Proof. vld. Qed.
Definition c3_y : store KDense f32 := mkArr 3 [gq 1 3; gq (-1) 10; gq 0 1; gq 3 10; gq 2 7; gq 1 1; gq 0 1; gq 1 9].
Lemma v_c3y : valid (alg sg_p11) c3_y. Proof. vld. Qed.
Definition c3_c : store KDense (cplx f32) := mkArr 2 [mkC (gq 1 10) (gq 2 10); mkC (gq 3 10) (gq (-1) 3); mkC (gq 1 1) (gq 2 7); mkC (gq 7 10) (gq 1 9)].
Lemma v_c3c : valid (alg sg_11) c3_c. Proof. split; [apply Nat.ltb_lt; reflexivity|split; reflexivity]. Qed.
Definition c3_e : store KDense (cplx f32) := mkArr 2 [mkC (gq 1 3) (gq 1 10); mkC (gq 1 7) (gq (-3) 7); mkC (gq 1 1) (gq 2 7); mkC (gq 7 10) (gq 1 5)].
Lemma v_c3e : valid (alg sg_11) c3_e. Proof. split; [apply Nat.ltb_lt; reflexivity|split; reflexivity]. Qed.
(** Whether two floats are the same. *)
Definition f32_same (x y : f32) : bool :=
  match as_flt x, as_flt y with FFin s m e, FFin s' m' e' => Bool.eqb s s' && Pos.eqb m m' && Z.eqb e e' | FZ, FZ => true | _, _ => false end.
Definition f32_ok (x : f32) : bool := SpecFloat.valid_binary 24 128 (to_sf (as_flt x)).
