(** Property C86: duality as the Hodge star, and the unit pseudoscalar.  [ps A] is the blade
    of all basis vectors with coefficient 1. *)
From Verif Require Import Ex_Indep Spec_Hodge P_Hodge.
From Coq Require Import QArith.
Local Open Scope nat_scope.

(** C86. The top coefficient of y.dual() ^ x, and of x ^ y.undual(), is the sum of the products
    of the corresponding coefficients. *)
Theorem C86_top {T} {RO : RingOps T} {L : RingLaws T} {m : Mode} {H : HashOrder} (k : kind) sg A (x y : store k T) :
  declared sg A -> k <> KQuat -> valid A x -> valid A y ->
  exists z w, (u <- mv_dual A y ;; k_wedge k A u x) = Ok z /\ (u <- mv_undual A y ;; k_wedge k A x u) = Ok w /\
    mv_get_by_idx z (2 ^ N.of_nat (a_dim A) - 1) = Ok (pairing A y x) /\
    mv_get_by_idx w (2 ^ N.of_nat (a_dim A) - 1) = Ok (pairing A x y).
Proof. exact (fun D => c86_top k sg A D x y). Qed.
Print Assumptions C86_top.
Example C86_top_ex := C86_top KDense sg_pga (alg sg_pga) ln3 ln1 d_pga ltac:(discriminate) ln3_valid (Forall_inv vecs2).
Example C86_top_ne : this (pairing (alg sg_pga) ln3 ln1) <> 0%Q. Proof. vm_compute. discriminate. Qed.

(** For multivectors of one grade there is nothing but that pseudoscalar. *)
Theorem C86_pairing {T} {RO : RingOps T} {L : RingLaws T} {m : Mode} {H : HashOrder} (k : kind) sg A (x y : store k T) r :
  declared sg A -> k <> KQuat -> supports k A -> valid A x -> valid A y -> of_grade A r x -> of_grade A r y ->
  agree A (u <- mv_dual A y ;; k_wedge k A u x) (i <- ps A ;; mv_scale A i (pairing A y x)) /\
  agree A (u <- mv_undual A y ;; k_wedge k A x u) (i <- ps A ;; mv_scale A i (pairing A x y)).
Proof. exact (fun D => c86_pairing k sg A D x y r). Qed.
Print Assumptions C86_pairing.
Example C86_pairing_ex := C86_pairing KDense sg_pga (alg sg_pga) ln3 ln1 1 d_pga ltac:(discriminate) I ln3_valid (Forall_inv vecs2) ln3_grade (Forall_inv vecs2g).

(** Without null basis vectors the dual is the product of the pseudoscalar and the reverse, with
    the basis vectors squaring to -1 flipped. *)
Theorem C86_star {T} {RO : RingOps T} {L : RingLaws T} {m : Mode} {H : HashOrder} (k : kind) sg A (x : store k T) :
  declared sg A -> ~ In Tnull sg -> supports k A -> valid A x ->
  agree A (mv_dual A x) (i <- ps A ;; r <- mv_rev A x ;; s <- mv_flip_subspace A r (a_imag A) ;; mv_mul A i s).
Proof. exact (fun D => c86_star k sg A D x). Qed.
Print Assumptions C86_star.
Example C86_star_ex := C86_star KDense [Tminus; Tplus] (alg [Tminus; Tplus]) st4 ltac:(dcl) ltac:(intros [E|[E|[]]]; discriminate) I ltac:(vld).

(** The pseudoscalar commutes with everything in odd dimension and with even multivectors in even
    dimension, where it anticommutes with odd ones. *)
Theorem C86_commute {T} {RO : RingOps T} {L : RingLaws T} {m : Mode} {H : HashOrder} (k : kind) sg A (x : store k T) :
  declared sg A -> supports k A -> valid A x ->
  agree A (i <- ps A ;; mv_mul A i x) (i <- ps A ;; y <- (if Nat.odd (length sg) then Ok x else mv_flip A x) ;; mv_mul A y i).
Proof. exact (fun D Hs Hx => eq_ind (a_dim A) (fun n => agree A _ (i <- ps A ;; y <- (if Nat.odd n then Ok x else mv_flip A x) ;; mv_mul A y i)) (c86_commute k sg A D x Hs Hx) (length sg) (declared_dim sg A D)). Qed.
Print Assumptions C86_commute.
Example C86_commute_ex := C86_commute KDense sg_pga (alg sg_pga) ln3 d_pga I ln3_valid.
Example C86_commute_ex2 := C86_commute KDense [Tminus; Tplus] (alg [Tminus; Tplus]) st4 ltac:(dcl) I ltac:(vld).

(** Its square. *)
Theorem C86_square {T} {RO : RingOps T} {L : RingLaws T} {m : Mode} {H : HashOrder} (k : kind) sg A :
  declared sg A -> supports k A ->
  agree A (i <- (ps A : res (store k T)) ;; mv_mul A i i) (mv_from_scalar A (ps_square sg)).
Proof. exact (fun D => c86_square k sg A D). Qed.
Print Assumptions C86_square.
Example C86_square_ex := C86_square (T := Qc) KDense sg_e3 (alg sg_e3) d_e3 I.
Example C86_square_neg : this (ps_square (T := Qc) sg_e3) = (-1)%Q /\ this (ps_square (T := Qc) [Tminus; Tplus]) = 1%Q /\ this (ps_square (T := Qc) sg_pga) = 0%Q.
Proof. vm_compute. auto. Qed.
