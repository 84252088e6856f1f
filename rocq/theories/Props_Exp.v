(** Properties C54, C58, C59 and C66: the exponential, the norm of quaternions.  F stands for the exact real numbers, T for the
    coefficient type; [fuel] bounds the loop iterations, and running out of it is a panic. *)
From Verif Require Import Ex_Exp Spec_Exp P_Exp P_ExpSym.
Local Open Scope nat_scope.

(** C54. exp(x) is the c-th power of the Taylor polynomial of degree 18 at x/c, where c is an
    upper bound of 1, of the norms of the coefficients and of the magnitude; the loop stops by
    itself after 18 iterations. *)
Theorem C54_taylor {T F} {RO : RingOps T} {L : RingLaws T} {RF : RingOps F} {LF : RingLaws F} {CF : CommLaws F}
  {DV : DivOps F} {FL : FieldLaws F} {FRl : FormallyReal F} {EO : ExpOps F} {EL : EpsLaws F} {ML : MaxLaws F}
  {NF : NormF T F} {FF : FromF T F} {m : Mode} {H : HashOrder} (k : kind) sg A (x : store k T) mg fuel :
  declared sg A -> valid A x -> mv_mag2 A x = Ok mg -> 18 < fuel ->
  exists c : F, f_le r1 c /\ (forall i, (i < pow2 (a_dim A))%N -> rd x i <> r0 -> f_le (norm_f (rd x i)) c) /\ f_le (e_sqrt (norm_f mg)) c /\
  agree A (mv_exp (F := F) A fuel x)
    (y <- mv_scale A x (from_f (rdiv r1 c)) ;; t <- taylor (F := F) A y 18 ;; mv_pow A t (e_usize c)).
Proof. exact (fun D Hx Em Hf => c54_taylor sg A D fuel x mg Hx Hf Em). Qed.
Print Assumptions C54_taylor.
(** e0 - 3/2 e1 e0 in Cl(1,1), of squared magnitude -5/4: c is at least 3/2. *)
Example C54_taylor_ex : let x : store KDense Qc := mkArr 2 [qc 0 1; qc 1 1; qc 0 1; qc (-3) 2] in let A := alg sg_11 in
  exists c : Qc, f_le (qc 3 2) c /\ agree A (mv_exp (F := Qc) A 19 x)
    (y <- mv_scale A x (from_f (rdiv r1 c)) ;; t <- taylor (F := Qc) A y 18 ;; mv_pow A t (e_usize c)).
Proof.
  cbv zeta. destruct (C54_taylor (F := Qc) KDense sg_11 (alg sg_11) (mkArr 2 [qc 0 1; qc 1 1; qc 0 1; qc (-3) 2]) (qc (-5) 4) 19) as (c & _ & B & _ & G);
    [dcl|vld|vm_compute; reflexivity|lia|].
  exists c. split; [|exact G]. assert (E := B 3%N eq_refl ltac:(discriminate)). replace (qc 3 2) with (norm_f (T := Qc) (F := Qc) (qc (-3) 2)); [exact E|].
  apply Qc_is_canon. reflexivity.
Qed.

(** exp(0) = 1. *)
Theorem C54_zero {T F} {RO : RingOps T} {L : RingLaws T} {RF : RingOps F} {LF : RingLaws F} {CF : CommLaws F}
  {DV : DivOps F} {FL : FieldLaws F} {FRl : FormallyReal F} {EO : ExpOps F} {EL : EpsLaws F}
  {NF : NormF T F} {FF : FromF T F} {m : Mode} {H : HashOrder} (k : kind) sg A fuel :
  declared sg A -> supports k A -> 18 < fuel ->
  agree A (z <- (mv_zero A : res (store k T)) ;; mv_exp (F := F) A fuel z) (mv_one A).
Proof. exact (fun D Hs Hf => c54_zero sg A D fuel (supports_dim sg A k D Hs) Hf). Qed.
Print Assumptions C54_zero.
Example C54_zero_ex : let A := alg sg_pga in
  agree A (z <- (mv_zero A : res (store KSparse Qc)) ;; mv_exp (F := Qc) A 19 z) (mv_one A).
Proof. cbv zeta. apply (C54_zero (F := Qc) KSparse sg_pga); [dcl|exact I|lia]. Qed.

(** The same in the transform domain, on every array of the documented shape. *)
Theorem C54_fft_taylor {F} {RF : RingOps F} {LF : RingLaws F} {CF : CommLaws F}
  {DV : DivOps F} {FL : FieldLaws F} {FRl : FormallyReal F} {EO : ExpOps F} {EL : EpsLaws F} {ML : MaxLaws F} {m : Mode} {H : HashOrder}
  sg A (a : fftrepr F) fuel :
  declared sg A -> length sg < 63 -> repr_shape sg a -> 18 < fuel ->
  exists (c : F) mg, fr_mag2 A a = Ok mg /\
  f_le r1 c /\ (forall mt e, In mt (t_mats a) -> In e (m_data mt) -> f_le (e_norm e) c) /\ f_le (e_sqrt (e_norm mg)) c /\
  both_ok (fr_exp A fuel a) (t <- taylor_fft A (fr_div_r a c) 18 ;; fr_pow A t (e_usize c)).
Proof. exact (fun D Hl Ha Hf => c54_fft sg A D Hl fuel a Ha Hf). Qed.
Print Assumptions C54_fft_taylor.
Example C54_fft_taylor_ex : let a := mkA3 2 2 [mkMat 2 2 [cq 1 1 0 1; cq 0 1 0 1; cq 1 1 0 1; cq 1 1 (-1) 2]; mkMat 2 2 [cq 0 1 0 1; cq 1 1 0 1; cq 1 2 0 1; cq 1 1 0 1]] in
  exists c : Qc, both_ok (fr_exp (alg sg_pga) 19 a) (t <- taylor_fft (alg sg_pga) (fr_div_r a c) 18 ;; fr_pow (alg sg_pga) t (e_usize c)).
Proof.
  cbv zeta. destruct (C54_fft_taylor (F := Qc) sg_pga (alg sg_pga) (mkA3 2 2 [mkMat 2 2 [cq 1 1 0 1; cq 0 1 0 1; cq 1 1 0 1; cq 1 1 (-1) 2]; mkMat 2 2 [cq 0 1 0 1; cq 1 1 0 1; cq 1 2 0 1; cq 1 1 0 1]]) 19)
    as (c & mg & _ & _ & _ & _ & G); [dcl|cbn; lia|split; [repeat constructor|reflexivity]|lia|].
  exists c. exact G.
Qed.

Theorem C54_fft_zero {F} {RF : RingOps F} {LF : RingLaws F} {CF : CommLaws F}
  {DV : DivOps F} {FL : FieldLaws F} {FRl : FormallyReal F} {EO : ExpOps F} {EL : EpsLaws F} {ML : MaxLaws F} {m : Mode} {H : HashOrder}
  sg A fuel : declared sg A -> length sg < 63 -> 18 < fuel ->
  both_ok (z <- fr_zero A ;; fr_exp A fuel z) (fr_one (F := F) A).
Proof. exact (fun D Hl Hf => c54_fft_zero sg A D Hl fuel Hf). Qed.
Print Assumptions C54_fft_zero.

Example C54_ex : let x : store KDense Qc := mkArr 2 [qc 0 1; qc 1 1; qc 0 1; qc (-3) 2] in let A := alg sg_11 in
  declared sg_11 A /\ valid A x /\ supports KDense A /\
  aeq (mv_exp (F := Qc) A 19 x) (y <- mv_scale A x (qc 1 2) ;; t <- taylor (F := Qc) A y 18 ;; mv_pow A t 2) = true /\
  aeq (mv_exp (F := Qc) A 19 x) (mv_one A) = false /\ mv_exp (F := Qc) A 18 x = Panic.
Proof. cbv zeta. split; [dcl|]. split; [vld|]. split; [exact I|]. split; [vm_compute; reflexivity|]. split; vm_compute; reflexivity. Qed.
Example C54_fft_ex : let r := mkA3 2 2 [mkMat 2 2 [cq 1 1 0 1; cq 0 1 0 1; cq 1 1 0 1; cq 1 1 (-1) 2]; mkMat 2 2 [cq 0 1 0 1; cq 1 1 0 1; cq 1 2 0 1; cq 1 1 0 1]] in
  repr_shape sg_pga r /\ ok2 (fr_eqb (F := Qc)) (fr_exp (alg sg_pga) 19 r) (fr_one (alg sg_pga)) = false.
Proof. cbv zeta. split; [split; [repeat constructor|reflexivity]|]. vm_compute; reflexivity. Qed.

(** C58. If x*x = 0 then exp(x) = 1 + x exactly (the hypothesis on c says that the scale fits
    into a usize). *)
Theorem C58_nilpotent {T F} {RO : RingOps T} {L : RingLaws T} {CT : CommLaws T} {RF : RingOps F} {LF : RingLaws F} {CF : CommLaws F}
  {DV : DivOps F} {FL : FieldLaws F} {FRl : FormallyReal F} {EO : ExpOps F} {EL : EpsLaws F} {ML : MaxLaws F}
  {NF : NormF T F} {FF : FromF T F} {FRM : FromLaws T F} {m : Mode} {H : HashOrder} (k : kind) sg A (x : store k T) (c : F) fuel :
  declared sg A -> valid A x -> agree A (mv_mul A x x) (mv_zero A) ->
  mv_exp_scale A x = Ok c -> nat_f (e_usize c) = c -> 18 < fuel ->
  agree A (mv_exp (F := F) A fuel x) (o <- mv_one A ;; mv_add o x).
Proof. exact (fun D Hx Hn Ec Hm Hf => c58_nil sg A D fuel x c Hx Hf Hn Ec Hm). Qed.
Print Assumptions C58_nilpotent.
Example C58_nilpotent_ex : let x : store KDense Qc := mkArr 2 [qc 0 1; qc 0 1; qc 5 1; qc 0 1] in let A := alg [P1; N1] in
  agree A (mv_exp (F := Qc) A 19 x) (o <- mv_one A ;; mv_add o x).
Proof.
  cbv zeta. eapply (C58_nilpotent (F := Qc) KDense [P1; N1] _ _ (qc 5 1)); [dcl|vld| | | |lia].
  - do 2 eexists. split; [vm_compute; reflexivity|]. split; [vm_compute; reflexivity|]. split; [vld|]. split; [vld|]. split; [vm_compute; reflexivity|].
    intros i Hi. change (i < 4)%N in Hi. apply Qc_is_canon. destruct i as [|[[p|p|]|[p|p|]|]]; try reflexivity; exfalso; lia.
  - vm_compute. reflexivity.
  - apply Qc_is_canon. vm_compute. reflexivity.
Qed.

(** x commutes with exp(x). *)
Theorem C58_commutes {T F} {RO : RingOps T} {L : RingLaws T} {CT : CommLaws T} {RF : RingOps F} {LF : RingLaws F} {CF : CommLaws F}
  {DV : DivOps F} {FL : FieldLaws F} {FRl : FormallyReal F} {EO : ExpOps F} {EL : EpsLaws F}
  {NF : NormF T F} {FF : FromF T F} {m : Mode} {H : HashOrder} (k : kind) sg A (x : store k T) fuel :
  declared sg A -> valid A x -> 18 < fuel ->
  agree A (e <- mv_exp (F := F) A fuel x ;; mv_mul A x e) (e <- mv_exp (F := F) A fuel x ;; mv_mul A e x).
Proof. exact (fun D Hx Hf => c58_commutes sg A D fuel x Hx Hf). Qed.
Print Assumptions C58_commutes.

Example C58_ex : let x : store KDense Qc := mkArr 3 [qc 0 1; qc 0 1; qc 0 1; qc 0 1; qc 5 1; qc (-7) 2; qc 2 1; qc 1 1] in let A := alg sg_pga in
  declared sg_pga A /\ valid A x /\ aeq (mv_mul A x x) (mv_zero A) = true /\
  match mv_exp_scale A x with Ok c => Qc_eq_bool c (qc 5 1) && Qc_eq_bool (nat_f (e_usize c)) c | _ => false end = true /\
  aeq (mv_exp (F := Qc) A 19 x) (o <- mv_one A ;; mv_add o x) = true /\
  aeq (mv_exp (F := Qc) A 19 x) (mv_one A) = false.
Proof. cbv zeta. split; [dcl|]. split; [vld|]. repeat split; vm_compute; reflexivity. Qed.

(** C59. The norm of a real quaternion is the square root of q times its conjugate, and it is
    multiplicative (with |c|^2 = c^2 for the coefficients and a multiplicative square root). *)
Theorem C59_norm {F} {RF : RingOps F} {LF : RingLaws F} {CF : CommLaws F} {EO : ExpOps F} {NF : NormF F F} {m : Mode} {H : HashOrder}
  (p q : store KQuat F) :
  (forall c : F, rmul (norm_f c) (norm_f c) = rmul c c) ->
  (forall u v : F, e_sqrt (rmul u v) = rmul (e_sqrt u) (e_sqrt v)) ->
  both_ok (quat_norm q) (c <- mv_mul QuaternionAlgebra q (quat_conj q : store KQuat F) ;; s <- mv_scalar_part c ;; Ok (e_sqrt s)) /\
  both_ok (r <- mv_mul QuaternionAlgebra p q ;; quat_norm r) (u <- quat_norm p ;; v <- quat_norm q ;; Ok (rmul u v)).
Proof. exact (fun Hn Hs => conj (quat_norm_sqrt q Hn) (quat_norm_mult p q Hn Hs)). Qed.
Print Assumptions C59_norm.

Example C59_ex : let p : store KQuat Qc := mkQ (qc 1 1) (qc (-2) 1) (qc 0 1) (qc 1 3) in let q : store KQuat Qc := mkQ (qc 1 2) (qc 1 1) (qc (-3) 1) (qc 5 1) in
  (forall u v : Qc, e_sqrt (rmul u v) = rmul (e_sqrt u) (e_sqrt v)) /\
  (forall c : Qc, rmul (norm_f (F := Qc) c) (norm_f c) = rmul c c) /\
  match quat_norm (F := Qc) p, quat_norm (F := Qc) q, (r <- mv_mul QuaternionAlgebra p q ;; quat_norm (F := Qc) r) with
  | Ok u, Ok v, Ok w => Qc_eq_bool u (qc 46 9) && Qc_eq_bool v (qc 141 4) && Qc_eq_bool w (rmul u v) | _, _, _ => false end = true.
Proof. cbv zeta. split; [reflexivity|]. split; [exact Qcabs_sq|vm_compute; reflexivity]. Qed.

(** C66. exp commutes with reversal and with the grade involution, and depends on the coefficients
    only, not on the storage that holds them. *)
Theorem C66_rev {T F} {RO : RingOps T} {L : RingLaws T} {CT : CommLaws T} {RF : RingOps F} {LF : RingLaws F} {CF : CommLaws F}
  {DV : DivOps F} {FL : FieldLaws F} {FRl : FormallyReal F} {EO : ExpOps F} {EL : EpsLaws F}
  {NF : NormF T F} {FF : FromF T F} {MS : MaxSym T F} {m : Mode} {H : HashOrder} (k : kind) sg A (x : store k T) fuel :
  declared sg A -> valid A x -> 18 < fuel ->
  agree A (y <- mv_rev A x ;; mv_exp (F := F) A fuel y) (e <- mv_exp (F := F) A fuel x ;; mv_rev A e).
Proof. exact (fun D Hx Hf => exp_rev sg A D fuel x Hx Hf). Qed.
Print Assumptions C66_rev.
Example C66_rev_ex : let x : store KDense Qc := mkArr 2 [qc 0 1; qc 1 1; qc 0 1; qc (-1) 1] in let A := alg sg_11 in
  agree A (y <- mv_rev A x ;; mv_exp (F := Qc) A 19 y) (e <- mv_exp (F := Qc) A 19 x ;; mv_rev A e).
Proof. cbv zeta. apply (C66_rev (F := Qc) KDense sg_11); [dcl|vld|lia]. Qed.

Theorem C66_flip {T F} {RO : RingOps T} {L : RingLaws T} {RF : RingOps F} {LF : RingLaws F} {CF : CommLaws F}
  {DV : DivOps F} {FL : FieldLaws F} {FRl : FormallyReal F} {EO : ExpOps F} {EL : EpsLaws F}
  {NF : NormF T F} {FF : FromF T F} {MS : MaxSym T F} {m : Mode} {H : HashOrder} (k : kind) sg A (x : store k T) fuel :
  declared sg A -> valid A x -> 18 < fuel ->
  agree A (y <- mv_flip A x ;; mv_exp (F := F) A fuel y) (e <- mv_exp (F := F) A fuel x ;; mv_flip A e).
Proof. exact (fun D Hx Hf => exp_flip sg A D fuel x Hx Hf). Qed.
Print Assumptions C66_flip.
Example C66_flip_ex : let x : store KDense Qc := mkArr 2 [qc 0 1; qc 1 1; qc 0 1; qc (-1) 1] in let A := alg sg_11 in
  agree A (y <- mv_flip A x ;; mv_exp (F := Qc) A 19 y) (e <- mv_exp (F := Qc) A 19 x ;; mv_flip A e).
Proof. cbv zeta. apply (C66_flip (F := Qc) KDense sg_11); [dcl|vld|lia]. Qed.

Theorem C66_storages {T F} {RO : RingOps T} {L : RingLaws T} {RF : RingOps F} {LF : RingLaws F} {CF : CommLaws F}
  {DV : DivOps F} {FL : FieldLaws F} {FRl : FormallyReal F} {EO : ExpOps F} {EL : EpsLaws F}
  {NF : NormF T F} {FF : FromF T F} {MS : MaxSym T F} {m : Mode} {H : HashOrder} (k k' : kind) sg A (x : store k T) (y : store k' T) fuel :
  declared sg A -> valid A x -> valid A y -> 18 < fuel ->
  (forall i, (i < pow2 (a_dim A))%N -> rd x i = rd y i) ->
  exists u v, mv_exp (F := F) A fuel x = Ok u /\ mv_exp (F := F) A fuel y = Ok v /\ valid A u /\ valid A v /\
    forall i, (i < pow2 (a_dim A))%N -> rd u i = rd v i.
Proof. exact (fun D Hx Hy Hf E => exp_storages sg A D fuel x y Hx Hy Hf E). Qed.
Print Assumptions C66_storages.

(** x = e0 - e1 e0 in Cl(1,1): both operations change x and its exponential. *)
Example C66_ex : let x : store KDense Qc := mkArr 2 [qc 0 1; qc 1 1; qc 0 1; qc (-1) 1] in let A := alg sg_11 in
  declared sg_11 A /\ valid A x /\
  aeq (y <- mv_rev A x ;; mv_exp (F := Qc) A 19 y) (e <- mv_exp (F := Qc) A 19 x ;; mv_rev A e) = true /\
  aeq (y <- mv_rev A x ;; mv_exp (F := Qc) A 19 y) (mv_exp (F := Qc) A 19 x) = false /\
  aeq (y <- mv_flip A x ;; mv_exp (F := Qc) A 19 y) (e <- mv_exp (F := Qc) A 19 x ;; mv_flip A e) = true /\
  aeq (y <- mv_flip A x ;; mv_exp (F := Qc) A 19 y) (mv_exp (F := Qc) A 19 x) = false.
Proof. cbv zeta. split; [dcl|]. split; [vld|]. repeat split; vm_compute; reflexivity. Qed.
(** The laws of [MaxSym] hold of the rationals with their absolute value, and a quaternion and a
    dense multivector may hold the same coefficients. *)
Example C66_laws_ex : MaxSym Qc Qc.
Proof. exact QcMaxSym. Qed.
Example C66_storages_ex : let A := QuaternionAlgebra in
  let x : store KDense Qc := mkArr 2 [qc 0 1; qc 1 1; qc 0 1; qc (-1) 1] in let y : store KQuat Qc := mkQ (qc 0 1) (qc 1 1) (qc 0 1) (qc (-1) 1) in
  valid A x /\ valid A y /\ forallb (fun i => Qc_eq_bool (rd x i) (rd y i)) [0; 1; 2; 3]%N = true /\
  match mv_exp (F := Qc) A 19 x, mv_exp (F := Qc) A 19 y with
  | Ok u, Ok v => forallb (fun i => Qc_eq_bool (rd u i) (rd v i) && negb (Qc_eq_bool (rd u i) (rd x i))) [0; 1; 3]%N | _, _ => false end = true.
Proof. cbv zeta. split; [vld|]. split; [exact eq_refl|]. split; vm_compute; reflexivity. Qed.
