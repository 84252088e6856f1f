(** Properties C74 and C75: exp and the exponential series, exact arithmetic (f64 = Qc). *)
From Coq Require Import QArith.
From Verif Require Import Ex_ExpLim P_ExpLim4.
Local Open Scope Qc_scope.

(** C74. exp(x) differs from every partial sum 1 + x + ... + x^K/K! of the exponential series with
    K >= 18 c by at most what the same procedure loses on the number ||x|| = sum of the sizes of
    the coefficients; c is the scale exp computes (the hypothesis on c says it fits into usize). *)
Theorem C74_series {T} {RO : RingOps T} {L : RingLaws T} {CT : CommLaws T} {FF : FromF T Qc} {FRM : FromLaws T Qc} {SZ : SizeLaws T}
  {EO : ExpOps Qc} {EL : EpsLaws Qc} {ML : MaxLaws Qc} {NF : NormF T Qc} {m : Mode} {H : HashOrder} (k : kind) sg A (x : store k T) (c : Qc) fuel :
  declared sg A -> valid A x -> mv_exp_scale A x = Ok c -> nat_f (e_usize c) = c -> (18 < fuel)%nat ->
  exists z, mv_exp (F := Qc) A fuel x = Ok z /\ valid A z /\
  forall K, (18 * e_usize c <= K)%nat ->
    total (a_dim A) (fun i => rsub (rd z i) (exp_sum (sq sg) (a_dim A) (rd x) K i)) <=
    exp_num K (total (a_dim A) (rd x)) - exp_num 18 (total (a_dim A) (rd x) / c) ^ e_usize c.
Proof. exact (fun D Hx Ec Hs Hf => c74_exact sg A D fuel x c Hx Hf Ec Hs). Qed.
Print Assumptions C74_series.
(** The theorem applied to the multivector of [C74_ex] below. *)
Example C74_series_ex := C74_series (T := Qc) KDense sg_11 (alg sg_11) (mkArr 2 [qc 0 1; qc 1 1; qc 0 1; qc (-3) 2]) (qc 2 1) 19
  d_11 ltac:(vld) ltac:(vm_compute; reflexivity) ltac:(apply Qc_is_canon; vm_compute; reflexivity) ltac:(lia).

(** The same with a bound that does not mention K: c r^19/19! 3^(n c) where r = ||x||/c <= n. *)
Theorem C74_bound {T} {RO : RingOps T} {L : RingLaws T} {CT : CommLaws T} {FF : FromF T Qc} {FRM : FromLaws T Qc} {SZ : SizeLaws T}
  {EO : ExpOps Qc} {EL : EpsLaws Qc} {ML : MaxLaws Qc} {NF : NormF T Qc} {m : Mode} {H : HashOrder} (k : kind) sg A (x : store k T) (c : Qc) (n : nat) fuel :
  declared sg A -> valid A x -> mv_exp_scale A x = Ok c -> nat_f (e_usize c) = c -> (18 < fuel)%nat ->
  total (a_dim A) (rd x) <= nat_f n * c ->
  exists z, mv_exp (F := Qc) A fuel x = Ok z /\ valid A z /\
  forall K, (18 * e_usize c <= K)%nat ->
    total (a_dim A) (fun i => rsub (rd z i) (exp_sum (sq sg) (a_dim A) (rd x) K i)) <=
    c * ((total (a_dim A) (rd x) / c) ^ 19 / qfact 19) * Q2Qc (3 # 1) ^ (n * e_usize c).
Proof. exact (fun D Hx Ec Hs Hf Hn => c74_bound sg A D fuel x c n Hx Hf Ec Hs Hn). Qed.
Print Assumptions C74_bound.

(** x = e0 - 3/2 e1 e0 in Cl(1,1): scale 2, ||x|| = 5/2; the bound is below 10^-12 and exp(x) is
    not the partial sum itself. *)
Example C74_ex : let x : store KDense Qc := mkArr 2 [qc 0 1; qc 1 1; qc 0 1; qc (-3) 2] in let A := alg sg_11 in
  declared sg_11 A /\ valid A x /\ match mv_exp_scale (F := Qc) A x with Ok c => Qc_eq_bool c (qc 2 1) | _ => false end = true /\
  nat_f (e_usize (qc 2 1)) = qc 2 1 /\ total 2 (rd x) = qc 5 2 /\ total 2 (rd x) <= nat_f 2 * qc 2 1 /\
  qc 2 1 * ((total 2 (rd x) / qc 2 1) ^ 19 / qfact 19) * Q2Qc (3 # 1) ^ (2 * 2) <= qc 1 1000000000000 /\
  aeq (mv_exp (F := Qc) A 19 x) (taylor (F := Qc) A x 36) = false.
Proof.
  cbv zeta. split; [dcl|]. split; [vld|]. split; [vm_compute; reflexivity|]. split; [apply Qc_is_canon; vm_compute; reflexivity|]. split; [apply Qc_is_canon; vm_compute; reflexivity|].
  split; [vm_compute; discriminate|]. split; [vm_compute; discriminate|]. vm_compute. reflexivity.
Qed.

(** C75. exp(x) exp(-x) is 1 up to an explicit error. *)
Theorem C75_inverse {T} {RO : RingOps T} {L : RingLaws T} {CT : CommLaws T} {FF : FromF T Qc} {FRM : FromLaws T Qc} {SZ : SizeLaws T}
  {EO : ExpOps Qc} {EL : EpsLaws Qc} {NF : NormF T Qc} {MS : MaxSym T Qc} {m : Mode} {H : HashOrder} (k : kind) sg A (x : store k T) fuel :
  declared sg A -> valid A x -> (18 < fuel)%nat ->
  exists c p, mv_exp_scale (F := Qc) A x = Ok c /\
  (z <- mv_exp (F := Qc) A fuel x ;; y <- mv_neg A x ;; w <- mv_exp (F := Qc) A fuel y ;; mv_mul A z w) = Ok p /\ valid A p /\
  let r := (1 + 1) * (total (a_dim A) (rd x) * QArith.Qcabs.Qcabs (1 / c)) in
  total (a_dim A) (fun i => rsub (rd p i) (single 0%N r1 i)) <= (1 + (exp_num 36 r - exp_num 18 r)) ^ e_usize c - 1.
Proof. exact (fun D Hx Hf => c75_inverse sg A D fuel x Hx Hf). Qed.
Print Assumptions C75_inverse.
Example C75_inverse_ex := C75_inverse (T := Qc) KDense sg_11 (alg sg_11) (mkArr 2 [qc 0 1; qc 1 1; qc 0 1; qc (-3) 2]) 19 d_11 ltac:(vld) ltac:(lia).

(** If rev(x) = -x (bivectors) then R = exp(x) satisfies R rev(R) = 1 up to the same error. *)
Theorem C75_rotor {T} {RO : RingOps T} {L : RingLaws T} {CT : CommLaws T} {FF : FromF T Qc} {FRM : FromLaws T Qc} {SZ : SizeLaws T}
  {EO : ExpOps Qc} {EL : EpsLaws Qc} {NF : NormF T Qc} {MS : MaxSym T Qc} {m : Mode} {H : HashOrder} (k : kind) sg A (x : store k T) fuel :
  declared sg A -> valid A x -> (18 < fuel)%nat -> agree A (mv_rev A x) (mv_neg A x) ->
  exists c p, mv_exp_scale (F := Qc) A x = Ok c /\
  (z <- mv_exp (F := Qc) A fuel x ;; w <- mv_rev A z ;; mv_mul A z w) = Ok p /\ valid A p /\
  let r := (1 + 1) * (total (a_dim A) (rd x) * QArith.Qcabs.Qcabs (1 / c)) in
  total (a_dim A) (fun i => rsub (rd p i) (single 0%N r1 i)) <= (1 + (exp_num 36 r - exp_num 18 r)) ^ e_usize c - 1.
Proof. exact (fun D Hx Hf Hr => c75_rotor sg A D fuel x Hx Hf Hr). Qed.
Print Assumptions C75_rotor.

(** x = 1/2 e1 e0 in Cl(1,1) (a boost): scale 1, the error is below 10^-16, the product is not 1. *)
Example C75_ex : let x : store KDense Qc := mkArr 2 [qc 0 1; qc 0 1; qc 0 1; qc 1 2] in let A := alg sg_11 in
  declared sg_11 A /\ valid A x /\ aeq (mv_rev A x) (mv_neg A x) = true /\
  match mv_exp_scale (F := Qc) A x with Ok c => Qc_eq_bool c (qc 1 1) | _ => false end = true /\
  (let r := (1 + 1) * (total 2 (rd x) * QArith.Qcabs.Qcabs (1 / qc 1 1)) in (1 + (exp_num 36 r - exp_num 18 r)) ^ e_usize (qc 1 1) - 1 <= qc 1 10000000000000000) /\
  match (z <- mv_exp (F := Qc) A 19 x ;; w <- mv_rev A z ;; mv_mul A z w) with Ok p => Qc_eq_bool (rd p 0%N) 1 | _ => true end = false.
Proof.
  cbv zeta. split; [dcl|]. split; [vld|]. split; [vm_compute; reflexivity|]. split; [vm_compute; reflexivity|]. split; [vm_compute; discriminate|]. vm_compute. reflexivity.
Qed.
(** The laws of [SizeLaws] hold of the complex numbers. *)
Example C75_complex_ex : SizeLaws (cplx Qc).
Proof. exact CqSize. Qed.
