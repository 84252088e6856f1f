(** Property C77: exp(x) exp(y) and exp(x + y), exact arithmetic (f64 = Qc). *)
From Coq Require Import QArith.
From Verif Require Import Ex_ExpLim P_ExpLim7.
Local Open Scope Qc_scope.

(** C77. If x y = y x then exp(x) exp(y) is exp(x + y) up to an explicit error; b c r bounds the
    error of one exponential (C74), c1, c2, c3 are the scales exp computes for x, y and x + y. *)
Theorem C77_sum {T} {RO : RingOps T} {L : RingLaws T} {CT : CommLaws T} {FF : FromF T Qc} {FRM : FromLaws T Qc} {SZ : SizeLaws T}
  {EO : ExpOps Qc} {EL : EpsLaws Qc} {ML : MaxLaws Qc} {NF : NormF T Qc} {m : Mode} {H : HashOrder} (kd : kind) sg A (x y s : store kd T) (c1 c2 c3 : Qc) (n k : nat) fuel :
  declared sg A -> valid A x -> valid A y -> agree A (mv_mul A x y) (mv_mul A y x) -> (18 < fuel)%nat -> mv_add x y = Ok s ->
  mv_exp_scale A x = Ok c1 -> nat_f (e_usize c1) = c1 -> mv_exp_scale A y = Ok c2 -> nat_f (e_usize c2) = c2 ->
  mv_exp_scale A s = Ok c3 -> nat_f (e_usize c3) = c3 ->
  total (a_dim A) (rd x) <= nat_f n * c1 -> total (a_dim A) (rd y) <= nat_f n * c2 -> total (a_dim A) (rd s) <= nat_f n * c3 ->
  total (a_dim A) (rd x) <= nat_f k -> total (a_dim A) (rd y) <= nat_f k ->
  exists p w, (a <- mv_exp (F := Qc) A fuel x ;; b <- mv_exp (F := Qc) A fuel y ;; mv_mul A a b) = Ok p /\ valid A p /\
  mv_exp (F := Qc) A fuel s = Ok w /\ valid A w /\
  let b c r := c * ((r / c) ^ 19 / qfact 19) * Q2Qc (3 # 1) ^ (n * e_usize c) in
  total (a_dim A) (fun i => rsub (rd p i) (rd w i)) <=
    (b c1 (total (a_dim A) (rd x)) + b c2 (total (a_dim A) (rd y))) * Q2Qc (3 # 1) ^ k + b c3 (total (a_dim A) (rd s)).
Proof. exact (fun D Hx Hy Hc Hf Es E1 U1 E2 U2 E3 U3 N1 N2 N3 B1 B2 => c77 sg A D fuel x y s c1 c2 c3 n k Hx Hy Hc Hf Es E1 U1 E2 U2 E3 U3 N1 N2 N3 B1 B2). Qed.
Print Assumptions C77_sum.

(** x = 1/2 e1 e0, y = 1 - e1 e0 in Cl(1,1). The error is below 10^-9, both sides differ. If x and
    y do not commute the sides are far apart. *)
Example C77_ex : let x : store KDense Qc := mkArr 2 [qc 0 1; qc 0 1; qc 0 1; qc 1 2] in let y : store KDense Qc := mkArr 2 [qc 1 1; qc 0 1; qc 0 1; qc (-1) 1] in
  let s : store KDense Qc := mkArr 2 [qc 1 1; qc 0 1; qc 0 1; qc (-1) 2] in let A := alg sg_11 in
  declared sg_11 A /\ valid A x /\ valid A y /\ aeq (mv_mul A x y) (mv_mul A y x) = true /\ aeq (mv_add x y) (Ok s) = true /\
  match mv_exp_scale (F := Qc) A x with Ok c => Qc_eq_bool c (qc 1 1) | _ => false end = true /\
  match mv_exp_scale (F := Qc) A y with Ok c => Qc_eq_bool c (qc 1 1) | _ => false end = true /\
  match mv_exp_scale (F := Qc) A s with Ok c => Qc_eq_bool c (qc 1 1) | _ => false end = true /\ nat_f (e_usize (qc 1 1)) = qc 1 1 /\
  total 2 (rd x) <= nat_f 2 * qc 1 1 /\ total 2 (rd y) <= nat_f 2 * qc 1 1 /\ total 2 (rd s) <= nat_f 2 * qc 1 1 /\ total 2 (rd x) <= nat_f 2 /\ total 2 (rd y) <= nat_f 2 /\
  (let b c r := c * ((r / c) ^ 19 / qfact 19) * Q2Qc (3 # 1) ^ (2 * e_usize c) in
   (b (qc 1 1) (total 2 (rd x)) + b (qc 1 1) (total 2 (rd y))) * Q2Qc (3 # 1) ^ 2 + b (qc 1 1) (total 2 (rd s)) <= qc 1 1000000000) /\
  aeq (a <- mv_exp (F := Qc) A 19 x ;; b <- mv_exp (F := Qc) A 19 y ;; mv_mul A a b) (mv_exp (F := Qc) A 19 s) = false.
Proof.
  cbv zeta. split; [dcl|]. split; [vld|]. split; [vld|]. do 5 (split; [vm_compute; reflexivity|]). split; [apply Qc_is_canon; vm_compute; reflexivity|]. do 6 (split; [vm_compute; discriminate|]). vm_compute. reflexivity.
Qed.
Example C77_noncommuting_ex : let x : store KDense Qc := mkArr 2 [qc 0 1; qc 1 1; qc 0 1; qc 0 1] in let y : store KDense Qc := mkArr 2 [qc 0 1; qc 0 1; qc 1 1; qc 0 1] in let A := alg sg_11 in
  match (a <- mv_exp (F := Qc) A 19 x ;; b <- mv_exp (F := Qc) A 19 y ;; p <- mv_mul A a b ;; s <- mv_add x y ;; w <- mv_exp (F := Qc) A 19 s ;; mv_sub p w) with
  | Ok e => Qle_bool (1 # 2) (this (total 2 (rd e))) | _ => false end = true.
Proof. vm_compute. reflexivity. Qed.
