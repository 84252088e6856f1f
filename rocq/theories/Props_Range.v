(** Property C78: what keeps floating point results finite. *)
From Coq Require Import List.
Import ListNotations.
From Verif Require Import Ex_Range.
Local Open Scope Qc_scope.

(** C78. In double (single) precision an operation on numbers whose exact result is below
    2^1023 (2^127) gives a number: no infinity and no NaN. *)
Theorem C78_f64 : @RangeLaws flt F64 (flt_div 53 1024) (flt_round 53 1024) (flt_range 53 1024).
Proof. exact f64_range. Qed.
Print Assumptions C78_f64.
Theorem C78_f32 : @RangeLaws flt F32 (flt_div 24 128) (flt_round 24 128) (flt_range 24 128).
Proof. exact f32_range. Qed.
Print Assumptions C78_f32.

(** 2^500 * 2^501 stays, 2^1000 * 2^100 does not; nor does 2^1023 + 2^1023, each half of which is at the limit. *)
Example C78_f64_ex : okay (f2 500) /\ okay (f2 501) /\ Qcabs (val (f2 500) * val (f2 501)) < big /\ rmul (f2 500) (f2 501) = f2 1001 /\
  okay (f2 1000) /\ okay (f2 100) /\ ~ Qcabs (val (f2 1000) * val (f2 100)) < big /\ ~ okay (rmul (f2 1000) (f2 100)) /\
  okay (f2 1023) /\ ~ Qcabs (val (f2 1023) + val (f2 1023)) < big /\ radd (f2 1023) (f2 1023) = FInf false /\
  val (f2 10) <> 0 /\ Qcabs (val (f2 500) / val (f2 (-10))) < big /\ rdiv (f2 500) (f2 (-10)) = f2 510.
Proof.
  split; [apply okb_ok; reflexivity|]. split; [apply okb_ok; reflexivity|]. split; [apply qltb_ok; vm_compute; reflexivity|]. split; [vm_compute; reflexivity|].
  split; [apply okb_ok; reflexivity|]. split; [apply okb_ok; reflexivity|]. split; [apply Qcle_not_lt, qleb_ok; vm_compute; reflexivity|].
  split; [vm_compute; auto|]. split; [apply okb_ok; reflexivity|]. split; [apply Qcle_not_lt, qleb_ok; vm_compute; reflexivity|]. split; [vm_compute; reflexivity|].
  split; [intros E; vm_compute in E; discriminate E|]. split; [apply qltb_ok; vm_compute; reflexivity|]. vm_compute; reflexivity.
Qed.
Example C78_f32_ex : let R := F32 in let V := flt_round 24 128 in let G := flt_range 24 128 in
  let p := fun e => FFin false 8388608 (e - 23) in
  okay (p 60%Z) /\ Qcabs (val (p 60%Z) * val (p 60%Z)) < big /\ rmul (p 60%Z) (p 60%Z) = p 120%Z /\ rmul (p 60%Z) (p 120%Z) = FInf false.
Proof. cbv zeta. split; [reflexivity|]. split; [apply qltb_ok; vm_compute; reflexivity|]. vm_compute. split; reflexivity. Qed.

(** A coefficient of a product of multivectors is a number, within the bound of C69 of the exact
    one, if the absolute values of the terms and that bound together stay below the limit -
    whatever the order of summation. *)
Theorem C78_product {F} {RF : RingOps F} {DF : DivOps F} {V : RoundOps F} {RL : RoundLaws F} {W : NumLaws F} {G : RangeOps F} {GL : RangeLaws F} {m : Mode} {H : HashOrder}
  (k : kind) sg A (x y : store k F) : declared sg A -> valid A x -> valid A y -> all_okay A x -> all_okay A y ->
  exists z, mv_mul A x y = Ok z /\ valid A z /\
  forall i, (i < 2 ^ N.of_nat (a_dim A))%N ->
  let P := sumI (a_dim A) (fun j => Qcabs (val (rd x j)) * Qcabs (val (rd y (N.lxor j i)))) in
  P + product_error (length (mv_coeff_enumerate x)) P < big ->
  okay (rd z i) /\
  Qcabs (val (rd z i) - spec_mul (sq sg) (a_dim A) (fun j => val (rd x j)) (fun j => val (rd y j)) i) <= product_error (length (mv_coeff_enumerate x)) P.
Proof. exact (fun D Hx Hy Kx Ky => mul_kept sg A D k x y Hx Hy Kx Ky). Qed.
Print Assumptions C78_product.

(** (2^500 + 2^500 e0)(2^501 - 2^400 e1) *)
Example C78_product_ex : declared sg_q (alg sg_q) /\ valid (alg sg_q) b_x /\ valid (alg sg_q) b_y /\ all_okay (alg sg_q) b_x /\ all_okay (alg sg_q) b_y /\
  (forall i, (i < 4)%N -> let P := sumI 2 (fun j => Qcabs (val (rd b_x j)) * Qcabs (val (rd b_y (N.lxor j i)))) in
    P + product_error (length (mv_coeff_enumerate b_x)) P < big) /\
  (z <- mv_mul (alg sg_q) b_x b_y ;; mv_get_by_idx z 3) = Ok (f2 900).
Proof.
  split; [exact d_q|]. split; [exact v_bx|]. split; [exact v_by|]. split; [apply okbs_ok; vm_compute; reflexivity|]. split; [apply okbs_ok; vm_compute; reflexivity|].
  split; [|vm_compute; reflexivity].
  intros i Hi. destruct i as [|[[p|p|]|[p|p|]|]]; first [exfalso; lia|cbv zeta; apply qltb_ok; vm_compute; reflexivity].
Qed.

(** The same for the wedge product computed term by term. *)
Theorem C78_wedge {F} {RF : RingOps F} {DF : DivOps F} {V : RoundOps F} {RL : RoundLaws F} {W : NumLaws F} {G : RangeOps F} {GL : RangeLaws F} {m : Mode} {H : HashOrder}
  (k : kind) sg A (x y : store k F) : declared sg A -> valid A x -> valid A y -> all_okay A x -> all_okay A y ->
  exists z, naive_wedge A x y = Ok z /\ valid A z /\
  forall i, (i < 2 ^ N.of_nat (a_dim A))%N ->
  let P := sumI (a_dim A) (fun j => Qcabs (val (rd x j)) * Qcabs (val (rd y (N.lxor j i)))) in
  P + product_error (length (mv_coeff_enumerate x)) P < big ->
  okay (rd z i) /\
  Qcabs (val (rd z i) - spec_mul q0 (a_dim A) (fun j => val (rd x j)) (fun j => val (rd y j)) i) <= product_error (length (mv_coeff_enumerate x)) P.
Proof. exact (fun D Hx Hy Kx Ky => wedge_kept sg A D k x y Hx Hy Kx Ky). Qed.
Print Assumptions C78_wedge.

(** The hypotheses are those of [C78_product_ex]; the wedge of the same arguments. *)
Example C78_wedge_ex : valid (alg sg_q) b_x /\ valid (alg sg_q) b_y /\ all_okay (alg sg_q) b_x /\ all_okay (alg sg_q) b_y /\
  (z <- naive_wedge (alg sg_q) b_x b_y ;; mv_get_by_idx z 3) = Ok (f2 900).
Proof.
  split; [exact v_bx|]. split; [exact v_by|]. split; [apply okbs_ok; vm_compute; reflexivity|]. split; [apply okbs_ok; vm_compute; reflexivity|]. vm_compute. reflexivity.
Qed.

(** The wedge and regressive products the storages offer. *)
Theorem C78_wedge_storages {F} {RF : RingOps F} {DF : DivOps F} {V : RoundOps F} {RL : RoundLaws F} {W : NumLaws F} {G : RangeOps F} {GL : RangeLaws F} {m : Mode} {H : HashOrder}
  (k : kind) sg A (x y : store k F) : declared sg A -> k <> KQuat -> valid A x -> valid A y -> all_okay A x -> all_okay A y ->
  exists z, k_wedge k A x y = Ok z /\ valid A z /\
  forall i, (i < 2 ^ N.of_nat (a_dim A))%N ->
  (let P := sumI (a_dim A) (fun j => Qcabs (val (rd x j)) * Qcabs (val (rd y (N.lxor j i)))) in P + product_error (2 ^ a_dim A) P < big) ->
  okay (rd z i).
Proof. exact (fun D HK Hx Hy Kx Ky => kwedge_kept sg A D k x y Hx Hy Kx Ky HK). Qed.
Print Assumptions C78_wedge_storages.
Theorem C78_meet {F} {RF : RingOps F} {DF : DivOps F} {V : RoundOps F} {RL : RoundLaws F} {W : NumLaws F} {G : RangeOps F} {GL : RangeLaws F} {m : Mode} {H : HashOrder}
  (k : kind) sg A (x y : store k F) : declared sg A -> k <> KQuat -> valid A x -> valid A y -> all_okay A x -> all_okay A y ->
  exists z, k_meet k A x y = Ok z /\ valid A z /\
  forall i, (i < 2 ^ N.of_nat (a_dim A))%N ->
  (let P := sumI (a_dim A) (fun j => Qcabs (val (rd x j)) * Qcabs (val (rd y (2 ^ N.of_nat (a_dim A) - 1 - N.lxor j i)%N))) in P + product_error (2 ^ a_dim A) P < big) ->
  okay (rd z i).
Proof. exact (fun D HK Hx Hy Kx Ky => kmeet_kept sg A D k x y Hx Hy Kx Ky HK). Qed.
Print Assumptions C78_meet.

(** Wedge and meet of 2^500 + 2^500 e0 and 2^501 - 2^400 e1. *)
Example C78_wedge_storages_ex : declared sg_q (alg sg_q) /\ KDense <> KQuat /\ valid (alg sg_q) b_x /\ valid (alg sg_q) b_y /\ all_okay (alg sg_q) b_x /\ all_okay (alg sg_q) b_y /\
  (forall i, (i < 4)%N -> let P := sumI 2 (fun j => Qcabs (val (rd b_x j)) * Qcabs (val (rd b_y (N.lxor j i)))) in P + product_error 4 P < big) /\
  (z <- k_wedge KDense (alg sg_q) b_x b_y ;; mv_get_by_idx z 3) = Ok (f2 900).
Proof.
  split; [exact d_q|]. split; [discriminate|]. split; [exact v_bx|]. split; [exact v_by|]. split; [apply okbs_ok; vm_compute; reflexivity|]. split; [apply okbs_ok; vm_compute; reflexivity|].
  split; [|vm_compute; reflexivity].
  intros i Hi. destruct i as [|[[p|p|]|[p|p|]|]]; first [exfalso; lia|cbv zeta; apply qltb_ok; vm_compute; reflexivity].
Qed.
Example C78_meet_ex : valid (alg sg_q) b_x /\ valid (alg sg_q) b_y /\ all_okay (alg sg_q) b_x /\ all_okay (alg sg_q) b_y /\
  (forall i, (i < 4)%N -> let P := sumI 2 (fun j => Qcabs (val (rd b_x j)) * Qcabs (val (rd b_y (4 - 1 - N.lxor j i)%N))) in P + product_error 4 P < big) /\
  (z <- k_meet KDense (alg sg_q) b_x b_y ;; mv_get_by_idx z 0) = Ok (f2 900).
Proof.
  split; [exact v_bx|]. split; [exact v_by|]. split; [apply okbs_ok; vm_compute; reflexivity|]. split; [apply okbs_ok; vm_compute; reflexivity|].
  split; [|vm_compute; reflexivity].
  intros i Hi. destruct i as [|[[p|p|]|[p|p|]|]]; first [exfalso; lia|cbv zeta; apply qltb_ok; vm_compute; reflexivity].
Qed.

(** A simple condition: coefficients up to 2^a and 2^b, dimension d, a + b + d <= emax - 4, and
    fewer than 2^(prec - 1) coefficients enumerated.  Then no coefficient of the product overflows. *)
Theorem C78_moderate prec emax (RF := flt_ops prec emax) (DF := flt_div prec emax) (V := flt_round prec emax) (G := flt_range prec emax)
  {RL : RoundLaws flt} {W : NumLaws flt} {GL : RangeLaws flt} {m : Mode} {H : HashOrder}
  (k : kind) sg A (x y : store k flt) (a b : Z) : (1 < prec)%Z -> (3 <= emax)%Z ->
  declared sg A -> valid A x -> valid A y -> all_okay A x -> all_okay A y ->
  (forall j, (j < 2 ^ N.of_nat (a_dim A))%N -> Qcabs (val (rd x j)) <= pow2q a /\ Qcabs (val (rd y j)) <= pow2q b) ->
  (Z.of_nat (length (mv_coeff_enumerate x)) < 2 ^ (prec - 1))%Z -> (a + b + Z.of_nat (a_dim A) <= emax - 4)%Z ->
  exists z, mv_mul A x y = Ok z /\ valid A z /\ all_okay A z /\
  forall i, (i < 2 ^ N.of_nat (a_dim A))%N ->
  Qcabs (val (rd z i) - spec_mul (sq sg) (a_dim A) (fun j => val (rd x j)) (fun j => val (rd y j)) i)
   <= product_error (length (mv_coeff_enumerate x)) (sumI (a_dim A) (fun j => Qcabs (val (rd x j)) * Qcabs (val (rd y (N.lxor j i))))).
Proof. exact (fun Hp He => flt_product prec emax Hp He k sg A x y a b). Qed.
Print Assumptions C78_moderate.

Example C78_moderate_ex : @RoundLaws flt F64 (flt_div 53 1024) (flt_round 53 1024) /\ @RangeLaws flt F64 (flt_div 53 1024) (flt_round 53 1024) (flt_range 53 1024) /\
  (forall j, (j < 4)%N -> Qcabs (val (rd b_x j)) <= pow2q 500 /\ Qcabs (val (rd b_y j)) <= pow2q 501) /\
  (Z.of_nat (length (mv_coeff_enumerate b_x)) < 2 ^ (53 - 1))%Z /\ (500 + 501 + 2 <= 1024 - 4)%Z.
Proof.
  split; [exact f64_rounds|]. split; [exact f64_range|]. split; [|vm_compute; split; [reflexivity|discriminate]].
  intros j Hj. destruct j as [|[[p|p|]|[p|p|]|]]; first [exfalso; lia|split; apply qleb_ok; vm_compute; reflexivity].
Qed.

(** Whole programs (those of C70): if the exact intermediate results and the error bounds stay
    below the limit - a condition on exact arithmetic only, see [small] - then no step
    overflows, and the result is within [err] of the exact one. *)
Theorem C78_programs {F} {RF : RingOps F} {DF : DivOps F} {CF : ConjOps F} {V : RoundOps F} {RL : RoundLaws F} {W : NumLaws F} {G : RangeOps F} {GL : RangeLaws F} {m : Mode} {H : HashOrder}
  (k : kind) sg A (e : expr F) : declared sg A -> supports k A -> offers k A e -> arith e -> small k A e ->
  match eval k A e, eval k A (ex e) with
  | Ok z, Ok z' => valid A z /\ valid A z' /\ all_okay A z /\ forall i, (i < 2 ^ N.of_nat (a_dim A))%N -> Qcabs (val (rd z i) - rd z' i) <= err k A e i
  | Err a, Err b => a = b
  | _, _ => False
  end.
Proof. exact (fun D => prog_range sg A D k e). Qed.
Print Assumptions C78_programs.

(** ((1/10 + e0) (2^500 + e0)) / 3 - 2^400 e0 *)
Example C78_programs_ex :
  let e : expr flt := ESub (EDivs (EMul (EAdd (EScalar (fq 1 10)) (EBasis 0)) (EAdd (EScalar (f2 500)) (EBasis 0))) (fz 3)) (EScale (ERev (EBasis 0)) (f2 400)) in
  offers KDense (alg sg_q) e /\ arith e /\ small KDense (alg sg_q) e /\
  match eval KDense (alg sg_q) e with Ok z => qltb (val (f2 490)) (val (rd z 0)) | _ => false end = true.
Proof.
  cbv zeta. split; [cbn [offers]; repeat split; apply Nat.ltb_lt; reflexivity|].
  split; [cbn [arith]; repeat split; try (intros E; vm_compute in E; discriminate E); vm_compute; reflexivity|].
  split; [|vm_compute; reflexivity].
  cbn [small]. repeat match goal with |- _ /\ _ => split | |- True => exact I | |- okay _ => apply okb_ok; vm_compute; reflexivity
    | |- forall i, _ => let Hi := fresh in intros i Hi; cbv zeta; destruct i as [|[[p|p|]|[p|p|]|]]; first [exfalso; cbn in Hi; lia|apply qltb_ok; vm_compute; reflexivity] end.
Qed.
(** (2^400 e0 ^ (e1 + 3/10)) v (e0 + 2^100 e1 e0). *)
Example C78_programs_ex2 :
  let e : expr flt := EMeet (EWedge (EVec [f2 400; fz 0]) (EIdx [(2%N, fz 1); (0%N, fq 3 10)])) (EIdx [(1%N, fz 1); (3%N, f2 100)]) in
  offers KSparse (alg sg_q) e /\ arith e /\ small KSparse (alg sg_q) e /\
  match eval KSparse (alg sg_q) e with Ok z => qltb (val (rd z 3)) (- val (f2 490)) | _ => false end = true.
Proof.
  cbv zeta. split; [cbn [offers]; repeat split; try discriminate; apply Nat.ltb_lt; reflexivity|].
  split; [cbn [arith]; repeat split; vm_compute; reflexivity|].
  split; [|vm_compute; reflexivity].
  cbn [small]. repeat match goal with |- _ /\ _ => split | |- True => exact I
    | |- Forall _ _ => repeat constructor; apply okb_ok; vm_compute; reflexivity | |- okay _ => apply okb_ok; vm_compute; reflexivity
    | |- forall i, _ => let Hi := fresh in intros i Hi; cbv zeta; destruct i as [|[[p|p|]|[p|p|]|]]; first [exfalso; cbn in Hi; lia|apply qltb_ok; vm_compute; reflexivity] end.
Qed.
