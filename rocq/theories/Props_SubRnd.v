(** Properties C69 and C78 for the subtraction of the coefficients. *)
From Verif Require Import Ex_Range P_SubRnd.
Local Open Scope Qc_scope.

(** C69. A difference in double (single) precision that is finite is the exact one, rounded once. *)
Theorem C69_subtraction_f64 (RF := F64) (V := flt_round 53 1024) (x y : flt) : finite (rsub x y) = true ->
  finite x = true /\ finite y = true /\ rounds (val (rsub x y)) (val x - val y).
Proof. exact (@sub_rounds flt F64 (flt_div 53 1024) (flt_round 53 1024) f64_rounds (flt_laws 53 1024) x y). Qed.
Print Assumptions C69_subtraction_f64.
Theorem C69_subtraction_f32 (RF := F32) (V := flt_round 24 128) (x y : flt) : finite (rsub x y) = true ->
  finite x = true /\ finite y = true /\ rounds (val (rsub x y)) (val x - val y).
Proof. exact (@sub_rounds flt F32 (flt_div 24 128) (flt_round 24 128) f32_rounds (flt_laws 24 128) x y). Qed.
Print Assumptions C69_subtraction_f32.

(** 3 - 1/10 is rounded; 3/10 - 1/10, inheriting the errors of its arguments, is not 2/10; 2^24 - 1 is exact in single precision. *)
Example C69_subtraction_ex : finite (rsub (fz 3) (fq 1 10)) = true /\
  qleb (Qcabs (val (rsub (fz 3) (fq 1 10)) - (val (fz 3) - val (fq 1 10)))) (ulp * Qcabs (val (fz 3) - val (fq 1 10)) + eta) = true /\
  Qc_eq_bool (val (rsub (fz 3) (fq 1 10))) (val (fz 3) - val (fq 1 10)) = false /\ rsub (fq 3 10) (fq 1 10) <> fq 2 10 /\ @rsub flt F32 (FFin false 8388608 1) (FFin false 8388608 (-23)) = FFin false 16777215 0.
Proof. split; [vm_compute; reflexivity|]. split; [vm_compute; reflexivity|]. split; [vm_compute; reflexivity|]. split; [vm_compute; discriminate|vm_compute; reflexivity]. Qed.

(** C78. A difference of numbers is a number if the exact one is below 2^1023 (2^127). *)
Theorem C78_subtraction_f64 (RF := F64) (V := flt_round 53 1024) (G := flt_range 53 1024) (x y : flt) :
  okay x -> okay y -> Qcabs (val x - val y) < big -> okay (rsub x y).
Proof. exact (@sub_okay flt F64 (flt_div 53 1024) (flt_round 53 1024) f64_rounds (flt_laws 53 1024) (flt_range 53 1024) f64_range x y). Qed.
Print Assumptions C78_subtraction_f64.
Theorem C78_subtraction_f32 (RF := F32) (V := flt_round 24 128) (G := flt_range 24 128) (x y : flt) :
  okay x -> okay y -> Qcabs (val x - val y) < big -> okay (rsub x y).
Proof. exact (@sub_okay flt F32 (flt_div 24 128) (flt_round 24 128) f32_rounds (flt_laws 24 128) (flt_range 24 128) f32_range x y). Qed.
Print Assumptions C78_subtraction_f32.

(** 2^1023 - 2^1023 is 0, though their sum overflows. *)
Example C78_subtraction_ex : okay (f2 1023) /\ Qcabs (val (f2 1023) - val (f2 1023)) < big /\ rsub (f2 1023) (f2 1023) = FZ /\
  radd (f2 1023) (f2 1023) = FInf false.
Proof. split; [apply okb_ok; reflexivity|]. split; [apply qltb_ok; vm_compute; reflexivity|]. vm_compute. split; reflexivity. Qed.
