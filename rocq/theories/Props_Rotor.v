(** Property C87: exp of a multivector whose square is a number. *)
From Coq Require Import QArith Reals Qreals Lra.
From Verif Require Import Ex_Rotor P_Rotor2.
Local Open Scope Qc_scope.

(** C87. If x * x is the number s, exp(x) is C + S x up to the error of C74, where C and S are
    1 + s/2! + s^2/4! + ... and 1 + s/3! + s^2/5! + ..., cut off anywhere beyond 18 times the
    scale c of exp. *)
Theorem C87_sums {T} {RO : RingOps T} {L : RingLaws T} {CT : CommLaws T} {FF : FromF T Qc} {FRM : FromLaws T Qc} {SZ : SizeLaws T}
  {EO : ExpOps Qc} {EL : EpsLaws Qc} {ML : MaxLaws Qc} {NF : NormF T Qc} {m : Mode} {H : HashOrder} (k : kind) sg A (x : store k T) (c s : Qc) n fuel :
  declared sg A -> valid A x -> mv_exp_scale A x = Ok c -> nat_f (e_usize c) = c -> (18 < fuel)%nat ->
  total (a_dim A) (rd x) <= nat_f n * c -> agree A (mv_mul A x x) (mv_from_scalar A (from_f s)) ->
  exists z, mv_exp (F := Qc) A fuel x = Ok z /\ valid A z /\ forall J, (18 * e_usize c <= 2 * J)%nat ->
  total (a_dim A) (fun i => rsub (rd z i) (radd (single 0%N (from_f (even_sum J s)) i) (rmul (rd x i) (from_f (odd_sum J s))))) <=
  c * ((total (a_dim A) (rd x) / c) ^ 19 / qfact 19) * Q2Qc (3 # 1) ^ (n * e_usize c).
Proof. exact (fun D => c87_sums k sg A D x c s n fuel). Qed.
Print Assumptions C87_sums.
Example C87_sums_ex := C87_sums (T := Qc) KDense sg_11 (alg sg_11) bo (qc 3 1) (qc 9 4) 1 19
  d_11 bo_valid bo_scale three_usize ltac:(lia) bo_total bo_square.

(** With real numbers: C and S are cos t and sin t / t if s = -t^2, cosh t and sinh t / t if
    s = t^2. *)
Theorem C87_exact {FF : FromF Qc Qc} {EO : ExpOps Qc} {EL : EpsLaws Qc} {ML : MaxLaws Qc} {NF : NormF Qc Qc} {m : Mode} {H : HashOrder}
  (k : kind) sg A (x : store k Qc) (c s : Qc) n fuel :
  (forall q : Qc, from_f (T := Qc) q = q) -> declared sg A -> valid A x -> mv_exp_scale A x = Ok c -> nat_f (e_usize c) = c -> (18 < fuel)%nat ->
  norm1 (a_dim A) (rd x) <= nat_f n * c -> agree A (mv_mul A x x) (mv_from_scalar A s) ->
  exists z, mv_exp (F := Qc) A fuel x = Ok z /\ valid A z /\ forall t : R, (t <> 0)%R ->
  let bound := c * ((norm1 (a_dim A) (rd x) / c) ^ 19 / qfact 19) * Q2Qc (3 # 1) ^ (n * e_usize c) in
  ((qr s = - (t * t))%R -> (rnorm1 (a_dim A) (fun i => qr (rd z i) - ((if (i =? 0)%N then cos t else 0) + sin t / t * qr (rd x i))) <= qr bound)%R) /\
  ((qr s = t * t)%R -> (rnorm1 (a_dim A) (fun i => qr (rd z i) - ((if (i =? 0)%N then cosh t else 0) + sinh t / t * qr (rd x i))) <= qr bound)%R).
Proof. exact (fun HF => c87_exact HF k sg A x c s n fuel). Qed.
Print Assumptions C87_exact.
Example C87_exact_ex := C87_exact KDense sg_11 (alg sg_11) bo (qc 3 1) (qc 9 4) 1 19 (fun _ => eq_refl)
  d_11 bo_valid bo_scale three_usize ltac:(lia) bo_total bo_square.
Example C87_exact_t : (3 / 2 <> 0)%R /\ (qr (qc 9 4) = 3 / 2 * (3 / 2))%R /\
  qc 3 1 * ((norm1 2 (rd bo) / qc 3 1) ^ 19 / qfact 19) * Q2Qc (3 # 1) ^ (1 * 3) <= qc 1 1000000000000000.
Proof. split; [lra|]. split; [rewrite qr_qc; lra|]. vm_compute. discriminate. Qed.

(** In double precision: x has coefficients that are numbers, their exact values multiply to
    x * x = s, and the other hypotheses are those of C79. *)
Theorem C87_f64 {m : Mode} {H : HashOrder} {EO : ExpOps flt} {FF : FromF flt flt} {NF : NormF flt flt}
  (rnd : Qc -> Qc) sg A (k : kind) (x : store k flt) (c : flt) (r U s : Qc) fuel :
  (forall c, e_gt_eps c = f64_gt_eps c) -> (forall a : flt, from_f a = a) -> (forall a, a <= rnd a) -> declared sg A ->
  valid A x -> all_okay A x -> norm1 (a_dim A) (fun i => val (rd x i)) <= r ->
  mv_exp_scale A x = Ok c -> okay c -> (0 < e_usize c)%nat -> val c = natq (e_usize c) -> natq (e_usize c) <= pow2q 64 -> (18 < fuel)%nat ->
  top_exp rnd (a_dim A) r (val (rdiv r1 c)) (map (fun j => val (exp_coeff (F := flt) j)) (seq 1 18)) (e_usize c) = Some U ->
  (forall i, (i < 2 ^ N.of_nat (a_dim A))%N -> spec_mul (sq sg) (a_dim A) (fun j => val (rd x j)) (fun j => val (rd x j)) i = single 0%N s i) ->
  exists z : store k flt, mv_exp A fuel x = Ok z /\ valid A z /\ all_okay A z /\ forall t : R, (t <> 0)%R ->
  let bound := (qr U + exp (qr ((1 + ulp) * (1 + (1 + 1) * ulp) * r)) - 2 * qr (exp_num 18 ((1 - ulp) * (1 - (1 + 1) * ulp) * r / natq (e_usize c)) ^ e_usize c))%R in
  ((qr s = - (t * t))%R -> (rnorm1 (a_dim A) (fun i => qr (val (rd z i)) - ((if (i =? 0)%N then cos t else 0) + sin t / t * qr (val (rd x i)))) <= bound)%R) /\
  ((qr s = t * t)%R -> (rnorm1 (a_dim A) (fun i => qr (val (rd z i)) - ((if (i =? 0)%N then cosh t else 0) + sinh t / t * qr (val (rd x i)))) <= bound)%R).
Proof. exact (fun HE HF => c87_f64 HE HF rnd sg A k x c r U s fuel). Qed.
Print Assumptions C87_f64.
Example C87_f64_ex := C87_f64 grid sg_11 (alg sg_11) KDense bof (fz 2) (qc 3 2) _ (qc 9 4) 19 (fun _ => eq_refl) (fun _ => eq_refl) grid_le d_11
  ltac:(vld) ltac:(apply okbs_ok; vm_compute; reflexivity) ltac:(apply qleb_ok; vm_compute; reflexivity) bof_scale ltac:(apply okb_ok; reflexivity)
  ltac:(apply Nat.ltb_lt; reflexivity) ltac:(apply Qc_is_canon; vm_compute; reflexivity) ltac:(apply qleb_ok; vm_compute; reflexivity) ltac:(lia) ltac:(apply (some_of _ 0); vm_compute; reflexivity) bof_square.

(** Small arguments in dimension at most 5: the error is below 2 10^-14. *)
Theorem C87_small {m : Mode} {H : HashOrder} {EO : ExpOps flt} {FF : FromF flt flt} {NF : NormF flt flt}
  sg A (k : kind) (x : store k flt) s fuel :
  (forall c, e_gt_eps c = f64_gt_eps c) -> (forall a : flt, from_f a = a) -> declared sg A -> (length sg <= 5)%nat ->
  valid A x -> all_okay A x -> norm1 (a_dim A) (fun i => val (rd x i)) <= 1 ->
  mv_exp_scale A x = Ok r1 -> e_usize (r1 : flt) = 1%nat -> (18 < fuel)%nat ->
  (forall i, (i < 2 ^ N.of_nat (a_dim A))%N -> spec_mul (sq sg) (a_dim A) (fun j => val (rd x j)) (fun j => val (rd x j)) i = single 0%N s i) ->
  exists z : store k flt, mv_exp A fuel x = Ok z /\ valid A z /\ all_okay A z /\ forall t : R, (t <> 0)%R ->
  ((qr s = - (t * t))%R -> (rnorm1 (a_dim A) (fun i => qr (val (rd z i)) - ((if (i =? 0)%N then cos t else 0) + sin t / t * qr (val (rd x i)))) <= 2 / 10 ^ 14)%R) /\
  ((qr s = t * t)%R -> (rnorm1 (a_dim A) (fun i => qr (val (rd z i)) - ((if (i =? 0)%N then cosh t else 0) + sinh t / t * qr (val (rd x i)))) <= 2 / 10 ^ 14)%R).
Proof. exact (fun HE HF => c87_small HE HF sg A k x s fuel). Qed.
Print Assumptions C87_small.
Example C87_small_ex := C87_small sg_e3 (alg sg_e3) KDense rof (qc (-3) 8) 19 (fun _ => eq_refl) (fun _ => eq_refl) d_e3 ltac:(apply Nat.leb_le; reflexivity)
  ltac:(vld) ltac:(apply okbs_ok; vm_compute; reflexivity) ltac:(apply qleb_ok; vm_compute; reflexivity) rof_scale eq_refl ltac:(lia) rof_square.
Example C87_small_t : (sqrt (3 / 8) <> 0)%R /\ (qr (qc (-3) 8) = - (sqrt (3 / 8) * sqrt (3 / 8)))%R.
Proof.
  assert (H : (0 <= 3 / 8)%R) by lra. pose proof (sqrt_sqrt _ H) as E. split; [intros Z; rewrite Z in E; lra|]. rewrite E, qr_qc. lra.
Qed.
