(** Property C79: exp in floating point against the exponential series. *)
From Coq Require Import QArith List.
Import ListNotations.
From Verif Require Import Ex_ExpRnd.
Local Open Scope Qc_scope.

(** C79. [exp] in rounded arithmetic.  Let x have coefficients that are numbers of the type, with
    absolute values adding up to at most r; let exp scale by the integer s (the hypothesis on c)
    and use the coefficients 1/j! up to factors lo^j and hi^j.  If the procedure of exp, run on
    numbers with every rounding taken upwards ([top_exp]), stays below the overflow limit and
    gives U, then exp(x) exists, has no infinity or NaN among its coefficients, and differs
    from every partial sum of the exponential series of x beyond n s terms, summed over the
    coefficients, by at most U + e^(hi r) - 2 (e^(lo r/s))^s, where the two exponentials are
    partial sums too. *)
Theorem C79_exp {F} {RF : RingOps F} {DF : DivOps F} {V : RoundOps F} {RL : RoundLaws F} {W : NumLaws F} {G : RangeOps F} {GL : RangeLaws F}
  {m : Mode} {H : HashOrder} {EO : ExpOps F} {FF : FromF F F} {NF : NormF F F}
  (rnd : Qc -> Qc) sg A (k : kind) (x : store k F) (n : nat) (c : F) (r U lo hi : Qc) fuel :
  (forall a, a <= rnd a) -> declared sg A -> (forall a : F, from_f a = a) ->
  valid A x -> all_okay A x -> norm1 (a_dim A) (fun i => val (rd x i)) <= r ->
  (forall j, (j < n)%nat -> e_gt_eps (exp_coeff (F := F) j) = true) -> e_gt_eps (exp_coeff (F := F) n) = false ->
  (forall j, (j <= n)%nat -> okay (exp_coeff (F := F) j) /\ lo ^ j <= val (exp_coeff (F := F) j) * qfact j /\ val (exp_coeff (F := F) j) * qfact j <= hi ^ j) ->
  0 <= lo -> lo <= 1 -> 1 <= hi ->
  mv_exp_scale A x = Ok c -> okay c -> (0 < e_usize c)%nat -> val c = natq (e_usize c) -> 1 < big -> natq (e_usize c) * eta <= ulp -> (1 + 1) * ulp <= 1 ->
  (n < fuel)%nat ->
  top_exp rnd (a_dim A) r (val (rdiv r1 c)) (map (fun j => val (exp_coeff (F := F) j)) (seq 1 n)) (e_usize c) = Some U ->
  exists z : store k F, mv_exp A fuel x = Ok z /\ valid A z /\ all_okay A z /\
  forall K, (n * e_usize c <= K)%nat ->
    norm1 (a_dim A) (fun i => val (rd z i) - exp_sum (FF := id_from) (sq sg) (a_dim A) (fun j => val (rd x j)) K i) <=
    U + exp_num K (hi * (1 + (1 + 1) * ulp) * r) - (1 + 1) * exp_num n (lo * (1 - (1 + 1) * ulp) * r / natq (e_usize c)) ^ e_usize c.
Proof. exact (fun Hr D HF => c79 rnd Hr sg A D k x HF n c r U lo hi fuel). Qed.
Print Assumptions C79_exp.

(** Double precision meets the hypotheses on the coefficients and on the type, with n = 18 and factors 1 - 2^-53, 1 + 2^-53. *)
Example C79_exp_ex : (forall a : flt, from_f a = a) /\
  (forall j, (j < 18)%nat -> e_gt_eps (exp_coeff (F := flt) j) = true) /\ e_gt_eps (exp_coeff (F := flt) 18) = false /\
  (forall j, (j <= 18)%nat -> okay (exp_coeff (F := flt) j) /\ (1 - ulp) ^ j <= val (exp_coeff (F := flt) j) * qfact j /\ val (exp_coeff (F := flt) j) * qfact j <= (1 + ulp) ^ j) /\
  val (exp_coeff (F := flt) 18) <> 1 / qfact 18 /\ 0 <= 1 - (ulp : Qc) /\ 1 - (ulp : Qc) <= 1 /\ 1 <= 1 + (ulp : Qc) /\ 1 < (big : Qc) /\ natq 2 * eta <= ulp /\ (1 + 1) * ulp <= (1 : Qc).
Proof.
  split; [reflexivity|]. split; [exact go_18|]. split; [exact eps_18_f64|]. split; [exact coef_18|]. split; [vm_compute; discriminate|].
  split; [apply qleb_ok; vm_compute; reflexivity|]. split; [apply qleb_ok; vm_compute; reflexivity|]. split; [apply qleb_ok; vm_compute; reflexivity|].
  split; [apply qltb_ok; vm_compute; reflexivity|]. split; apply qleb_ok; vm_compute; reflexivity.
Qed.

(** In double precision, where the coefficients are known. *)
Theorem C79_f64 {m : Mode} {H : HashOrder} {EO : ExpOps flt} {FF : FromF flt flt} {NF : NormF flt flt}
  (rnd : Qc -> Qc) sg A (k : kind) (x : store k flt) (c : flt) (r U : Qc) fuel :
  (forall c, e_gt_eps c = f64_gt_eps c) -> (forall a : flt, from_f a = a) -> (forall a, a <= rnd a) -> declared sg A ->
  valid A x -> all_okay A x -> norm1 (a_dim A) (fun i => val (rd x i)) <= r ->
  mv_exp_scale A x = Ok c -> okay c -> (0 < e_usize c)%nat -> val c = natq (e_usize c) -> natq (e_usize c) <= pow2q 64 -> (18 < fuel)%nat ->
  top_exp rnd (a_dim A) r (val (rdiv r1 c)) (map (fun j => val (exp_coeff (F := flt) j)) (seq 1 18)) (e_usize c) = Some U ->
  exists z : store k flt, mv_exp A fuel x = Ok z /\ valid A z /\ all_okay A z /\
  forall K, (18 * e_usize c <= K)%nat ->
    norm1 (a_dim A) (fun i => val (rd z i) - exp_sum (FF := id_from) (sq sg) (a_dim A) (fun j => val (rd x j)) K i) <=
    U + exp_num K ((1 + ulp) * (1 + (1 + 1) * ulp) * r) - (1 + 1) * exp_num 18 ((1 - ulp) * (1 - (1 + 1) * ulp) * r / natq (e_usize c)) ^ e_usize c.
Proof. exact (fun HE HF => c79_f64 HE HF rnd sg A k x c r U fuel). Qed.
Print Assumptions C79_f64.

(** x = 3/2 e0 - 1/4 e1 e0 in Cl(1,1): scale 2, and the number procedure ends within 10^-13 of (1 + 7/8 + ... + (7/8)^18/18!)^2. *)
Example C79_f64_ex : let A := alg sg_11 in
  (forall c : flt, e_gt_eps c = f64_gt_eps c) /\ (forall a, a <= grid a) /\ declared sg_11 A /\ valid A x_er /\ all_okay A x_er /\ norm1 2 (fun i => val (rd x_er i)) <= qz 7 4 /\
  mv_exp_scale A x_er = Ok (fz 2) /\ okay (fz 2) /\ e_usize (fz 2) = 2%nat /\ val (fz 2) = natq 2 /\ natq 2 <= pow2q 64 /\
  match top_exp grid 2 (qz 7 4) (val (rdiv r1 (fz 2))) (map (fun j => val (exp_coeff (F := flt) j)) (seq 1 18)) 2 with
  | Some U => qleb (U - exp_num 18 (qz 7 8) ^ 2) (qz 1 (10 ^ 13)) | None => false end = true.
Proof.
  cbv zeta. split; [reflexivity|]. split; [exact grid_le|]. split; [dcl|]. split; [vld|]. split; [apply okbs_ok; vm_compute; reflexivity|]. split; [apply qleb_ok; vm_compute; reflexivity|].
  split; [vm_compute; reflexivity|]. split; [apply okb_ok; reflexivity|]. split; [reflexivity|]. split; [apply Qc_is_canon; vm_compute; reflexivity|]. split; [apply qleb_ok; vm_compute; reflexivity|].
  vm_compute. reflexivity.
Qed.

(** Small arguments: in every algebra of dimension at most 5, if the absolute values of the
    coefficients add up to at most 1 and exp does not scale, the error is below 2 10^-14. *)
Theorem C79_small {m : Mode} {H : HashOrder} {EO : ExpOps flt} {FF : FromF flt flt} {NF : NormF flt flt}
  sg A (k : kind) (x : store k flt) fuel :
  (forall c, e_gt_eps c = f64_gt_eps c) -> (forall a : flt, from_f a = a) -> declared sg A -> (length sg <= 5)%nat ->
  valid A x -> all_okay A x -> norm1 (a_dim A) (fun i => val (rd x i)) <= 1 ->
  mv_exp_scale A x = Ok r1 -> e_usize (r1 : flt) = 1%nat -> (18 < fuel)%nat ->
  exists z : store k flt, mv_exp A fuel x = Ok z /\ valid A z /\ all_okay A z /\
  forall K, (18 <= K)%nat ->
    norm1 (a_dim A) (fun i => val (rd z i) - exp_sum (FF := id_from) (sq sg) (a_dim A) (fun j => val (rd x j)) K i) <= Q2Qc (2 # 10 ^ 14).
Proof. exact (fun HE HF => c79_small HE HF sg A k x fuel). Qed.
Print Assumptions C79_small.

(** x = 1/10 e0 + 1/10 e1 + 3/10 e2 in Cl(3), in sparse storage. *)
Example C79_small_ex : let A := alg sg_e3 in
  declared sg_e3 A /\ (length sg_e3 <= 5)%nat /\ valid A (r_xs 5) /\ all_okay A (r_xs 5) /\ norm1 3 (fun i => val (rd (r_xs 5) i)) <= 1 /\
  mv_exp_scale A (r_xs 5) = Ok r1 /\ e_usize (r1 : flt) = 1%nat /\ ok_b (z <- mv_exp A 19 (r_xs 5) ;; Ok (match rd z 4 with FZ => false | _ => true end)) = true.
Proof.
  cbv zeta. split; [dcl|]. split; [apply Nat.leb_le; reflexivity|]. split; [exact (v_rxs 5)|]. split; [apply okbs_ok; vm_compute; reflexivity|]. split; [apply qleb_ok; vm_compute; reflexivity|].
  split; [vm_compute; reflexivity|]. split; [reflexivity|]. vm_compute. reflexivity.
Qed.
