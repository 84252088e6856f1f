(** Property C76: exp in the transform domain and the exponential series, exact arithmetic (f64 = Qc). *)
From Coq Require Import QArith.
From Verif Require Import Ex_ExpLim P_ExpLim5.
Local Open Scope Qc_scope.

(** C76. The exponential computed on representations, transformed back, against the partial sums of
    the exponential series; c is the scale computed for the representation. *)
Theorem C76_series {T} {RO : RingOps T} {L : RingLaws T} {CT : CommLaws T} {IC : IntoCplx T Qc} {FC : FromCplx T Qc} {CV : ConvLaws T Qc}
  {FF : FromF T Qc} {FRM : FromLaws T Qc} {SZ : SizeLaws T} {EO : ExpOps Qc} {EL : EpsLaws Qc} {ML : MaxLaws Qc} {m : Mode} {H : HashOrder}
  sg A (x : store KDense T) X (c : Qc) (n : nat) fuel :
  declared sg A -> (length sg < 63)%nat -> (forall q : Qc, into_complex (from_f (T := T) q) = mkC q 0) ->
  valid A x -> mv_fft (F := Qc) A (x : arr T) = Ok X -> exp_scale A X = Ok c -> nat_f (e_usize c) = c -> (18 < fuel)%nat ->
  total (a_dim A) (rd x) <= nat_f n * c ->
  exists z : store KDense T, (E <- fr_exp A fuel X ;; fr_ifft A E) = Ok (z : arr T) /\ valid A z /\
  forall K, (18 * e_usize c <= K)%nat ->
    total (a_dim A) (fun i => rsub (rd z i) (exp_sum (sq sg) (a_dim A) (rd x) K i)) <=
      exp_num K (total (a_dim A) (rd x)) - exp_num 18 (total (a_dim A) (rd x) / c) ^ e_usize c /\
    total (a_dim A) (fun i => rsub (rd z i) (exp_sum (sq sg) (a_dim A) (rd x) K i)) <=
      c * ((total (a_dim A) (rd x) / c) ^ 19 / qfact 19) * Q2Qc (3 # 1) ^ (n * e_usize c).
Proof. exact (fun D Hl Hc Hx EX Ec Hs Hf Hn => c76_bound sg A D Hl Hc fuel x X c n Hx Hf EX Ec Hs Hn). Qed.
Print Assumptions C76_series.
(** x = 1 + e1 e0 in Cl(1,1), scale 2, as in [C76_ex] below. *)
Example C76_series_ex : let x : store KDense Qc := mkArr 2 [qc 1 1; qc 0 1; qc 0 1; qc 1 1] in let A := alg sg_11 in
  exists X, mv_fft (F := Qc) A (x : arr Qc) = Ok X /\ exists z : store KDense Qc, (E <- fr_exp A 19 X ;; fr_ifft A E) = Ok (z : arr Qc) /\
  total 2 (fun i => rsub (rd z i) (exp_sum (sq sg_11) 2 (rd x) 36 i)) <= qc 1 10000000000.
Proof.
  cbv zeta. eexists. split; [vm_compute; reflexivity|].
  match goal with |- context [fr_exp _ _ ?X] => destruct (C76_series (T := Qc) sg_11 (alg sg_11) (mkArr 2 [qc 1 1; qc 0 1; qc 0 1; qc 1 1]) X (qc 2 1) 2 19) as (z & Ez & _ & B) end;
    [exact d_11|apply Nat.ltb_lt; reflexivity|reflexivity|vld|vm_compute; reflexivity|vm_compute; reflexivity|apply Qc_is_canon; vm_compute; reflexivity|lia|vm_compute; discriminate|].
  exists z. split; [exact Ez|]. destruct (B 36%nat (Nat.le_refl _)) as [_ G]. eapply Qcle_trans; [exact G|]. vm_compute. discriminate.
Qed.

(** So both ways of computing the exponential agree up to the sum of their errors (the scales c of
    the representation and c' of the multivector may differ). *)
Theorem C76_agree {T} {RO : RingOps T} {L : RingLaws T} {CT : CommLaws T} {IC : IntoCplx T Qc} {FC : FromCplx T Qc} {CV : ConvLaws T Qc}
  {FF : FromF T Qc} {FRM : FromLaws T Qc} {SZ : SizeLaws T} {EO : ExpOps Qc} {EL : EpsLaws Qc} {ML : MaxLaws Qc} {NF : NormF T Qc} {m : Mode} {H : HashOrder}
  sg A (x : store KDense T) X (c c' : Qc) (n : nat) fuel :
  declared sg A -> (length sg < 63)%nat -> (forall q : Qc, into_complex (from_f (T := T) q) = mkC q 0) ->
  valid A x -> mv_fft (F := Qc) A (x : arr T) = Ok X -> (18 < fuel)%nat ->
  exp_scale A X = Ok c -> nat_f (e_usize c) = c -> total (a_dim A) (rd x) <= nat_f n * c ->
  mv_exp_scale A x = Ok c' -> nat_f (e_usize c') = c' -> total (a_dim A) (rd x) <= nat_f n * c' ->
  exists z y : store KDense T, (E <- fr_exp A fuel X ;; fr_ifft A E) = Ok (z : arr T) /\ valid A z /\ mv_exp (F := Qc) A fuel x = Ok y /\ valid A y /\
    total (a_dim A) (fun i => rsub (rd z i) (rd y i)) <=
      c * ((total (a_dim A) (rd x) / c) ^ 19 / qfact 19) * Q2Qc (3 # 1) ^ (n * e_usize c) +
      c' * ((total (a_dim A) (rd x) / c') ^ 19 / qfact 19) * Q2Qc (3 # 1) ^ (n * e_usize c').
Proof. exact (fun D Hl Hc Hx EX Hf Ec Hs Hn Ec' Hs' Hn' => c76_agree sg A D Hl Hc fuel x X c c' n Hx Hf EX Ec Hs Hn Ec' Hs' Hn'). Qed.
Print Assumptions C76_agree.

(** x = 1 + e1 e0 in Cl(1,1): scale 2 in the transform domain, 1 outside; both errors are below
    10^-10, the results differ. *)
Example C76_ex : let x : store KDense Qc := mkArr 2 [qc 1 1; qc 0 1; qc 0 1; qc 1 1] in let A := alg sg_11 in
  declared sg_11 A /\ (length sg_11 < 63)%nat /\ (forall q : Qc, into_complex (from_f (T := Qc) q) = mkC q 0) /\ valid A x /\
  match (X <- mv_fft (F := Qc) A (x : arr Qc) ;; exp_scale A X) with Ok c => Qc_eq_bool c (qc 2 1) | _ => false end = true /\
  match mv_exp_scale (F := Qc) A x with Ok c => Qc_eq_bool c (qc 1 1) | _ => false end = true /\
  nat_f (e_usize (qc 2 1)) = qc 2 1 /\ nat_f (e_usize (qc 1 1)) = qc 1 1 /\ total 2 (rd x) <= nat_f 2 * qc 2 1 /\ total 2 (rd x) <= nat_f 2 * qc 1 1 /\
  qc 2 1 * ((total 2 (rd x) / qc 2 1) ^ 19 / qfact 19) * Q2Qc (3 # 1) ^ (2 * 2) <= qc 1 10000000000 /\
  qc 1 1 * ((total 2 (rd x) / qc 1 1) ^ 19 / qfact 19) * Q2Qc (3 # 1) ^ (2 * 1) <= qc 1 10000000000 /\
  aeq (X <- mv_fft (F := Qc) A (x : arr Qc) ;; E <- fr_exp A 19 X ;; fr_ifft A E) (mv_exp (F := Qc) A 19 x) = false.
Proof.
  cbv zeta. split; [dcl|]. split; [apply Nat.ltb_lt; reflexivity|]. split; [reflexivity|]. split; [vld|]. split; [vm_compute; reflexivity|]. split; [vm_compute; reflexivity|].
  split; [apply Qc_is_canon; vm_compute; reflexivity|]. split; [apply Qc_is_canon; vm_compute; reflexivity|]. do 4 (split; [vm_compute; discriminate|]). vm_compute. reflexivity.
Qed.
