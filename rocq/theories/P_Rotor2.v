(** exp of square roots of numbers against cos, sin, cosh and sinh: the theorems of C87. *)
From Verif Require Export P_Rotor P_ExpRnd2.
From Coq Require Import QArith Lia Reals Qreals Lra.
Local Open Scope Qc_scope.

Lemma idx_lt d i : In i (idxs d) -> (i < pow2 d)%N.
Proof. intros Hi. apply in_idxs. exact Hi. Qed.

Section Sums.
Context {T : Type} {RO : RingOps T} {L : RingLaws T} {CT : CommLaws T} {FF : FromF T Qc} {FRM : FromLaws T Qc} {SZ : SizeLaws T}
  {EO : ExpOps Qc} {EL : EpsLaws Qc} {ML : MaxLaws Qc} {NF : NormF T Qc} {m : Mode} {H : HashOrder}.
Variables (k : kind) (sg : list tok) (A : algebra).
Hypothesis D : declared sg A.
Lemma sq_agree (x : store k T) t : valid A x -> agree A (mv_mul A x x) (mv_from_scalar A t) -> feq (a_dim A) (spec_mul (sq sg) (a_dim A) (rd x) (rd x)) (single 0%N t).
Proof.
  intros Hx Ha i Hi. destruct (mul_spec_thm k sg A D x x Hx Hx) as (p & Ep & Vp & Fp). destruct Ha as (p' & q & Ep' & Eq & Vp' & Vq & _ & F).
  assert (Ht : st_dim_ok (StorageLaws := KLaws (T := T) k) (a_dim A)) by apply (valid_dim A x Hx).
  destruct (g_from_scalar (S := store k T) A t Ht) as (q' & Eq' & Vq' & Fq).
  rewrite Ep in Ep'. injection Ep' as <-. rewrite Eq in Eq'. injection Eq' as <-. specialize (F i Hi).
  unfold rd in F. rewrite Fp, Fq in F by auto. exact F.
Qed.
Theorem c87_sums (x : store k T) (c s : Qc) n fuel : valid A x -> mv_exp_scale A x = Ok c -> nat_f (e_usize c) = c -> (18 < fuel)%nat ->
  total (a_dim A) (rd x) <= nat_f n * c -> agree A (mv_mul A x x) (mv_from_scalar A (from_f s)) ->
  exists z, mv_exp (F := Qc) A fuel x = Ok z /\ valid A z /\ forall J, (18 * e_usize c <= 2 * J)%nat ->
  total (a_dim A) (fun i => rsub (rd z i) (radd (single 0%N (from_f (even_sum J s)) i) (rmul (rd x i) (from_f (odd_sum J s))))) <=
  c * ((total (a_dim A) (rd x) / c) ^ 19 / qfact 19) * Q2Qc (3 # 1) ^ (n * e_usize c).
Proof.
  intros Hx Ec Hs Hfu Hn Ha. destruct (c74_bound sg A D fuel x c n Hx Hfu Ec Hs Hn) as (z & Ez & Hz & B). exists z. split; auto. split; auto.
  intros J HJ. specialize (B (S (2 * J)) ltac:(lia)). erewrite total_ext; [exact B|]. intros i Hi. cbv beta. f_equal. symmetry. apply (exp_sum_sq sg A D (rd x) s (sq_agree x _ Hx Ha)); auto.
Qed.
End Sums.

Section Lim.
Context {FF : FromF Qc Qc}.
Hypothesis HF : forall q : Qc, from_f (T := Qc) q = q.
Variables (sg : list tok) (A : algebra).
Hypothesis D : declared sg A.
Local Notation d := (a_dim A).

Lemma from_laws : FromLaws Qc Qc.
Proof. constructor; intros; rewrite !HF; reflexivity. Qed.
Lemma size_laws : SizeLaws Qc.
Proof.
  refine {| size := Qcabs |}; cbn [radd rmul rneg r0 QcOps from_f].
  - apply Qcabs_nonneg.
  - apply Qcabs_pos, Qcle_refl.
  - apply Qcabs_triangle.
  - apply Qcabs_opp.
  - intros a b. rewrite Qcabs_Qcmult. apply Qcle_refl.
  - intros q. rewrite HF. reflexivity.
Defined.

Lemma rot_lim (f z : N -> Qc) (s : Qc) (B : nat -> Qc) b n0 : feq d (spec_mul (sq sg) d f f) (single 0%N s) ->
  (forall K, (n0 <= K)%nat -> norm1 d (fun i => z i - exp_sum (sq sg) d f K i) <= B K) -> Un_cv (fun K => qr (B K)) b ->
  forall t : R, (t <> 0)%R ->
  ((qr s = - (t * t))%R -> (rnorm1 d (fun i => qr (z i) - ((if (i =? 0)%N then cos t else 0) + sin t / t * qr (f i))) <= b)%R) /\
  ((qr s = t * t)%R -> (rnorm1 d (fun i => qr (z i) - ((if (i =? 0)%N then cosh t else 0) + sinh t / t * qr (f i))) <= b)%R).
Proof.
  intros Hf HB Hb t Ht.
  assert (Hf' : feq d (spec_mul (sq sg) d f f) (single 0%N (from_f s))) by (rewrite HF; exact Hf).
  pose proof (fun J => exp_sum_sq (FRM := from_laws) sg A D f s Hf' J) as ES.
  assert (HL : forall C S' : R, Un_cv (fun J => qr (even_sum J s)) C -> Un_cv (fun J => qr (odd_sum J s)) S' ->
    (rnorm1 d (fun i => qr (z i) - ((if (i =? 0)%N then C else 0) + S' * qr (f i))) <= b)%R).
  { intros C S' HC HS. apply (limit d z (fun J => exp_sum (sq sg) d f (S (2 * J))) _ (fun J => B (S (2 * J))) b n0).
    - intros J HJ. apply HB. lia.
    - intros i Hi. apply idx_lt in Hi. apply cv_ext with (fun J => ((if (i =? 0)%N then qr (even_sum J s) else 0) + qr (odd_sum J s) * qr (f i))%R).
      + intros J. rewrite (ES J i Hi), !HF. change (radd (single 0%N (even_sum J s) i) (rmul (f i) (odd_sum J s))) with (single 0%N (even_sum J s) i + f i * odd_sum J s).
        rewrite qr_add, qr_mul. unfold single. destruct (i =? 0)%N; [|change (r0 : Qc) with 0; rewrite qr_0]; ring.
      + apply (CV_plus (fun J => if (i =? 0)%N then qr (even_sum J s) else 0%R) (fun J => (qr (odd_sum J s) * qr (f i))%R)).
        * destruct (i =? 0)%N; [exact HC|apply cv_const].
        * apply (CV_mult (fun J => qr (odd_sum J s)) (fun _ => qr (f i))); [exact HS|apply cv_const].
    - apply (cv_sub (fun K => qr (B K)) b (fun J => S (2 * J))); [intros; lia|exact Hb]. }
  split; intros Es; apply HL; auto using even_cos, odd_sin, even_cosh, odd_sinh.
Qed.
End Lim.

Section Exact.
Context {FF : FromF Qc Qc} {EO : ExpOps Qc} {EL : EpsLaws Qc} {ML : MaxLaws Qc} {NF : NormF Qc Qc} {m : Mode} {H : HashOrder}.
Hypothesis HF : forall q : Qc, from_f (T := Qc) q = q.

Theorem c87_exact (k : kind) sg A (x : store k Qc) (c s : Qc) n fuel : declared sg A -> valid A x -> mv_exp_scale A x = Ok c -> nat_f (e_usize c) = c -> (18 < fuel)%nat ->
  norm1 (a_dim A) (rd x) <= nat_f n * c -> agree A (mv_mul A x x) (mv_from_scalar A s) ->
  exists z, mv_exp (F := Qc) A fuel x = Ok z /\ valid A z /\ forall t : R, (t <> 0)%R ->
  let bound := c * ((norm1 (a_dim A) (rd x) / c) ^ 19 / qfact 19) * Q2Qc (3 # 1) ^ (n * e_usize c) in
  ((qr s = - (t * t))%R -> (rnorm1 (a_dim A) (fun i => qr (rd z i) - ((if (i =? 0)%N then cos t else 0) + sin t / t * qr (rd x i))) <= qr bound)%R) /\
  ((qr s = t * t)%R -> (rnorm1 (a_dim A) (fun i => qr (rd z i) - ((if (i =? 0)%N then cosh t else 0) + sinh t / t * qr (rd x i))) <= qr bound)%R).
Proof.
  intros D Hx Ec Hs Hfu Hn Ha.
  destruct (c74_bound (FRM := from_laws HF) (SZ := size_laws HF) sg A D fuel x c n Hx Hfu Ec Hs Hn) as (z & Ez & Hz & B).
  exists z. split; auto. split; auto. apply (rot_lim HF sg A D (rd x) (rd z) s (fun _ => c * ((norm1 (a_dim A) (rd x) / c) ^ 19 / qfact 19) * Q2Qc (3 # 1) ^ (n * e_usize c)) _ (18 * e_usize c)).
  - apply sq_agree; auto.
  - exact B.
  - apply cv_const.
Qed.
End Exact.

Section F64.
#[local] Existing Instance f64_rounds.
#[local] Existing Instance f64_range.
#[local] Existing Instance V64.
#[local] Existing Instance G64.
#[local] Existing Instance D64.
#[local] Existing Instance F64.
Context {m : Mode} {H : HashOrder} {EO : ExpOps flt} {FF : FromF flt flt} {NF : NormF flt flt}.
Hypothesis HE : forall c, e_gt_eps c = f64_gt_eps c.
Hypothesis HF : forall a : flt, from_f a = a.
Theorem c87_f64 (rnd : Qc -> Qc) sg A (k : kind) (x : store k flt) (c : flt) (r U s : Qc) fuel : (forall a, a <= rnd a) -> declared sg A ->
  valid A x -> all_okay A x -> norm1 (a_dim A) (fun i => val (rd x i)) <= r ->
  mv_exp_scale A x = Ok c -> okay c -> (0 < e_usize c)%nat -> val c = natq (e_usize c) -> natq (e_usize c) <= pow2q 64 -> (18 < fuel)%nat ->
  top_exp rnd (a_dim A) r (val (rdiv r1 c)) (map (fun j => val (exp_coeff (F := flt) j)) (seq 1 18)) (e_usize c) = Some U ->
  (forall i, (i < 2 ^ N.of_nat (a_dim A))%N -> spec_mul (sq sg) (a_dim A) (fun j => val (rd x j)) (fun j => val (rd x j)) i = single 0%N s i) ->
  exists z : store k flt, mv_exp A fuel x = Ok z /\ valid A z /\ all_okay A z /\ forall t : R, (t <> 0)%R ->
  let bound := (qr U + exp (qr ((1 + ulp) * (1 + (1 + 1) * ulp) * r)) - 2 * qr (exp_num 18 ((1 - ulp) * (1 - (1 + 1) * ulp) * r / natq (e_usize c)) ^ e_usize c))%R in
  ((qr s = - (t * t))%R -> (rnorm1 (a_dim A) (fun i => qr (val (rd z i)) - ((if (i =? 0)%N then cos t else 0) + sin t / t * qr (val (rd x i)))) <= bound)%R) /\
  ((qr s = t * t)%R -> (rnorm1 (a_dim A) (fun i => qr (val (rd z i)) - ((if (i =? 0)%N then cosh t else 0) + sinh t / t * qr (val (rd x i)))) <= bound)%R).
Proof.
  intros Hr D Hx Kx Hn Ec Kc Hc Hv H64 Hfu HU Hq.
  destruct (c79_f64 HE HF rnd sg A k x c r U fuel Hr D Hx Kx Hn Ec Kc Hc Hv H64 Hfu HU) as (z & Ez & Hz & Kz & B). exists z. split; auto. split; auto. split; auto.
  apply (rot_lim (FF := id_from) (fun q => eq_refl) sg A D (fun j => val (rd x j)) (fun j => val (rd z j)) s
    (fun K => U + exp_num K ((1 + ulp) * (1 + (1 + 1) * ulp) * r) - (1 + 1) * exp_num 18 ((1 - ulp) * (1 - (1 + 1) * ulp) * r / natq (e_usize c)) ^ e_usize c) _ (18 * e_usize c)).
  - exact Hq.
  - exact B.
  - set (a := (1 + ulp) * (1 + (1 + 1) * ulp) * r). set (e := exp_num 18 _ ^ _).
    apply cv_ext with (fun K => (qr U + qr (exp_num K a) - 2 * qr e)%R).
    + intros K. rewrite qr_sub, qr_add, qr_mul, qr_add, qr_1. lra.
    + apply (CV_minus (fun K => (qr U + qr (exp_num K a))%R) (fun _ => (2 * qr e)%R)); [|apply cv_const].
      apply (CV_plus (fun _ => qr U) (fun K => qr (exp_num K a))); [apply cv_const|apply num_exp].
Qed.
Theorem c87_small sg A (k : kind) (x : store k flt) s fuel : declared sg A -> (length sg <= 5)%nat ->
  valid A x -> all_okay A x -> norm1 (a_dim A) (fun i => val (rd x i)) <= 1 ->
  mv_exp_scale A x = Ok r1 -> e_usize (r1 : flt) = 1%nat -> (18 < fuel)%nat ->
  (forall i, (i < 2 ^ N.of_nat (a_dim A))%N -> spec_mul (sq sg) (a_dim A) (fun j => val (rd x j)) (fun j => val (rd x j)) i = single 0%N s i) ->
  exists z : store k flt, mv_exp A fuel x = Ok z /\ valid A z /\ all_okay A z /\ forall t : R, (t <> 0)%R ->
  ((qr s = - (t * t))%R -> (rnorm1 (a_dim A) (fun i => qr (val (rd z i)) - ((if (i =? 0)%N then cos t else 0) + sin t / t * qr (val (rd x i)))) <= 2 / 10 ^ 14)%R) /\
  ((qr s = t * t)%R -> (rnorm1 (a_dim A) (fun i => qr (val (rd z i)) - ((if (i =? 0)%N then cosh t else 0) + sinh t / t * qr (val (rd x i)))) <= 2 / 10 ^ 14)%R).
Proof.
  intros D Hl Hx Kx Hn Ec Hu Hfu Hq.
  destruct (c79_small HE HF sg A k x fuel D Hl Hx Kx Hn Ec Hu Hfu) as (z & Ez & Hz & Kz & B). exists z. split; auto. split; auto. split; auto.
  apply (rot_lim (FF := id_from) (fun q => eq_refl) sg A D (fun j => val (rd x j)) (fun j => val (rd z j)) s (fun _ => Q2Qc (2 # 10 ^ 14)) _ 18).
  - exact Hq.
  - exact B.
  - replace (2 / 10 ^ 14)%R with (qr (Q2Qc (2 # 10 ^ 14))); [apply cv_const|]. unfold qr. change (this (Q2Qc (2 # 10 ^ 14))) with (Qred (2 # 10 ^ 14)).
    rewrite (Qeq_eqR _ _ (Qred_correct _)). unfold Q2R, Rdiv. f_equal. f_equal. rewrite pow_IZR. reflexivity.
Qed.
End F64.
