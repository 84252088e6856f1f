(** Integers going through the transforms: stored multivectors. *)
From Verif Require Export Spec_IntFft P_IntFft4.
From Coq Require Import ZArith Lia Floats.SpecFloat.
Local Open Scope Z_scope.

Lemma ieee_bits prec emax : ieee prec emax -> 1 < prec /\ prec < emax.
Proof. intros [[-> ->]|[-> ->]]; lia. Qed.
Lemma ieee_rounds prec emax : ieee prec emax -> @RoundLaws flt (flt_ops prec emax) (flt_div prec emax) (flt_round prec emax).
Proof. intros [[-> ->]|[-> ->]]; [exact f64_rounds|exact f32_rounds]. Qed.

Section Fmt.
Variables prec emax : Z.
Hypothesis Hf : ieee prec emax.
Let Hp : 1 < prec := proj1 (ieee_bits prec emax Hf).
Let He : prec < emax := proj2 (ieee_bits prec emax Hf).
Local Instance IO : RingOps flt := flt_ops prec emax.
Local Instance ID : DivOps flt := flt_div prec emax.
Local Instance IW : NumLaws flt := flt_laws prec emax.
Local Notation G := (cplx Z).
Local Notation K := (cplx flt).
Local Notation ofz := (flt_of_Z prec emax).
Local Notation ofg c := (mkC (ofz (c_re c)) (ofz (c_im c)) : K).
Local Notation EG := (gauss_emb prec emax).
Context {md : Mode} {HH : HashOrder}.
Variables (sg : list tok) (A : algebra).
Hypothesis D : declared sg A.
Hypothesis Hl : (length sg < 63)%nat.
Local Notation d := (a_dim A).
Local Notation RLp := (ieee_rounds prec emax Hf).
Local Notation zc f := (fun k : N => mkC (f k) 0 : G).

Lemma rd_holds_real (x : store KDense flt) (f : N -> Z) : valid A x -> (forall i, (i < 2 ^ N.of_nat d)%N -> rd x i = ofz (f i)) ->
  holdsC prec emax A (T := flt) (IC := RealInto) x (zc f).
Proof.
  intros Hx Hr k Hk. cbn [into_complex RealInto Spec_IntProg.emb gauss_emb c_re c_im]. rewrite <- (rd_dense A x k Hx Hk), (Hr k Hk). reflexivity.
Qed.
Lemma rd_holds_cplx (x : store KDense K) (f : N -> G) : valid A x -> (forall i, (i < 2 ^ N.of_nat d)%N -> rd x i = ofg (f i)) ->
  holdsC prec emax A (T := K) (IC := CplxInto) x f.
Proof.
  intros Hx Hr k Hk. cbn [into_complex CplxInto Spec_IntProg.emb gauss_emb c_re c_im]. rewrite <- (rd_dense A x k Hx Hk), (Hr k Hk). reflexivity.
Qed.
Lemma weight_zc f : sumI d (fun k => @size G K EG (zc f k)) = weight d f.
Proof. apply (sumI_ext (T := Z)). intros k _. cbn [Spec_IntProg.size gauss_emb c_re c_im]. lia. Qed.

Theorem back_real (x : store KDense flt) (f : N -> Z) : valid A x -> (forall i, (i < 2 ^ N.of_nat d)%N -> rd x i = ofz (f i)) -> 4 * weight d f <= 2 ^ prec ->
  exists z : store KDense flt, (X <- mv_fft (F := flt) A (x : arr flt) ;; fr_ifft A X) = Ok (z : arr flt) /\ valid A z /\
  forall i, (i < 2 ^ N.of_nat d)%N -> rd z i = rd x i.
Proof.
  intros Hx Hr Hw. destruct (back_core prec emax Hp He RLp sg A D Hl (T := flt) (IC := RealInto) (FC := RealFrom) eq_refl eq_refl x (zc f) Hx (rd_holds_real x f Hx Hr)) as (z & E & Hz & Hc).
  { rewrite weight_zc. exact Hw. }
  exists z. split; [exact E|]. split; [exact Hz|]. intros i Hi. rewrite (Hr i Hi), (rd_dense A z i Hz Hi). exact (Hc i Hi).
Qed.
Theorem back_cplx (x : store KDense K) (f : N -> G) : valid A x -> (forall i, (i < 2 ^ N.of_nat d)%N -> rd x i = ofg (f i)) -> 4 * gweight d f <= 2 ^ prec ->
  exists z : store KDense K, (X <- mv_fft (F := flt) A (x : arr K) ;; fr_ifft A X) = Ok (z : arr K) /\ valid A z /\
  forall i, (i < 2 ^ N.of_nat d)%N -> rd z i = rd x i.
Proof.
  intros Hx Hr Hw. destruct (back_core prec emax Hp He RLp sg A D Hl (T := K) (RT := CplxOps) (WT := cplx_num IW) (IC := CplxInto) (FC := CplxFrom) eq_refl eq_refl x f Hx (rd_holds_cplx x f Hx Hr) Hw) as (z & E & Hz & Hc).
  exists z. split; [exact E|]. split; [exact Hz|]. intros i Hi. rewrite (Hr i Hi), (rd_dense A z i Hz Hi). exact (Hc i Hi).
Qed.

Lemma pair_le (u v : N -> Z) i : (forall j, 0 <= u j) -> (forall j, 0 <= v j) -> (i < pow2 d)%N -> sumI d (fun j => u j * v (N.lxor j i)) <= sumI d u * sumI d v.
Proof.
  intros Hu Hv Hi. transitivity (sumI d (fun j => u j * sumI d v)).
  - apply tle. intros j Hj. apply Z.mul_le_mono_nonneg_l; [apply Hu|]. apply (tone d v); [intros; apply Hv|apply lxor_lt; auto].
  - apply Z.eq_le_incl. symmetry. exact (sumI_mul_r (T := Z) d (sumI d v) u).
Qed.

Theorem prod_real (x y : store KDense flt) (f g : N -> Z) : valid A x -> valid A y ->
  (forall i, (i < 2 ^ N.of_nat d)%N -> rd x i = ofz (f i)) -> (forall i, (i < 2 ^ N.of_nat d)%N -> rd y i = ofz (g i)) ->
  weight d f <= 2 ^ prec -> weight d g <= 2 ^ prec -> 4 * (weight d f * weight d g) <= 2 ^ prec ->
  exists z w : store KDense flt, (X <- mv_fft (F := flt) A (x : arr flt) ;; Y <- mv_fft A (y : arr flt) ;; P <- fr_mul X Y ;; fr_ifft A P) = Ok (z : arr flt) /\
  mv_mul A x y = Ok w /\ valid A z /\ valid A w /\
  forall i, (i < 2 ^ N.of_nat d)%N -> rd z i = ofz (spec_mul (sq sg) d f g i) /\ rd w i = rd z i.
Proof.
  intros Hx Hy Hr Hr' Wf Wg Wfg.
  destruct (prod_cores prec emax Hp He RLp sg A D Hl (T := flt) (IC := RealInto) (FC := RealFrom) eq_refl eq_refl x y (zc f) (zc g) Hx Hy (rd_holds_real x f Hx Hr) (rd_holds_real y g Hy Hr')) as (z & E & Hz & Hc).
  { rewrite weight_zc. exact Wf. }
  { rewrite weight_zc. exact Wg. }
  { rewrite !weight_zc. exact Wfg. }
  assert (W0 : forall u, 0 <= weight d u) by (intros u; apply zI_pos; intros; apply Z.abs_nonneg).
  assert (SE : forall u (v : store KDense flt), (forall i, (i < 2 ^ N.of_nat d)%N -> rd v i = ofz (u i)) -> weight d u <= 2 ^ prec -> sees (EM := int_emb prec emax) A v u).
  { intros u v Hv Hu i Hi. split; [exact (Hv i Hi)|]. eapply Z.le_trans; [|exact Hu]. apply (tone d (fun i => Z.abs (u i))); [intros; apply Z.abs_nonneg|exact Hi]. }
  destruct (mul_fitx (R := Z) (CR := real_conj) (CF := real_conj) (EM := int_emb prec emax) (EL := int_laws prec emax Hp He) sg A D KDense x y f g Hx Hy (SE f x Hr Wf) (SE g y Hr' Wg)) as (w & Ew & Hw & Hcw).
  { intros i Hi. eapply Z.le_trans; [apply (pair_le (fun j => Z.abs (f j)) (fun j => Z.abs (g j)) i); auto; intros; apply Z.abs_nonneg|].
    change (weight d f * weight d g <= 2 ^ prec). assert (0 <= weight d f * weight d g) by (apply Z.mul_nonneg_nonneg; auto). lia. }
  exists z, w. split; [exact E|]. split; [exact Ew|]. split; [exact Hz|]. split; [exact Hw|]. intros i Hi.
  assert (E2 : rd z i = ofz (spec_mul (sq sg) d f g i)).
  { rewrite (rd_dense A z i Hz Hi). etransitivity; [exact (Hc i Hi)|]. rewrite (spec_mul_gp _ _ _ _ _ _ (declared_metric sg A D) i Hi).
    pose proof (into_gp (F := Z) (T := Z) (IC := RealInto) d (a_imag A) (a_proj A) f g i) as EI. cbn [into_complex RealInto] in EI.
    change (fun k : N => mkC (f k) 0) with (fun i : N => mkC (f i) (@r0 Z ZOps)). change (fun k : N => mkC (g k) 0) with (fun i : N => mkC (g i) (@r0 Z ZOps)). rewrite <- EI. reflexivity. }
  split; [exact E2|]. etransitivity; [|symmetry; exact E2]. rewrite (spec_mul_gp _ _ _ _ _ _ (declared_metric sg A D) i Hi). exact (proj1 (Hcw i Hi)).
Qed.
Theorem prod_cplx (x y : store KDense K) (f g : N -> G) : valid A x -> valid A y ->
  (forall i, (i < 2 ^ N.of_nat d)%N -> rd x i = ofg (f i)) -> (forall i, (i < 2 ^ N.of_nat d)%N -> rd y i = ofg (g i)) ->
  gweight d f <= 2 ^ prec -> gweight d g <= 2 ^ prec -> 4 * (gweight d f * gweight d g) <= 2 ^ prec ->
  exists z w : store KDense K, (X <- mv_fft (F := flt) A (x : arr K) ;; Y <- mv_fft A (y : arr K) ;; P <- fr_mul X Y ;; fr_ifft A P) = Ok (z : arr K) /\
  mv_mul A x y = Ok w /\ valid A z /\ valid A w /\
  forall i, (i < 2 ^ N.of_nat d)%N -> rd z i = ofg (spec_mul (sq sg) d f g i) /\ rd w i = rd z i.
Proof.
  intros Hx Hy Hr Hr' Wf Wg Wfg.
  destruct (prod_cores prec emax Hp He RLp sg A D Hl (T := K) (RT := CplxOps) (WT := cplx_num IW) (IC := CplxInto) (FC := CplxFrom) eq_refl eq_refl x y f g Hx Hy (rd_holds_cplx x f Hx Hr) (rd_holds_cplx y g Hy Hr') Wf Wg Wfg) as (z & E & Hz & Hc).
  assert (P0 : forall u : G, 0 <= Z.abs (c_re u) + Z.abs (c_im u)) by (intros; lia).
  assert (W0 : forall u, 0 <= gweight d u) by (intros u; apply zI_pos; intros; apply P0).
  assert (SE : forall u (v : store KDense K), (forall i, (i < 2 ^ N.of_nat d)%N -> rd v i = ofg (u i)) -> gweight d u <= 2 ^ prec -> sees (EM := EG) A v u).
  { intros u v Hv Hu i Hi. split; [exact (Hv i Hi)|]. eapply Z.le_trans; [|exact Hu]. apply (tone d (fun i => Z.abs (c_re (u i)) + Z.abs (c_im (u i)))); [intros; apply P0|exact Hi]. }
  destruct (mul_fitx (R := G) (EM := EG) (EL := gauss_laws prec emax Hp He) sg A D KDense x y f g Hx Hy (SE f x Hr Wf) (SE g y Hr' Wg)) as (w & Ew & Hw & Hcw).
  { intros i Hi. eapply Z.le_trans; [apply (pair_le (fun j => Z.abs (c_re (f j)) + Z.abs (c_im (f j))) (fun j => Z.abs (c_re (g j)) + Z.abs (c_im (g j))) i); auto; intros; apply P0|].
    change (gweight d f * gweight d g <= 2 ^ prec). assert (0 <= gweight d f * gweight d g) by (apply Z.mul_nonneg_nonneg; auto). lia. }
  exists z, w. split; [exact E|]. split; [exact Ew|]. split; [exact Hz|]. split; [exact Hw|]. intros i Hi.
  assert (E2 : rd z i = ofg (spec_mul (sq sg) d f g i)).
  { rewrite (rd_dense A z i Hz Hi). etransitivity; [exact (Hc i Hi)|]. rewrite (spec_mul_gp _ _ _ _ _ _ (declared_metric sg A D) i Hi). reflexivity. }
  split; [exact E2|]. etransitivity; [|symmetry; exact E2]. rewrite (spec_mul_gp _ _ _ _ _ _ (declared_metric sg A D) i Hi). exact (proj1 (Hcw i Hi)).
Qed.

(** Coefficients up to B. *)
Theorem prod_upto (x y : store KDense flt) (B : Z) : valid A x -> valid A y -> 1 <= B ->
  holds_upto (R := Z) (EM := int_emb prec emax) A B x -> holds_upto (R := Z) (EM := int_emb prec emax) A B y ->
  4 * (2 ^ Z.of_nat d * 2 ^ Z.of_nat d * (B * B)) <= 2 ^ prec ->
  exists z w : store KDense flt, (X <- mv_fft (F := flt) A (x : arr flt) ;; Y <- mv_fft A (y : arr flt) ;; P <- fr_mul X Y ;; fr_ifft A P) = Ok (z : arr flt) /\
  mv_mul A x y = Ok w /\ forall i, (i < 2 ^ N.of_nat d)%N -> rd z i = rd w i /\ reqb (rd z i) (rd w i) = true.
Proof.
  intros Hx Hy HB Bx By Ht. destruct (upto_ex A B x Bx) as (f & Hf'). destruct (upto_ex A B y By) as (g & Hg').
  assert (N2 : 1 <= 2 ^ Z.of_nat d) by (assert (0 < 2 ^ Z.of_nat d) by (apply Z.pow_pos_nonneg; lia); lia).
  set (n2 := 2 ^ Z.of_nat d) in *.
  assert (W : forall u, (forall i, (i < pow2 d)%N -> Z.abs (u i) <= B) -> 0 <= weight d u <= n2 * B).
  { intros u Hu. split; [apply zI_pos; intros; apply Z.abs_nonneg|]. apply zI_const. exact Hu. }
  assert (Wf := W f (fun i Hi => proj2 (Hf' i Hi))). assert (Wg := W g (fun i Hi => proj2 (Hg' i Hi))). clear W.
  assert (M1 : weight d f * weight d g <= n2 * B * (n2 * B)) by (apply Z.mul_le_mono_nonneg; lia).
  assert (M2 : n2 * B * (n2 * B) = n2 * n2 * (B * B)) by ring.
  assert (M3 : 1 <= n2 * B) by nia. assert (M4 : n2 * B * 1 <= n2 * B * (n2 * B)) by (apply Z.mul_le_mono_nonneg_l; lia).
  destruct (prod_real x y f g Hx Hy (fun i Hi => proj1 (Hf' i Hi)) (fun i Hi => proj1 (Hg' i Hi))) as (z & w & E & Ew & Hz & Hw & Hc); [lia|lia|lia|].
  exists z, w. split; [exact E|]. split; [exact Ew|]. intros i Hi. destruct (Hc i Hi) as [E1 E2]. split; [symmetry; exact E2|].
  assert (E3 : rd w i = ofz (spec_mul (sq sg) d f g i)) by (etransitivity; [exact E2|exact E1]).
  assert (SB : Z.abs (spec_mul (sq sg) d f g i) <= 2 ^ prec).
  { rewrite (spec_mul_gp _ _ _ _ _ _ (declared_metric sg A D) i Hi). eapply Z.le_trans; [apply (gp_size (R := Z) (CR := real_conj) (CF := real_conj) (EM := int_emb prec emax) (EL := int_laws prec emax Hp He))|].
    eapply Z.le_trans; [apply (pair_le (fun j => Z.abs (f j)) (fun j => Z.abs (g j)) i); auto; intros; apply Z.abs_nonneg|]. change (weight d f * weight d g <= 2 ^ prec). lia. }
  etransitivity; [exact (f_equal2 (@reqb flt IO) E1 E3)|]. etransitivity; [exact (ofz_eqb prec emax Hp He _ _ SB SB)|]. apply Z.eqb_refl.
Qed.
End Fmt.
