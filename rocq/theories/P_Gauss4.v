(** The inverse of the transform of a multivector whose scalar part outweighs the rest (C44). *)
From Verif Require Export P_Gauss3 P_Props12 Spec_FRound.
From Verif Require Import P_Round6 P_RWedge.
From Coq Require Import Field QArith.Qcanon.
Local Open Scope Qc_scope.
Local Notation CQ := (cplx Qc).

(** ** The size |re| + |im| *)
Lemma cabs1_0 : cabs1 (r0 : CQ) = 0.
Proof. apply Qc_is_canon. reflexivity. Qed.
Lemma cabs1_1 : cabs1 (r1 : CQ) = 1.
Proof. apply Qc_is_canon. reflexivity. Qed.
Lemma cabs1_neg (a : CQ) : cabs1 (rneg a) = cabs1 a.
Proof. unfold cabs1. cbn [rneg CplxOps c_re c_im QcOps]. rewrite !Qcabs_opp. reflexivity. Qed.
Lemma cabs1_add (a b : CQ) : cabs1 (radd a b) <= cabs1 a + cabs1 b.
Proof.
  unfold cabs1. cbn [radd CplxOps c_re c_im QcOps]. pose proof (Qcabs_triangle (c_re a) (c_re b)). pose proof (Qcabs_triangle (c_im a) (c_im b)). qlra.
Qed.
Lemma cabs1_sub (a b : CQ) : cabs1 (rsub a b) <= cabs1 a + cabs1 b.
Proof. rewrite sub_def, <- (cabs1_neg b). apply cabs1_add. Qed.
Lemma cabs1_mul (a b : CQ) : cabs1 (rmul a b) <= cabs1 a * cabs1 b.
Proof.
  destruct a as [a1 a2], b as [b1 b2]. unfold cabs1. cbn [rmul CplxOps c_re c_im QcOps radd rsub].
  pose proof (Qcabs_triangle (a1 * b1) (- (a2 * b2))) as H1. pose proof (Qcabs_triangle (a1 * b2) (a2 * b1)) as H2.
  rewrite Qcabs_opp in H1. rewrite !Qcabs_Qcmult in H1, H2. change (a1 * b1 + - (a2 * b2)) with (a1 * b1 - a2 * b2) in H1.
  replace ((Qcabs a1 + Qcabs a2) * (Qcabs b1 + Qcabs b2)) with (Qcabs a1 * Qcabs b1 + Qcabs a2 * Qcabs b2 + (Qcabs a1 * Qcabs b2 + Qcabs a2 * Qcabs b1)) by ring.
  apply Qcplus_le_compat; assumption.
Qed.
Definition qnorm2 (z : CQ) : Qc := c_re z * c_re z + c_im z * c_im z.
Lemma qnorm2_mul a b : qnorm2 (rmul a b) = qnorm2 a * qnorm2 b.
Proof. destruct a as [a1 a2], b as [b1 b2]. unfold qnorm2. cbn [rmul CplxOps c_re c_im QcOps radd rsub]. ring. Qed.
Lemma qabs_sq (a : Qc) : Qcabs a * Qcabs a = a * a.
Proof. rewrite <- Qcabs_Qcmult. apply Qcabs_pos. apply qsq_pos. Qed.
Lemma qnorm2_le z : qnorm2 z <= cabs1 z * cabs1 z.
Proof.
  unfold qnorm2, cabs1. rewrite <- (qabs_sq (c_re z)), <- (qabs_sq (c_im z)). set (a := Qcabs (c_re z)). set (b := Qcabs (c_im z)).
  assert (Ha : 0 <= a) by apply Qcabs_nonneg. assert (Hb : 0 <= b) by apply Qcabs_nonneg. pose proof (qmul_pos a b Ha Hb).
  replace ((a + b) * (a + b)) with (a * a + b * b + (a * b + a * b)) by ring. qlra.
Qed.
(** Comparing by the size of complex numbers never prefers x to y when x / y is small. *)
Lemma cabs1_gt {R} {NC : NormCmp CQ R} : (forall x y : CQ, n_gt (nrm x) (nrm y) = true -> qnorm2 y < qnorm2 x) ->
  forall x y : CQ, y <> r0 -> cabs1 (rmul x (rdiv r1 y)) < 1 -> n_gt (nrm x) (nrm y) = false.
Proof.
  intros H x y Hy Hs. destruct (n_gt (nrm x) (nrm y)) eqn:E; [exfalso|reflexivity]. apply H in E.
  set (w := rmul x (rdiv r1 y)) in *. assert (Ex : x = rmul w y) by (unfold w; rewrite <- mul_assoc, (inv_l y Hy), mul_1_r; reflexivity).
  rewrite Ex, qnorm2_mul in E. assert (Hw : qnorm2 w <= 1).
  { eapply Qcle_trans; [apply qnorm2_le|]. apply Qclt_le_weak in Hs. pose proof (cabs1_pos w) as P.
    eapply Qcle_trans; [apply (qmul_le _ 1); [exact P|exact Hs]|]. rewrite Qcmult_1_r. exact Hs. }
  assert (Py : 0 <= qnorm2 y) by (unfold qnorm2; pose proof (qsq_pos (c_re y)); pose proof (qsq_pos (c_im y)); qlra).
  apply (Qclt_not_le _ _ E). rewrite <- (Qcmult_1_r (qnorm2 y)) at 2. rewrite Qcmult_comm. apply qmul_le; assumption.
Qed.
Lemma cabs1_ipw k (w : CQ) : cabs1 (rmul w (ipw k)) = cabs1 w.
Proof.
  unfold ipw. destruct w as [a b]. destruct (mod4_cases k) as [-> | [-> | [-> | -> ]]]; cbn [nth i_powers];
  unfold cabs1; cbn [rmul CplxOps c_re c_im QcOps radd rsub rneg r0 r1].
  change (Q2Qc {| QArith_base.Qnum := 0; QArith_base.Qden := 1 |}) with 0.
  - replace (a * 1 - b * 0) with a by ring. replace (a * 0 + b * 1) with b by ring. reflexivity.
  - replace (a * 0 - b * 1) with (- b) by ring. replace (a * 1 + b * 0) with a by ring. rewrite Qcabs_opp. ring.
  - replace (a * - (1) - b * 0) with (- a) by ring. replace (a * 0 + b * - (1)) with (- b) by ring. rewrite !Qcabs_opp. ring.
  - replace (a * 0 - b * - (1)) with b by ring. replace (a * - (1) + b * 0) with (- a) by ring. rewrite Qcabs_opp. ring.
Qed.
Lemma cabs1_ipn k (w : CQ) : cabs1 (rmul w (ipn k)) = cabs1 w.
Proof. rewrite <- (cabs1_ipw k (rmul w (ipn k))), <- mul_assoc, ipn_ipw, mul_1_r. reflexivity. Qed.
Lemma cabs1_sgb b (w : CQ) : cabs1 (sgb b w) = cabs1 w.
Proof. destruct b; [apply cabs1_neg|reflexivity]. Qed.

(** ** Columns of the transform *)
Lemma isum_le m (f g : N -> Qc) : (forall i, (i < pow2 m)%N -> f i <= g i) -> sumI m f <= sumI m g.
Proof. intros H. apply qsum_le. intros i Hi. apply H. apply in_idxs. exact Hi. Qed.
Lemma isum_add m (f g : N -> Qc) : sumI m (fun i => f i + g i) = sumI m f + sumI m g.
Proof. exact (suml_add (T := Qc) f g (idxs m)). Qed.
Lemma isum_S m (f : N -> Qc) : sumI (S m) f = sumI m f + sumI m (fun i => f (pow2 m + i)%N).
Proof. exact (sumI_S (T := Qc) m f). Qed.
Lemma cl_column m : forall (y : N -> CQ) k, (k < pow2 m)%N -> sumI m (fun j => cabs1 (cl m y j k)) <= sumI (2 * m) (fun t => cabs1 (y t)).
Proof.
  induction m as [|m IH]; intros y k Hk.
  - cbn [cl Nat.mul]. rewrite !sumI_O. apply Qcle_refl.
  - rewrite two_S, !isum_S. cbn [cl].
    set (S0 := sumI (2 * m) (fun t => cabs1 (y t))). set (S1 := sumI (2 * m) (fun t => cabs1 (y (pow2 (2 * m) + t)%N))).
    set (S2 := sumI (2 * m) (fun i => cabs1 (y (pow2 (S (2 * m)) + i)%N))). set (S3 := sumI (2 * m) (fun i => cabs1 (y (pow2 (S (2 * m)) + (pow2 (2 * m) + i))%N))).
    set (X0 := cl m y). set (X1 := cl m (up (2 * m) y)). set (X2 := cl m (up (S (2 * m)) y)). set (X3 := cl m (up (2 * m) (up (S (2 * m)) y))).
    assert (B : forall k, (k < pow2 m)%N -> sumI m (fun j => cabs1 (X0 j k) + cabs1 (X3 j k)) + sumI m (fun j => cabs1 (X1 j k) + cabs1 (X2 j k)) <= S0 + S1 + (S2 + S3)).
    { intros k' Hk'. rewrite !isum_add. pose proof (IH y k' Hk') as B0. pose proof (IH (up (2 * m) y) k' Hk') as B1. pose proof (IH (up (S (2 * m)) y) k' Hk') as B2. pose proof (IH (up (2 * m) (up (S (2 * m)) y)) k' Hk') as B3.
      fold X0 in B0. fold X1 in B1. fold X2 in B2. fold X3 in B3. unfold up in B1, B2, B3. fold S0 in B0. fold S1 in B1. fold S2 in B2. fold S3 in B3. clear - B0 B1 B2 B3. qlra. }
    spl k Hk; (eapply Qcle_trans; [|apply B; eauto]).
    + apply Qcplus_le_compat; apply isum_le; intros j Hj; [rewrite blk_00 by auto; apply cabs1_add|rewrite blk_10 by auto; apply cabs1_sub].
    + rewrite (Qcplus_comm (sumI m (fun j => cabs1 (X0 j k0) + cabs1 (X3 j k0)))).
      apply Qcplus_le_compat; apply isum_le; intros j Hj; [rewrite blk_01 by auto|rewrite blk_11 by auto]; unfold malpha; rewrite cabs1_sgb; [apply cabs1_add|apply cabs1_sub].
Qed.

Section Mv.
Context {T R : Type} {RT : RingOps T} {LT : RingLaws T} {IC : IntoCplx T Qc} {FC : FromCplx T Qc} {CV : ConvLaws T Qc} {md : Mode} {HO : HashOrder}
  {NC : NormCmp CQ R} {NZ : NormZero CQ R} {NL : NormLaws CQ R}.
Local Notation MV := (store KDense T).
Variables (sg : list tok) (A : algebra).
Hypothesis D : declared sg A.
Hypothesis Hl : (length sg < 63)%nat.
Hypothesis Hnd : nonnull sg = length sg.
Hypothesis Hgt : forall x y : CQ, n_gt (nrm x) (nrm y) = true -> qnorm2 y < qnorm2 x.
Local Notation d := (a_dim A).
Local Notation h := (half (nonnull sg)).
Local Notation n := (nonnull sg).

Lemma c44_dom (x : MV) : valid A x -> into_complex (F := Qc) (rd x 0) <> r0 ->
  sumI d (fun i => if (i =? 0)%N then 0 else cabs1 (rmul (into_complex (rd x i)) (rdiv r1 (into_complex (rd x 0))))) < 1 ->
  exists r : fftrepr Qc, (X <- mv_fft (F := Qc) A (x : arr T) ;; fr_inv X) = Ok (Some r).
Proof.
  intros Hx Hs Hsum. assert (Ed : d = n) by (pose proof (declared_dim _ _ D); lia).
  destruct (fft_ok (F := Qc) sg A D Hl (IC := IC) (x : arr T) Hx) as (X & EX & HX). rewrite EX. cbn [bind]. clear EX.
  unfold repr_of in HX. replace (d - n)%nat with 0%nat in HX by lia.
  pose proof HX as (Hr & Hc & Hlen & Hw). destruct X as [nr nc l]. cbn [t_nr t_nc t_mats] in *. destruct l as [|M [|M2 l]]; cbn in Hlen; try lia.
  specialize (Hw 0%nat ltac:(cbn; lia)). cbn [nth N.of_nat] in Hw. unfold fr_inv. cbn [t_mats]. assert (EM : nthr [M] 0 = Ok M) by reflexivity. rewrite EM. cbn [bind]. clear EM.
  unfold mrep in Hw. set (W := nn (frep sg (cfun (F := Qc) A (arr_coef (x : arr T))) 0)) in *.
  assert (RD : forall i, (i < pow2 d)%N -> rd x i = arr_coef (x : arr T) i) by (intros i Hi; exact (rd_coef (S := MV) d x i Hx Hi)).
  assert (P0 : (0 < pow2 d)%N) by apply pow2_pos.
  rewrite (RD 0%N P0) in Hs, Hsum. set (s := into_complex (F := Qc) (arr_coef (x : arr T) 0)) in *.
  destruct (matrix_inv_dom (R := R) cabs1 cabs1_pos cabs1_1 cabs1_add cabs1_neg cabs1_mul (cabs1_gt Hgt) (2 ^ h) M W Hw) as (M' & EM').
  - apply (cdom_near cabs1 cabs1_pos cabs1_1 cabs1_add cabs1_neg cabs1_mul (2 ^ h) W s Hs). intros k Hk.
    eapply Qcle_lt_trans; [|exact Hsum].
    set (y := phi ipw idx_mask (pad n (blk_of n (cfun (F := Qc) A (arr_coef (x : arr T))) 0))) in *.
    set (y' := fun t => rmul (rsub (y t) (del 0 s t)) (rdiv r1 s)).
    assert (HkN : (N.of_nat k < pow2 h)%N) by (apply of_nat_lt; auto).
    assert (E1 : qsum (2 ^ h) (fun r => cabs1 (rmul (rsub (W r k) (if Nat.eqb r k then s else r0)) (rdiv r1 s))) = sumI h (fun j => cabs1 (cl h y' j (N.of_nat k)))).
    { unfold qsum, sumn, sumI, idxs. rewrite suml_map, <- pow2_nat. apply suml_ext. intros r Hr'. apply in_seq in Hr'. f_equal.
      unfold y'. rewrite cl_mul_r, cl_sub. f_equal. f_equal. rewrite cl_one; auto; [|apply of_nat_lt; rewrite <- pow2_nat; lia].
      destruct (N.eqb_spec (N.of_nat r) (N.of_nat k)), (Nat.eqb_spec r k); auto; lia. }
    rewrite E1. eapply Qcle_trans; [apply cl_column; exact HkN|]. rewrite Ed. rewrite <- (sum_pad n). 
    apply isum_le. intros t Ht. unfold y', y, phi, pad, blk_of, cfun, del.
    destruct (N.ltb_spec t (pow2 n)) as [Htn|Htn].
    + rewrite RD by (rewrite Ed; exact Htn). rewrite N.mul_0_r, N.add_0_l. unfold phi. destruct (N.eqb_spec t 0) as [->|Ht0].
      * fold s. cbn [N.land popcount]. change (ipn 0 : CQ) with (r1 : CQ). change (ipw 0 : CQ) with (r1 : CQ). rewrite !mul_1_r, sub_def, add_neg_r, mul_0_l, cabs1_0. apply Qcle_refl.
      * rewrite sub_def, neg_0, add_0_r. set (z := into_complex _). set (a := popcount _). set (b := popcount _).
        rewrite <- (mul_assoc _ (ipw b)), (mul_comm (ipw b)), mul_assoc, cabs1_ipw. rewrite <- (mul_assoc _ (ipn a)), (mul_comm (ipn a)), mul_assoc, cabs1_ipn. apply Qcle_refl.
    + pose proof (pow2_pos n). destruct (N.eqb_spec t 0); [lia|]. rewrite mul_0_l, sub_def, neg_0, add_0_l, mul_0_l, cabs1_0. apply Qcle_refl.
  - rewrite EM'. cbn [bind]. eexists. reflexivity.
Qed.
End Mv.
(** FIN *)
Section Fin.
Context {R : Type} {md : Mode} {HO : HashOrder} {NC : NormCmp CQ R} {NZ : NormZero CQ R} {NL : NormLaws CQ R}.

Lemma real_ratio (a s : Qc) : s <> 0 -> cabs1 (rmul (mkC a 0) (rdiv r1 (mkC s 0))) = Qcabs a / Qcabs s.
Proof.
  intros Hs. assert (Hs' : (mkC s 0 : CQ) <> r0) by (intros E; apply Hs; exact (f_equal c_re E)).
  assert (E : rdiv r1 (mkC s 0) = (mkC (1 / s) 0 : CQ)).
  { transitivity (rmul (rdiv r1 (mkC s 0)) (rmul (mkC s 0) (mkC (1 / s) 0)) : CQ).
    - assert (E1 : rmul (mkC s 0) (mkC (1 / s) 0) = (r1 : CQ)) by (apply cplx_ext; cbn [rmul CplxOps c_re c_im QcOps radd rsub r1 r0]; field; exact Hs). rewrite E1, mul_1_r. reflexivity.
    - rewrite mul_assoc, (inv_l _ Hs'), mul_1_l. reflexivity. }
  rewrite E. unfold cabs1. cbn [rmul CplxOps c_re c_im QcOps radd rsub].
  replace (a * (1 / s) - 0 * 0) with (a * (1 / s)) by ring. replace (a * 0 + 0 * (1 / s)) with 0 by ring. rewrite Qcabs_Qcmult, qabs0, Qcplus_0_r.
  assert (Hp : Qcabs s <> 0) by (intros E0; pose proof (qabs_sq s) as E1; rewrite E0, Qcmult_0_l in E1; symmetry in E1; apply Qcmult_integral in E1; tauto).
  assert (E2 : Qcabs (1 / s) * Qcabs s = 1) by (rewrite <- Qcabs_Qcmult; replace (1 / s * s) with 1 by (field; exact Hs); apply Qc_is_canon; reflexivity).
  replace (Qcabs (1 / s)) with (1 / Qcabs s); [field; exact Hp|]. 
  transitivity (Qcabs (1 / s) * Qcabs s / Qcabs s); [rewrite E2; reflexivity|field; exact Hp].
Qed.

Lemma c44_dom_real sg A (D : declared sg A) (Hl : (length sg < 63)%nat) (Hnd : nonnull sg = length sg)
  (Hgt : forall x y : CQ, n_gt (nrm x) (nrm y) = true -> qnorm2 y < qnorm2 x) (x : store KDense Qc) : valid A x ->
  sumI (a_dim A) (fun i => if (i =? 0)%N then 0 else Qcabs (rd x i)) < Qcabs (rd x 0) ->
  exists (r : fftrepr Qc) (z : store KDense Qc), (X <- mv_fft (F := Qc) A (x : arr Qc) ;; fr_inv X) = Ok (Some r) /\
    fr_ifft A r = Ok (z : arr Qc) /\ valid A z /\ both_ok (mv_mul A x z) (mv_one A) /\ both_ok (mv_mul A z x) (mv_one A).
Proof.
  intros Hx Hs. set (s := rd x 0%N) in *.
  assert (Hp : 0 < Qcabs s) by (eapply Qcle_lt_trans; [|exact Hs]; apply sum_pos; intros i _; destruct (i =? 0)%N; [apply Qcle_refl|apply Qcabs_nonneg]).
  assert (Hs0 : s <> 0) by (intros E; rewrite E, qabs0 in Hp; discriminate Hp).
  assert (Hps : Qcabs s <> 0) by (intros E; rewrite E in Hp; discriminate Hp).
  destruct (c44_dom (T := Qc) (R := R) sg A D Hl Hnd Hgt x Hx) as (r & E).
  - fold s. intros E. apply Hs0. exact (f_equal c_re E).
  - fold s. rewrite (sumI_ext _ _ (fun i => rmul (1 / Qcabs s) (if (i =? 0)%N then 0 else Qcabs (rd x i)))).
    + unfold sumI. rewrite <- suml_mul_l. fold (sumI (a_dim A) (fun i => if (i =? 0)%N then 0 else Qcabs (rd x i))). change (@rmul Qc QcOps) with Qcmult.
      set (t := sumI _ _) in *. assert (Hi : 0 < 1 / Qcabs s).
      { destruct (Qclt_le_dec 0 (1 / Qcabs s)) as [|Hle]; auto. exfalso. assert (E1 : 1 / Qcabs s * Qcabs s = 1) by (field; auto).
        assert (1 / Qcabs s * Qcabs s <= 0 * Qcabs s) by (apply Qcmult_le_compat_r; [exact Hle|apply Qclt_le_weak; exact Hp]). rewrite E1, Qcmult_0_l in *. apply (Qcle_not_lt _ _ H). reflexivity. }
      replace 1 with (1 / Qcabs s * Qcabs s) at 2 by (field; auto). rewrite !(Qcmult_comm (1 / Qcabs s)). apply Qcmult_lt_compat_r; assumption.
    + intros i _. destruct (i =? 0)%N; [symmetry; apply Qcmult_0_r|]. cbn [into_complex RealInto]. change (r0 : Qc) with 0. etransitivity; [apply real_ratio; exact Hs0|]. change (@rmul Qc QcOps) with Qcmult. field. exact Hps.
  - destruct (c43_real (F := Qc) (R := R) sg A D Hl Hnd x Hx) as (X & o & EX & EI & HO').
    rewrite EX in E. cbn [bind] in E. rewrite EI in E. injection E as ->. destruct (HO' r eq_refl) as (z & Ez & Vz & _ & M1 & M2).
    exists r, z. split; [rewrite EX; cbn [bind]; exact EI|]. auto.
Qed.
Lemma c44_dom_cplx sg A (D : declared sg A) (Hl : (length sg < 63)%nat) (Hnd : nonnull sg = length sg)
  (Hgt : forall x y : CQ, n_gt (nrm x) (nrm y) = true -> qnorm2 y < qnorm2 x) (x : store KDense CQ) : valid A x -> rd x 0 <> r0 ->
  sumI (a_dim A) (fun i => if (i =? 0)%N then 0 else cabs1 (rmul (rd x i) (rdiv r1 (rd x 0)))) < 1 ->
  exists (r : fftrepr Qc) (z : store KDense CQ), (X <- mv_fft (F := Qc) A (x : arr CQ) ;; fr_inv X) = Ok (Some r) /\
    fr_ifft A r = Ok (z : arr CQ) /\ valid A z /\ both_ok (mv_mul A x z) (mv_one A) /\ both_ok (mv_mul A z x) (mv_one A).
Proof.
  intros Hx Hs0 Hs. destruct (c44_dom (T := CQ) (IC := CplxInto) (FC := CplxFrom) (R := R) sg A D Hl Hnd Hgt x Hx Hs0 Hs) as (r & E).
  destruct (c43_complex (F := Qc) (R := R) sg A D Hl Hnd x Hx) as (X & o & EX & EI & HO').
  rewrite EX in E. cbn [bind] in E. rewrite EI in E. injection E as ->. destruct (HO' r eq_refl) as (z & Ez & Vz & _ & M1 & M2).
  exists r, z. split; [rewrite EX; cbn [bind]; exact EI|]. auto.
Qed.
(** Matrices. *)
Lemma c44_dom_matrix n (M : mat CQ) (Hgt : forall x y : CQ, n_gt (nrm x) (nrm y) = true -> qnorm2 y < qnorm2 x) :
  square_mat n M ->
  (forall k, (k < n)%nat -> m_at M k k <> r0 /\ suml (fun r => if Nat.eqb r k then 0 else cabs1 (rmul (m_at M r k) (rdiv r1 (m_at M k k)))) (seq 0 n) < 1) ->
  exists M', matrix_inv M = Ok (Some M').
Proof.
  intros (H1 & H2 & H3) HD. apply (matrix_inv_dom (R := R) cabs1 cabs1_pos cabs1_1 cabs1_add cabs1_neg cabs1_mul (cabs1_gt Hgt) n M (m_at M)).
  - repeat (split; [assumption|]). intros; reflexivity.
  - intros k (_ & Hk). destruct (HD k Hk) as (X & Y). split; auto. unfold csum, ratio. erewrite qsum_ext; [exact Y|]. intros r Hr. cbn [Nat.leb andb]. destruct (Nat.eqb r k); reflexivity.
Qed.
End Fin.
