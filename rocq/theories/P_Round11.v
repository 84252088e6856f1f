(** Rounding errors of products computed through the transforms: multivectors. *)
From Verif Require Export P_Round10.
From Coq Require Import QArith Lqa Lia.
Local Open Scope Qc_scope.

Section Tr.
Context {F : Type} {RF : RingOps F} {DF : DivOps F} {V : RoundOps F} {RL : RoundLaws F} {W : NumLaws F}.
Local Notation C := (cplx F).
Local Notation CQ := (cplx Qc).
Local Notation gph g := ((1 + ulp) * (1 + ulp) * (1 + g) - 1).
Local Notation eph e := ((1 + ulp) * (1 + ulp) * e + ((1 + ulp) + 1) * eta).
Local Notation g2 := (gph (gph 0)).
Local Notation e2 := (eph (eph 0)).

Section MV.
Context {md : Mode}.
Variables (sg : list tok) (A : algebra).
Hypothesis D : declared sg A.
Hypothesis Hl : (length sg < 63)%nat.
Let HS := declared_nn sg A D.
Local Notation n := (nonnull sg).
Local Notation d := (a_dim A).
Let s := (d - n)%nat.
Let Hn : (n <= d)%nat := std_nn A n HS.
Let Hs : d = (n + s)%nat.
Proof. unfold s. lia. Qed.
Local Notation h := (half n).
Local Notation g3 := (gcl h g2).
Local Notation e3 := (ecl h e2).

Section T.
Context {T : Type} {RT : RingOps T} {IC : IntoCplx T F}.
Local Notation fr x := (frep sg (cfl A x)).
Local Notation fq x := (frep (F := Qc) sg (cq A x)).

(** Rows of the transform of one block. *)
Lemma frep_rows (x : N -> T) v : (v < pow2 s)%N -> (forall i j, (i < pow2 h)%N -> (j < pow2 h)%N -> cfinite (fr x v i j) = true) ->
  rowok h g3 e3 (fr x v) (fq x v) (sumI n (blk_of n (wq x) v)).
Proof.
  intros Hv HF. unfold frep in *.
  assert (E : sumI n (blk_of n (wq x) v) = sumI (2 * h) (fun t => cabs1 (phi ipw idx_mask (pad n (blk_of n (cq A x) v)) t))).
  { rewrite <- sum_pad. apply sumI_ext. intros t _. unfold phi. rewrite (proj1 (cabs1_unit (F := F) _ _ _ (ipw_unit (popcount (N.land t idx_mask))))). unfold pad. destruct (t <? pow2 n)%N.
    - unfold blk_of, wq, cq. symmetry. apply (proj2 (cabs1_unit (F := F) _ _ _ (ipn_unit _))).
    - unfold cabs1. cbn [r0 CplxOps c_re c_im QcOps]. rewrite qabs0. symmetry. apply Qcplus_0_r. }
  rewrite E. apply cl_rows; [apply g2_pos|apply e2_pos| |exact HF].
  intros t Ht Hft. unfold phi, pad in *. destruct (N.ltb_spec t (pow2 n)) as [Htn|Htn].
  - unfold blk_of in *. apply (cw_phase_r _ _ _ (ipw_unit _) Hft). unfold cfl, cq in *. apply (cw_phase_l _ _ _ (ipn_unit _)); [|apply cw_self].
    apply (phase_r _ _ _ (ipw_unit (popcount (N.land t idx_mask))) Hft).
  - rewrite ipw_r0. replace (rmul (@r0 CQ CplxOps) (ipw _)) with (@r0 CQ CplxOps) by (symmetry; apply mul_0_l).
    unfold cw, cnear, near. cbn [c_re c_im r0 CplxOps QcOps]. rewrite (proj1 ro_0). replace (0 - 0) with 0 by ring. rewrite !qabs0, Qcmult_0_r, Qcplus_0_l.
    pose proof (e2_pos (F := F)) as E2. repeat split; auto using Qcle_refl.
Qed.

Lemma prod_core (x y : N -> T) : let Z := wm (mmulf h) madd mneg malpha s (fr x) (fr y) in
  let P := sumI d (wq x) in let Q := sumI d (wq y) in
  (forall k, (k < pow2 d)%N -> cfinite (icoef sg Z k) = true) ->
  forall k, (k < pow2 d)%N -> napp (gph (igain h (gcl s (gsum (2 ^ h) (gterm g3 g3))))) (P * Q) (eph (ieta h (ecl s (esum (2 ^ h) (eterm g3 e3 g3 e3 P Q))))) (icoef sg Z k)
    (gp d 0 (a_proj A) (cq A x) (cq A y) k).
Proof.
  intros Z P Q HF k Hk.
  assert (HB : forall w i, (w < pow2 s)%N -> (i < pow2 n)%N -> cfinite (phi ipn idx_mask (icl h (Z w)) i) = true).
  { intros w j Hw Hj. rewrite <- (icoef_block sg A D Hl) by auto. apply HF. rewrite Hs. apply block_lt; auto. }
  assert (HI : forall w i, (w < pow2 s)%N -> (i < pow2 n)%N -> cfinite (icl h (Z w) i) = true).
  { intros w j Hw Hj. apply (phase_r _ _ _ (ipn_unit (popcount (N.land j idx_mask)))). apply (HB w j); auto. }
  assert (HZ : forall w i j, (w < pow2 s)%N -> (i < pow2 h)%N -> (j < pow2 h)%N -> cfinite (Z w i j) = true).
  { intros w i j Hw Hi Hj. apply (icl_finite_n n (Z w) (fun t Ht => HI w t Hw Ht) i j Hi Hj). }
  assert (HXY := wm_fin h s _ _ HZ).
  assert (WX : forall x' i, (i < pow2 (n + s))%N -> 0 <= wq x' i) by (intros; apply cabs1_pos).
  assert (PX : forall x' v, (v < pow2 s)%N -> 0 <= sumI n (blk_of n (wq x') v)) by (intros; apply sum_pos; intros; apply cabs1_pos).
  assert (SP : forall x', sumI s (fun v => sumI n (blk_of n (wq x') v)) = sumI d (wq x')).
  { intros x'. rewrite sum_blocks, <- Hs. reflexivity. }
  assert (G3 := gcl_pos h _ (g2_pos (F := F))). assert (E3 := ecl_pos h _ (e2_pos (F := F))).
  assert (HP : 0 <= P) by (apply sum_pos; intros; apply cabs1_pos). assert (HQ : 0 <= Q) by (apply sum_pos; intros; apply cabs1_pos).
  assert (NR := wm_near g3 e3 g3 e3 P Q h s G3 E3 G3 E3 HP HQ (fr x) (fr y) (fq x) (fq y) (fun v => sumI n (blk_of n (wq x) v)) (fun v => sumI n (blk_of n (wq y) v))).
  assert (NZ : forall w, (w < pow2 s)%N -> entok h (gcl s (gsum (2 ^ h) (gterm g3 g3))) (ecl s (esum (2 ^ h) (eterm g3 e3 g3 e3 P Q))) (Z w) (wm (mmul h) madd mneg malpha s (fq x) (fq y) w) (wb s (fun v => sumI n (blk_of n (wq x) v)) (fun v => sumI n (blk_of n (wq y) v)) w)).
  { apply NR; [| |exact HZ].
    - intros v Hv. split; [apply frep_rows; auto; intros; apply HXY; auto|]. unfold P. rewrite Hs. apply sum_block_le; auto.
    - intros v Hv. split; [apply rowok_ent; auto; apply frep_rows; auto; intros; apply HXY; auto|]. unfold Q. rewrite Hs. apply sum_block_le; auto. }
  clear NR.
  rewrite <- (icoef_frep (F := Qc) sg A D Hl (gp d 0 (a_proj A) (cq A x) (cq A y)) k Hk). rewrite Hs in Hk. apply block_split in Hk as (w & i & -> & Hw & Hi).
  rewrite !(icoef_block sg A D Hl) by auto. specialize (HB w i Hw Hi). unfold phi in *.
  apply (proj2 (phase_r _ _ _ (ipn_unit (popcount (N.land i idx_mask))) HB)).
  assert (Hi2 : (i < pow2 (2 * h))%N) by (eapply N.lt_le_trans; [exact Hi|]; apply pow2_le; apply half_le).
  rewrite (icl_ext h _ _ (frep_mul (F := Qc) sg A D Hl (cq A x) (cq A y) w Hw) i Hi2).
  set (g := gcl s _) in *. set (e := ecl s _) in *.
  assert (Gg : 0 <= g) by (apply gcl_pos, gsum_pos, gterm_pos; auto). assert (Ge : 0 <= e) by (apply ecl_pos, esum_pos, eterm_pos; auto).
  assert (LB := wb_le s _ _ w (PX x) (PX y) Hw). rewrite !SP in LB. destruct LB as [_ LB].
  apply icl_near_n; auto; [apply qmul_pos; auto|].
  intros a b Ha Hb _. apply (napp_B _ _ _ _ _ _ Gg LB). destruct (NZ w Hw a b Ha Hb) as [(N1 & N2) (N3 & N4)]. split; [exact N1|]. split; [exact N3|]. split; [exact N2|exact N4].
Qed.

(** The exact product, after the last phase. *)
Lemma cq_gp (x y : N -> T) k : (k < pow2 d)%N -> rmul (ipw (popcount (N.land k (a_imag A)))) (gp d 0 (a_proj A) (cq A x) (cq A y) k) = spec_mul (sq sg) d (yq x) (yq y) k.
Proof.
  intros Hk. rewrite (spec_mul_gp _ _ _ _ _ _ (declared_metric sg A D) k Hk).
  assert (E : forall x' k, cq A x' k = cfun (F := Qc) (T := CQ) (IC := CplxInto) A (yq x') k) by (intros x' k'; unfold cq, cfun, phi; apply mul_comm).
  transitivity (rmul (ipw (popcount (N.land k (a_imag A)))) (gp d 0 (a_proj A) (cfun (F := Qc) (T := CQ) (IC := CplxInto) A (yq x)) (cfun (F := Qc) (T := CQ) (IC := CplxInto) A (yq y)) k)).
  - f_equal. apply gp_feq; auto; intros i Hi; apply E.
  - rewrite cfun_gp. unfold cfun, phi. rewrite mul_comm, <- mul_assoc, ipn_ipw. apply mul_1_r.
Qed.
End T.

Lemma spec_mul_re (f g : N -> Qc) k : (k < pow2 d)%N -> spec_mul (sq sg) d (fun i => mkC (f i) 0 : CQ) (fun i => mkC (g i) 0) k = mkC (spec_mul (sq sg) d f g k) 0.
Proof.
  intros Hk. rewrite !(spec_mul_gp _ _ _ _ _ _ (declared_metric sg A D) k Hk). symmetry. exact (into_gp (F := Qc) (T := Qc) (IC := RealInto) d (a_imag A) (a_proj A) f g k).
Qed.

Lemma fp_real (x y : arr F) : arr_wf d x -> arr_wf d y ->
  exists z : arr F, (X <- mv_fft (F := F) A x ;; Y <- mv_fft A y ;; P <- fr_mul X Y ;; fr_ifft A P) = Ok z /\ arr_wf d z /\
  ((forall k, (k < pow2 d)%N -> finite (arr_coef z k) = true) -> forall k, (k < pow2 d)%N ->
   Qcabs (val (arr_coef z k) - spec_mul (sq sg) d (fun j => val (arr_coef x j)) (fun j => val (arr_coef y j)) k)
    <= fast_product_error h s (sumI d (fun j => Qcabs (val (arr_coef x j)))) (sumI d (fun j => Qcabs (val (arr_coef y j))))).
Proof.
  intros Hx Hy. destruct (r_fft (T := F) (IC := RealInto) sg A D Hl eq_refl x Hx) as (r & E & Hr). rewrite E. cbn [bind].
  destruct (r_fft (T := F) (IC := RealInto) sg A D Hl eq_refl y Hy) as (r' & E' & Hr'). rewrite E'. cbn [bind].
  destruct (wmul_f h s r r' _ _ Hr Hr') as (p & Ep & Hp). change (fr_mul r r') with (wmul r r'). rewrite Ep. cbn [bind].
  destruct (r_ifft (T := F) (FC := RealFrom) sg A D Hl eq_refl p _ Hp) as (z & Ez & Hz & Hc). exists z. split; [exact Ez|]. split; [exact Hz|].
  intros HF k Hk.
  set (Z := wm (mmulf h) _ _ _ _ _ _) in Hc.
  assert (HP : forall k, (k < pow2 d)%N -> cfinite (icoef sg Z k) = true).
  { intros j Hj. apply (phase_l_re _ _ _ (ipw_unit (popcount (N.land j (a_imag A))))). specialize (HF j Hj). rewrite Hc in HF by auto. exact HF. }
  assert (H := prod_core (arr_coef x) (arr_coef y) HP k Hk).
  specialize (HF k Hk). rewrite Hc in * by auto. cbn [from_complex RealFrom] in *.
  assert (H2 := proj2 (phase_l_re _ _ _ (ipw_unit (popcount (N.land k (a_imag A)))) HF) _ _ _ _ H).
  rewrite cq_gp in H2 by auto.
  assert (EY : spec_mul (sq sg) d (yq (IC := RealInto) (arr_coef x)) (yq (IC := RealInto) (arr_coef y)) k = mkC (spec_mul (sq sg) d (fun j => val (arr_coef x j)) (fun j => val (arr_coef y j)) k) 0).
  { rewrite <- spec_mul_re by auto. rewrite !(spec_mul_gp _ _ _ _ _ _ (declared_metric sg A D) k Hk). apply gp_feq; auto; intros i Hi; unfold yq, cval; cbn [into_complex RealInto c_re c_im]; rewrite (proj1 ro_0); reflexivity. }
  rewrite EY in H2. cbn [c_re] in H2. rewrite !wq_real in H2.
  eapply Qcle_trans; [exact H2|apply fp_bound; apply sum_pos; intros; apply Qcabs_nonneg].
Qed.

Lemma fp_cplx (x y : arr C) : arr_wf d x -> arr_wf d y ->
  exists z : arr C, (X <- mv_fft (F := F) A x ;; Y <- mv_fft A y ;; P <- fr_mul X Y ;; fr_ifft A P) = Ok z /\ arr_wf d z /\
  ((forall k, (k < pow2 d)%N -> cfinite (arr_coef z k) = true) -> forall k, (k < pow2 d)%N ->
   cwithin (fast_product_error h s (sumI d (fun j => cabs1 (cval (arr_coef x j)))) (sumI d (fun j => cabs1 (cval (arr_coef y j)))))
     (arr_coef z k) (spec_mul (sq sg) d (fun j => cval (arr_coef x j)) (fun j => cval (arr_coef y j)) k)).
Proof.
  intros Hx Hy. destruct (r_fft (T := C) (RT := CplxOps) (WT := cplx_num W) (IC := CplxInto) sg A D Hl eq_refl x Hx) as (r & E & Hr). rewrite E. cbn [bind].
  destruct (r_fft (T := C) (RT := CplxOps) (WT := cplx_num W) (IC := CplxInto) sg A D Hl eq_refl y Hy) as (r' & E' & Hr'). rewrite E'. cbn [bind].
  destruct (wmul_f h s r r' _ _ Hr Hr') as (p & Ep & Hp). change (fr_mul r r') with (wmul r r'). rewrite Ep. cbn [bind].
  destruct (r_ifft (T := C) (RT := CplxOps) (WT := cplx_num W) (FC := CplxFrom) sg A D Hl eq_refl p _ Hp) as (z & Ez & Hz & Hc). exists z. split; [exact Ez|]. split; [exact Hz|].
  intros HF k Hk.
  set (Z := wm (mmulf h) _ _ _ _ _ _) in Hc.
  assert (HP : forall k, (k < pow2 d)%N -> cfinite (icoef sg Z k) = true).
  { intros j Hj. apply (phase_l _ _ _ (ipw_unit (popcount (N.land j (a_imag A))))). specialize (HF j Hj). rewrite Hc in HF by auto. exact HF. }
  assert (H := prod_core (arr_coef x) (arr_coef y) HP k Hk).
  specialize (HF k Hk). rewrite Hc in * by auto. cbn [from_complex CplxFrom] in *.
  assert (H2 := proj2 (phase_l _ _ _ (ipw_unit (popcount (N.land k (a_imag A)))) HF) _ _ _ _ H).
  rewrite cq_gp in H2 by auto. unfold yq in H2. cbn [into_complex CplxInto] in H2. destruct H2 as (_ & _ & H3 & H4).
  assert (B := fp_bound h s (sumI d (wq (arr_coef x))) (sumI d (wq (arr_coef y))) ltac:(apply sum_pos; intros; apply cabs1_pos) ltac:(apply sum_pos; intros; apply cabs1_pos)).
  split; (eapply Qcle_trans; [eassumption|exact B]).
Qed.
End MV.
End Tr.

Section Stores.
Context {F : Type} {RF : RingOps F} {DF : DivOps F} {V : RoundOps F} {RL : RoundLaws F} {W : NumLaws F} {md : Mode} {HO : HashOrder}.
Lemma rd_dense {X} {RX : RingOps X} {WX : NumLaws X} A (z : store KDense X) i : valid A z -> (i < 2 ^ N.of_nat (a_dim A))%N -> rd z i = arr_coef z i.
Proof. exact (fun Hz Hi => rd_coef (S := store KDense X) (a_dim A) z i Hz Hi). Qed.
Lemma spec_mul_rd {X Y} {RY : RingOps Y} {LY : RingLaws Y} {RX : RingOps X} {WX : NumLaws X} sg A (D : declared sg A) (f : X -> Y) (x y : store KDense X) i : valid A x -> valid A y -> (i < pow2 (a_dim A))%N ->
  spec_mul (sq sg) (a_dim A) (fun j => f (rd x j)) (fun j => f (rd y j)) i = spec_mul (sq sg) (a_dim A) (fun j => f (arr_coef x j)) (fun j => f (arr_coef y j)) i.
Proof.
  intros Hx Hy Hi. rewrite !(spec_mul_gp _ _ _ _ _ _ (declared_metric sg A D) i Hi). apply gp_feq; [|intros j Hj; f_equal|exact Hi]; [intros j Hj; f_equal|]; [exact (rd_dense A x j Hx Hj)|exact (rd_dense A y j Hy Hj)].
Qed.
Lemma fast_real sg A (D : declared sg A) (Hl : (length sg < 63)%nat) (x y : store KDense F) : valid A x -> valid A y ->
  exists z : store KDense F, (X <- mv_fft (F := F) A (x : arr F) ;; Y <- mv_fft A (y : arr F) ;; P <- fr_mul X Y ;; fr_ifft A P) = Ok (z : arr F) /\ valid A z /\
  ((forall i, (i < 2 ^ N.of_nat (a_dim A))%N -> finite (rd z i) = true) ->
   forall i, (i < 2 ^ N.of_nat (a_dim A))%N ->
   Qcabs (val (rd z i) - spec_mul (sq sg) (a_dim A) (fun j => val (rd x j)) (fun j => val (rd y j)) i)
    <= fast_product_error ((nonnull sg + 1) / 2) (a_dim A - nonnull sg) (sumI (a_dim A) (fun j => Qcabs (val (rd x j)))) (sumI (a_dim A) (fun j => Qcabs (val (rd y j))))).
Proof.
  intros Hx Hy. destruct (fp_real sg A D Hl x y Hx Hy) as (z & E & Hz & H). exists z. split; [exact E|]. split; [exact Hz|]. intros HF i Hi.
  rewrite (spec_mul_rd sg A D val x y i Hx Hy Hi).
  rewrite (rd_dense A z i Hz Hi).
  rewrite (sumI_ext _ (fun j => Qcabs (val (rd x j))) (fun j => Qcabs (val (arr_coef x j)))) by (intros j Hj; rewrite (rd_dense A x j Hx Hj); reflexivity).
  rewrite (sumI_ext _ (fun j => Qcabs (val (rd y j))) (fun j => Qcabs (val (arr_coef y j)))) by (intros j Hj; rewrite (rd_dense A y j Hy Hj); reflexivity).
  apply H; auto. intros k Hk. rewrite <- (HF k Hk). f_equal. symmetry. exact (rd_dense A z k Hz Hk).
Qed.
Lemma fast_cplx sg A (D : declared sg A) (Hl : (length sg < 63)%nat) (x y : store KDense (cplx F)) : valid A x -> valid A y ->
  exists z : store KDense (cplx F), (X <- mv_fft (F := F) A (x : arr (cplx F)) ;; Y <- mv_fft A (y : arr (cplx F)) ;; P <- fr_mul X Y ;; fr_ifft A P) = Ok (z : arr (cplx F)) /\ valid A z /\
  ((forall i, (i < 2 ^ N.of_nat (a_dim A))%N -> cfinite (rd z i) = true) ->
   forall i, (i < 2 ^ N.of_nat (a_dim A))%N ->
   cwithin (fast_product_error ((nonnull sg + 1) / 2) (a_dim A - nonnull sg) (sumI (a_dim A) (fun j => cabs1 (cval (rd x j)))) (sumI (a_dim A) (fun j => cabs1 (cval (rd y j)))))
     (rd z i) (spec_mul (sq sg) (a_dim A) (fun j => cval (rd x j)) (fun j => cval (rd y j)) i)).
Proof.
  intros Hx Hy. destruct (fp_cplx sg A D Hl x y Hx Hy) as (z & E & Hz & H). exists z. split; [exact E|]. split; [exact Hz|]. intros HF i Hi.
  rewrite (spec_mul_rd sg A D cval x y i Hx Hy Hi).
  rewrite (rd_dense A z i Hz Hi).
  rewrite (sumI_ext _ (fun j => cabs1 (cval (rd x j))) (fun j => cabs1 (cval (arr_coef x j)))) by (intros j Hj; rewrite (rd_dense A x j Hx Hj); reflexivity).
  rewrite (sumI_ext _ (fun j => cabs1 (cval (rd y j))) (fun j => cabs1 (cval (arr_coef y j)))) by (intros j Hj; rewrite (rd_dense A y j Hy Hj); reflexivity).
  apply H; auto. intros k Hk. rewrite <- (HF k Hk). f_equal. symmetry. exact (rd_dense A z k Hz Hk).
Qed.
(** Both ways of multiplying. *)
Lemma fast_slow sg A (D : declared sg A) (Hl : (length sg < 63)%nat) (x y : store KDense F) : valid A x -> valid A y ->
  exists z w : store KDense F, (X <- mv_fft (F := F) A (x : arr F) ;; Y <- mv_fft A (y : arr F) ;; P <- fr_mul X Y ;; fr_ifft A P) = Ok (z : arr F) /\ mv_mul A x y = Ok w /\
  ((forall i, (i < 2 ^ N.of_nat (a_dim A))%N -> finite (rd z i) = true) ->
   forall i, (i < 2 ^ N.of_nat (a_dim A))%N -> finite (rd w i) = true ->
   Qcabs (val (rd z i) - val (rd w i))
    <= fast_product_error ((nonnull sg + 1) / 2) (a_dim A - nonnull sg) (sumI (a_dim A) (fun j => Qcabs (val (rd x j)))) (sumI (a_dim A) (fun j => Qcabs (val (rd y j))))
     + product_error (length (mv_coeff_enumerate x)) (sumI (a_dim A) (fun j => Qcabs (val (rd x j)) * Qcabs (val (rd y (N.lxor j i)))))).
Proof.
  intros Hx Hy. destruct (fast_real sg A D Hl x y Hx Hy) as (z & E & _ & H). destruct (mul_error sg A D KDense x y Hx Hy) as (w & E' & _ & H').
  exists z, w. split; [exact E|]. split; [exact E'|]. intros HF i Hi Hf. specialize (H HF i Hi). specialize (H' i Hi Hf).
  set (t := spec_mul _ _ _ _ i) in *. replace (val (rd z i) - val (rd w i)) with ((val (rd z i) - t) + - (val (rd w i) - t)) by ring.
  eapply Qcle_trans; [apply Qcabs_triangle|]. rewrite Qcabs_opp. apply Qcplus_le_compat; assumption.
Qed.
End Stores.
