(** Single precision multivectors through the double precision transforms. *)
From Verif Require Export Spec_Conv32 P_Conv32b P_Round11 P_Float P_F64.
From Coq Require Import QArith Lqa Lia.
Local Open Scope Qc_scope.

#[global] Instance F32N : NumLaws f32.
Proof.
  pose proof (flt_laws 24 128) as L. constructor.
  - intros [a] [b]. exact (f_equal mk32 (@n_add_comm _ _ L a b)).
  - intros [a]. exact (f_equal mk32 (@n_add_0_l _ _ L a)).
  - intros [a] [b]. exact (f_equal mk32 (@n_sub_def _ _ L a b)).
  - intros [a]. exact (f_equal mk32 (@n_neg_neg _ _ L a)).
  - exact (f_equal mk32 (@n_neg_0 _ _ L)).
  - intros [a] [b]. exact (f_equal mk32 (@n_neg_add _ _ L a b)).
  - intros [a]. split; intros H.
    + exact (f_equal mk32 (proj1 (@n_is0_spec _ _ L a) H)).
    + injection H as ->. exact (proj2 (@n_is0_spec _ _ L FZ) eq_refl).
  - exact (@n_reqb_0 _ _ L).
  - intros [a] [b]. exact (@n_reqb_sym _ _ L a b).
Qed.

#[local] Instance O64 : RingOps flt := F64.
#[local] Instance D64 : DivOps flt := flt_div 53 1024.
#[local] Instance R64 : RoundOps flt := V64.
#[local] Instance L64 : RoundLaws flt := f64_rounds.
#[local] Instance N64 : NumLaws flt := flt_laws 53 1024.

Lemma in32 : into_complex (r0 : f32) = (r0 : cplx flt). Proof. reflexivity. Qed.
Lemma inc32 : into_complex (r0 : cplx f32) = (r0 : cplx flt). Proof. reflexivity. Qed.
Lemma fr32 : from_complex (r0 : cplx flt) = (r0 : f32). Proof. reflexivity. Qed.
Lemma frc32 : from_complex (r0 : cplx flt) = (r0 : cplx f32). Proof. reflexivity. Qed.
Lemma narrow_err c e v : finite (f32_of_f64 c) = true -> Qcabs (flt_val c - v) <= e -> Qcabs (val (f32_of_f64 c) - v) <= narrowed e v.
Proof.
  intros HF H. destruct (narrow_near c HF) as [_ R]. unfold rounds in R. unfold narrowed.
  assert (U : 0 <= @ulp f32 V32) by (vm_compute; discriminate).
  assert (H2 : Qcabs (flt_val c) <= Qcabs v + e).
  { replace (flt_val c) with (v + (flt_val c - v)) by ring. eapply Qcle_trans; [apply Qcabs_triangle|]. apply Qcplus_le_compat; [apply Qcle_refl|exact H]. }
  replace (val (f32_of_f64 c) - v) with ((flt_val c - v) + (val (f32_of_f64 c) - flt_val c)) by ring.
  eapply Qcle_trans; [apply Qcabs_triangle|]. apply Qcplus_le_compat; [exact H|]. eapply Qcle_trans; [exact R|].
  apply Qcplus_le_compat; [|apply Qcle_refl]. apply qmul_le; auto.
Qed.

Section MV.
Context {md : Mode}.
Variables (sg : list tok) (A : algebra).
Hypothesis D : declared sg A.
Hypothesis Hl : (length sg < 63)%nat.
Local Notation n := (nonnull sg).
Local Notation d := (a_dim A).
Local Notation E64 P := (@round_trip_error flt V64 (half n) P).
Local Notation P64 P Q := (@fast_product_error flt V64 (half n) (d - n) P Q).

Lemma val_widen c : is_f32 c -> flt_val (f64_of_f32 c) = val c.
Proof. intros H. apply (widen_ok c H). Qed.

Lemma yq_real (x : N -> f32) k : is_f32 (x k) -> yq (F := flt) x k = mkC (val (x k)) 0.
Proof. intros H. unfold yq, cval. cbn [into_complex F32Into c_re c_im]. change (@val flt R64) with flt_val. rewrite val_widen by auto. reflexivity. Qed.
Lemma yq_cplx (x : N -> cplx f32) k : is_c32 (x k) -> yq (F := flt) x k = cval (x k).
Proof. intros [H1 H2]. unfold yq, cval. cbn [into_complex C32Into c_re c_im]. change (@val flt R64) with flt_val. rewrite !val_widen by auto. reflexivity. Qed.

Lemma wq_real32 (x : N -> f32) : (forall k, (k < pow2 d)%N -> is_f32 (x k)) -> sumI d (wq (F := flt) x) = sumI d (fun j => Qcabs (val (x j))).
Proof.
  intros H. apply sumI_ext. intros i Hi. unfold wq. rewrite yq_real by (apply H; exact Hi). unfold cabs1. cbn [c_re c_im]. rewrite qabs0. apply Qcplus_0_r.
Qed.
Lemma wq_cplx32 (x : N -> cplx f32) : (forall k, (k < pow2 d)%N -> is_c32 (x k)) -> sumI d (wq (F := flt) x) = sumI d (fun j => cabs1 (cval (x j))).
Proof. intros H. apply sumI_ext. intros i Hi. unfold wq. rewrite yq_cplx by (apply H; exact Hi). reflexivity. Qed.

Lemma rt_f32 (x : arr f32) : arr_wf d x -> (forall k, (k < pow2 d)%N -> is_f32 (arr_coef x k)) ->
  exists z : arr f32, (X <- mv_fft (F := flt) A x ;; fr_ifft A X) = Ok z /\ arr_wf d z /\
  (forall k, (k < pow2 d)%N -> is_f32 (arr_coef z k)) /\
  ((forall k, (k < pow2 d)%N -> finite (arr_coef z k) = true) -> forall k, (k < pow2 d)%N ->
   let e := E64 (sumI d (fun j => Qcabs (val (arr_coef x j)))) in
   Qcabs (val (arr_coef z k) - val (arr_coef x k)) <= narrowed e (val (arr_coef x k)) /\
   (val (arr_coef x k) <> 0 -> e <= pow2q (-26) * Qcabs (val (arr_coef x k)) -> arr_coef z k = arr_coef x k)).
Proof.
  intros Hx HV. destruct (r_fft (F := flt) (T := f32) (IC := F32Into) sg A D Hl in32 x Hx) as (r & E & Hr). rewrite E. cbn [bind].
  destruct (r_ifft (F := flt) (T := f32) (FC := F32From) sg A D Hl fr32 r _ Hr) as (z & Ez & Hz & Hc). exists z. split; [exact Ez|]. split; [exact Hz|].
  split. { intros k Hk. rewrite Hc by auto. apply narrow_ok. }
  intros HF k Hk.
  assert (HG : forall k, (k < pow2 d)%N -> @finite flt R64 (c_re (rmul (ipw (popcount (N.land k (a_imag A)))) (icoef sg (frep sg (cfl A (arr_coef x))) k))) = true).
  { intros j Hj. specialize (HF j Hj). rewrite Hc in HF by auto. exact (proj1 (narrow_near _ HF)). }
  assert (HP : forall k, (k < pow2 d)%N -> cfinite (icoef sg (frep sg (cfl A (arr_coef x))) k) = true).
  { intros j Hj. apply (phase_l_re _ _ _ (ipw_unit (popcount (N.land j (a_imag A)))) (HG j Hj)). }
  assert (H := rt_core sg A D Hl (arr_coef x) HP k Hk).
  assert (H2 := proj2 (phase_l_re _ _ _ (ipw_unit (popcount (N.land k (a_imag A)))) (HG k Hk)) _ _ _ _ H).
  rewrite (@cq_back _ _ _ _ F32R) in H2. rewrite yq_real in H2 by auto. cbn [c_re] in H2. rewrite wq_real32 in H2 by auto.
  assert (B := Qcle_trans _ _ _ H2 (rt_bound _ _)). clear H2.
  specialize (HF k Hk). rewrite Hc in * by auto. cbn [from_complex F32From] in *. cbv zeta.
  split; [apply (narrow_err _ _ _ HF B)|]. intros H0 HE. apply narrow_close; auto. eapply Qcle_trans; [exact B|exact HE].
Qed.

Lemma rt_c32 (x : arr (cplx f32)) : arr_wf d x -> (forall k, (k < pow2 d)%N -> is_c32 (arr_coef x k)) ->
  exists z : arr (cplx f32), (X <- mv_fft (F := flt) A x ;; fr_ifft A X) = Ok z /\ arr_wf d z /\
  (forall k, (k < pow2 d)%N -> is_c32 (arr_coef z k)) /\
  ((forall k, (k < pow2 d)%N -> cfinite (arr_coef z k) = true) -> forall k, (k < pow2 d)%N ->
   let e := E64 (sumI d (fun j => cabs1 (cval (arr_coef x j)))) in
   Qcabs (val (c_re (arr_coef z k)) - val (c_re (arr_coef x k))) <= narrowed e (val (c_re (arr_coef x k))) /\
   Qcabs (val (c_im (arr_coef z k)) - val (c_im (arr_coef x k))) <= narrowed e (val (c_im (arr_coef x k))) /\
   (val (c_re (arr_coef x k)) <> 0 -> e <= pow2q (-26) * Qcabs (val (c_re (arr_coef x k))) -> c_re (arr_coef z k) = c_re (arr_coef x k)) /\
   (val (c_im (arr_coef x k)) <> 0 -> e <= pow2q (-26) * Qcabs (val (c_im (arr_coef x k))) -> c_im (arr_coef z k) = c_im (arr_coef x k))).
Proof.
  intros Hx HV. destruct (r_fft (F := flt) (T := cplx f32) (RT := CplxOps) (WT := cplx_num F32N) (IC := C32Into) sg A D Hl inc32 x Hx) as (r & E & Hr). rewrite E. cbn [bind].
  destruct (r_ifft (F := flt) (T := cplx f32) (RT := CplxOps) (WT := cplx_num F32N) (FC := C32From) sg A D Hl frc32 r _ Hr) as (z & Ez & Hz & Hc). exists z. split; [exact Ez|]. split; [exact Hz|].
  split. { intros k Hk. rewrite Hc by auto. split; apply narrow_ok. }
  intros HF k Hk.
  assert (HG : forall k, (k < pow2 d)%N -> @cfinite flt R64 (rmul (ipw (popcount (N.land k (a_imag A)))) (icoef sg (frep sg (cfl A (arr_coef x))) k)) = true).
  { intros j Hj. specialize (HF j Hj). rewrite Hc in HF by auto. unfold cfinite in HF |- *. cbn [from_complex C32From c_re c_im] in HF. apply andb_true_iff in HF as [F1 F2].
    apply andb_true_iff. split; [exact (proj1 (narrow_near _ F1))|exact (proj1 (narrow_near _ F2))]. }
  assert (HP : forall k, (k < pow2 d)%N -> cfinite (icoef sg (frep sg (cfl A (arr_coef x))) k) = true).
  { intros j Hj. apply (phase_l _ _ _ (ipw_unit (popcount (N.land j (a_imag A)))) (HG j Hj)). }
  assert (H := rt_core sg A D Hl (arr_coef x) HP k Hk).
  assert (H2 := proj2 (phase_l _ _ _ (ipw_unit (popcount (N.land k (a_imag A)))) (HG k Hk)) _ _ _ _ H).
  rewrite (@cq_back _ _ _ _ (@CplxOps f32 _)) in H2. rewrite yq_cplx in H2 by auto. rewrite wq_cplx32 in H2 by auto. destruct H2 as (_ & _ & H3 & H4).
  assert (B3 := Qcle_trans _ _ _ H3 (rt_bound _ _)). assert (B4 := Qcle_trans _ _ _ H4 (rt_bound _ _)). clear H3 H4.
  specialize (HF k Hk). destruct (HV k Hk) as [V1 V2]. rewrite Hc in * by auto. unfold cfinite in HF. cbn [from_complex C32From c_re c_im] in *. apply andb_true_iff in HF as [F1 F2]. cbv zeta.
  split; [apply (narrow_err _ _ _ F1 B3)|]. split; [apply (narrow_err _ _ _ F2 B4)|].
  split; intros H0 HE; apply narrow_close; auto; [eapply Qcle_trans; [exact B3|exact HE]|eapply Qcle_trans; [exact B4|exact HE]].
Qed.

Lemma fp_f32 (x y : arr f32) : arr_wf d x -> arr_wf d y -> (forall k, (k < pow2 d)%N -> is_f32 (arr_coef x k)) -> (forall k, (k < pow2 d)%N -> is_f32 (arr_coef y k)) ->
  exists z : arr f32, (X <- mv_fft (F := flt) A x ;; Y <- mv_fft A y ;; P <- fr_mul X Y ;; fr_ifft A P) = Ok z /\ arr_wf d z /\
  (forall k, (k < pow2 d)%N -> is_f32 (arr_coef z k)) /\
  ((forall k, (k < pow2 d)%N -> finite (arr_coef z k) = true) -> forall k, (k < pow2 d)%N ->
   let v := spec_mul (sq sg) d (fun j => val (arr_coef x j)) (fun j => val (arr_coef y j)) k in
   Qcabs (val (arr_coef z k) - v)
    <= narrowed (P64 (sumI d (fun j => Qcabs (val (arr_coef x j)))) (sumI d (fun j => Qcabs (val (arr_coef y j))))) v).
Proof.
  intros Hx Hy VX VY. destruct (r_fft (F := flt) (T := f32) (IC := F32Into) sg A D Hl in32 x Hx) as (r & E & Hr). rewrite E. cbn [bind].
  destruct (r_fft (F := flt) (T := f32) (IC := F32Into) sg A D Hl in32 y Hy) as (r' & E' & Hr'). rewrite E'. cbn [bind].
  destruct (wmul_f (half n) (d - n) r r' _ _ Hr Hr') as (p & Ep & Hp). change (fr_mul r r') with (wmul r r'). rewrite Ep. cbn [bind].
  destruct (r_ifft (F := flt) (T := f32) (FC := F32From) sg A D Hl fr32 p _ Hp) as (z & Ez & Hz & Hc). exists z. split; [exact Ez|]. split; [exact Hz|].
  split. { intros k Hk. rewrite Hc by auto. apply narrow_ok. }
  intros HF k Hk.
  set (Z := wm (mmulf (half n)) _ _ _ _ _ _) in Hc.
  assert (HG : forall k, (k < pow2 d)%N -> @finite flt R64 (c_re (rmul (ipw (popcount (N.land k (a_imag A)))) (icoef sg Z k))) = true).
  { intros j Hj. specialize (HF j Hj). rewrite Hc in HF by auto. exact (proj1 (narrow_near _ HF)). }
  assert (HP : forall k, (k < pow2 d)%N -> cfinite (icoef sg Z k) = true).
  { intros j Hj. apply (phase_l_re _ _ _ (ipw_unit (popcount (N.land j (a_imag A)))) (HG j Hj)). }
  assert (H := prod_core sg A D Hl (arr_coef x) (arr_coef y) HP k Hk).
  assert (H2 := proj2 (phase_l_re _ _ _ (ipw_unit (popcount (N.land k (a_imag A)))) (HG k Hk)) _ _ _ _ H).
  rewrite (cq_gp sg A D) in H2 by auto.
  assert (EY : spec_mul (sq sg) d (yq (F := flt) (arr_coef x)) (yq (F := flt) (arr_coef y)) k = mkC (spec_mul (sq sg) d (fun j => val (arr_coef x j)) (fun j => val (arr_coef y j)) k) 0).
  { rewrite <- (spec_mul_re sg A D) by auto. rewrite !(spec_mul_gp _ _ _ _ _ _ (declared_metric sg A D) k Hk). apply gp_feq; auto; intros i Hi; apply yq_real; auto. }
  rewrite EY in H2. cbn [c_re] in H2. rewrite !wq_real32 in H2 by auto.
  assert (B := Qcle_trans _ _ _ H2 (fp_bound _ _ _ _ ltac:(apply sum_pos; intros; apply Qcabs_nonneg) ltac:(apply sum_pos; intros; apply Qcabs_nonneg))). clear H2.
  specialize (HF k Hk). rewrite Hc in * by auto. cbn [from_complex F32From] in *. cbv zeta. apply (narrow_err _ _ _ HF B).
Qed.

Lemma fp_c32 (x y : arr (cplx f32)) : arr_wf d x -> arr_wf d y -> (forall k, (k < pow2 d)%N -> is_c32 (arr_coef x k)) -> (forall k, (k < pow2 d)%N -> is_c32 (arr_coef y k)) ->
  exists z : arr (cplx f32), (X <- mv_fft (F := flt) A x ;; Y <- mv_fft A y ;; P <- fr_mul X Y ;; fr_ifft A P) = Ok z /\ arr_wf d z /\
  (forall k, (k < pow2 d)%N -> is_c32 (arr_coef z k)) /\
  ((forall k, (k < pow2 d)%N -> cfinite (arr_coef z k) = true) -> forall k, (k < pow2 d)%N ->
   let v := spec_mul (sq sg) d (fun j => cval (arr_coef x j)) (fun j => cval (arr_coef y j)) k in
   let e := P64 (sumI d (fun j => cabs1 (cval (arr_coef x j)))) (sumI d (fun j => cabs1 (cval (arr_coef y j)))) in
   Qcabs (val (c_re (arr_coef z k)) - c_re v) <= narrowed e (c_re v) /\ Qcabs (val (c_im (arr_coef z k)) - c_im v) <= narrowed e (c_im v)).
Proof.
  intros Hx Hy VX VY. destruct (r_fft (F := flt) (T := cplx f32) (RT := CplxOps) (WT := cplx_num F32N) (IC := C32Into) sg A D Hl inc32 x Hx) as (r & E & Hr). rewrite E. cbn [bind].
  destruct (r_fft (F := flt) (T := cplx f32) (RT := CplxOps) (WT := cplx_num F32N) (IC := C32Into) sg A D Hl inc32 y Hy) as (r' & E' & Hr'). rewrite E'. cbn [bind].
  destruct (wmul_f (half n) (d - n) r r' _ _ Hr Hr') as (p & Ep & Hp). change (fr_mul r r') with (wmul r r'). rewrite Ep. cbn [bind].
  destruct (r_ifft (F := flt) (T := cplx f32) (RT := CplxOps) (WT := cplx_num F32N) (FC := C32From) sg A D Hl frc32 p _ Hp) as (z & Ez & Hz & Hc). exists z. split; [exact Ez|]. split; [exact Hz|].
  split. { intros k Hk. rewrite Hc by auto. split; apply narrow_ok. }
  intros HF k Hk.
  set (Z := wm (mmulf (half n)) _ _ _ _ _ _) in Hc.
  assert (HG : forall k, (k < pow2 d)%N -> @cfinite flt R64 (rmul (ipw (popcount (N.land k (a_imag A)))) (icoef sg Z k)) = true).
  { intros j Hj. specialize (HF j Hj). rewrite Hc in HF by auto. unfold cfinite in HF |- *. cbn [from_complex C32From c_re c_im] in HF. apply andb_true_iff in HF as [F1 F2].
    apply andb_true_iff. split; [exact (proj1 (narrow_near _ F1))|exact (proj1 (narrow_near _ F2))]. }
  assert (HP : forall k, (k < pow2 d)%N -> cfinite (icoef sg Z k) = true).
  { intros j Hj. apply (phase_l _ _ _ (ipw_unit (popcount (N.land j (a_imag A)))) (HG j Hj)). }
  assert (H := prod_core sg A D Hl (arr_coef x) (arr_coef y) HP k Hk).
  assert (H2 := proj2 (phase_l _ _ _ (ipw_unit (popcount (N.land k (a_imag A)))) (HG k Hk)) _ _ _ _ H).
  rewrite (cq_gp sg A D) in H2 by auto.
  assert (EY : spec_mul (sq sg) d (yq (F := flt) (arr_coef x)) (yq (F := flt) (arr_coef y)) k = spec_mul (sq sg) d (fun j => cval (arr_coef x j)) (fun j => cval (arr_coef y j)) k).
  { rewrite !(spec_mul_gp _ _ _ _ _ _ (declared_metric sg A D) k Hk). apply gp_feq; auto; intros i Hi; apply yq_cplx; auto. }
  rewrite EY in H2. rewrite !wq_cplx32 in H2 by auto. destruct H2 as (_ & _ & H3 & H4).
  assert (BB := fp_bound (F := flt) (half n) (d - n) (sumI d (fun j => cabs1 (cval (arr_coef x j)))) (sumI d (fun j => cabs1 (cval (arr_coef y j)))) ltac:(apply sum_pos; intros; apply cabs1_pos) ltac:(apply sum_pos; intros; apply cabs1_pos)).
  assert (B3 := Qcle_trans _ _ _ H3 BB). assert (B4 := Qcle_trans _ _ _ H4 BB). clear H3 H4 BB.
  specialize (HF k Hk). rewrite Hc in * by auto. unfold cfinite in HF. cbn [from_complex C32From c_re c_im] in *. apply andb_true_iff in HF as [F1 F2]. cbv zeta.
  split; [apply (narrow_err _ _ _ F1 B3)|apply (narrow_err _ _ _ F2 B4)].
Qed.
End MV.

Section Stores.
Context {md : Mode} {HO : HashOrder}.
Lemma abs_rd A (x : store KDense f32) : valid A x -> sumI (a_dim A) (fun j => Qcabs (val (rd x j))) = sumI (a_dim A) (fun j => Qcabs (val (arr_coef x j))).
Proof. intros Hx. apply sumI_ext. intros j Hj. rewrite (rd_dense A x j Hx Hj). reflexivity. Qed.
Lemma cabs_rd A (x : store KDense (cplx f32)) : valid A x -> sumI (a_dim A) (fun j => cabs1 (cval (rd x j))) = sumI (a_dim A) (fun j => cabs1 (cval (arr_coef x j))).
Proof. intros Hx. apply sumI_ext. intros j Hj. rewrite (rd_dense A x j Hx Hj). reflexivity. Qed.

Lemma rt_store32 sg A (D : declared sg A) (Hl : (length sg < 63)%nat) (x : store KDense f32) : valid A x ->
  (forall i, (i < 2 ^ N.of_nat (a_dim A))%N -> is_f32 (rd x i)) ->
  exists z : store KDense f32, (X <- mv_fft (F := flt) A (x : arr f32) ;; fr_ifft A X) = Ok (z : arr f32) /\ valid A z /\
  (forall i, (i < 2 ^ N.of_nat (a_dim A))%N -> is_f32 (rd z i)) /\
  ((forall i, (i < 2 ^ N.of_nat (a_dim A))%N -> finite (rd z i) = true) ->
   forall i, (i < 2 ^ N.of_nat (a_dim A))%N ->
   let e := @round_trip_error flt V64 ((nonnull sg + 1) / 2) (sumI (a_dim A) (fun j => Qcabs (val (rd x j)))) in
   Qcabs (val (rd z i) - val (rd x i)) <= narrowed e (val (rd x i)) /\
   (val (rd x i) <> 0 -> e <= pow2q (-26) * Qcabs (val (rd x i)) -> rd z i = rd x i)).
Proof.
  intros Hx HV. destruct (rt_f32 sg A D Hl x Hx) as (z & E & Hz & HI & H).
  { intros k Hk. rewrite <- (rd_dense A x k Hx Hk). apply HV. exact Hk. }
  exists z. split; [exact E|]. split; [exact Hz|]. split.
  { intros i Hi. rewrite (rd_dense A z i Hz Hi). apply HI. exact Hi. }
  intros HF i Hi. rewrite (rd_dense A z i Hz Hi), (rd_dense A x i Hx Hi), (abs_rd A x Hx). apply H; auto.
  intros k Hk. rewrite <- (rd_dense A z k Hz Hk). apply HF. exact Hk.
Qed.

Lemma rt_storec32 sg A (D : declared sg A) (Hl : (length sg < 63)%nat) (x : store KDense (cplx f32)) : valid A x ->
  (forall i, (i < 2 ^ N.of_nat (a_dim A))%N -> is_c32 (rd x i)) ->
  exists z : store KDense (cplx f32), (X <- mv_fft (F := flt) A (x : arr (cplx f32)) ;; fr_ifft A X) = Ok (z : arr (cplx f32)) /\ valid A z /\
  (forall i, (i < 2 ^ N.of_nat (a_dim A))%N -> is_c32 (rd z i)) /\
  ((forall i, (i < 2 ^ N.of_nat (a_dim A))%N -> cfinite (rd z i) = true) ->
   forall i, (i < 2 ^ N.of_nat (a_dim A))%N ->
   let e := @round_trip_error flt V64 ((nonnull sg + 1) / 2) (sumI (a_dim A) (fun j => cabs1 (cval (rd x j)))) in
   Qcabs (val (c_re (rd z i)) - val (c_re (rd x i))) <= narrowed e (val (c_re (rd x i))) /\
   Qcabs (val (c_im (rd z i)) - val (c_im (rd x i))) <= narrowed e (val (c_im (rd x i))) /\
   (val (c_re (rd x i)) <> 0 -> e <= pow2q (-26) * Qcabs (val (c_re (rd x i))) -> c_re (rd z i) = c_re (rd x i)) /\
   (val (c_im (rd x i)) <> 0 -> e <= pow2q (-26) * Qcabs (val (c_im (rd x i))) -> c_im (rd z i) = c_im (rd x i))).
Proof.
  intros Hx HV. destruct (rt_c32 sg A D Hl x Hx) as (z & E & Hz & HI & H).
  { intros k Hk. rewrite <- (rd_dense A x k Hx Hk). apply HV. exact Hk. }
  exists z. split; [exact E|]. split; [exact Hz|]. split.
  { intros i Hi. rewrite (rd_dense A z i Hz Hi). apply HI. exact Hi. }
  intros HF i Hi. rewrite (rd_dense A z i Hz Hi), (rd_dense A x i Hx Hi), (cabs_rd A x Hx). apply H; auto.
  intros k Hk. rewrite <- (rd_dense A z k Hz Hk). apply HF. exact Hk.
Qed.

Lemma fp_store32 sg A (D : declared sg A) (Hl : (length sg < 63)%nat) (x y : store KDense f32) : valid A x -> valid A y ->
  (forall i, (i < 2 ^ N.of_nat (a_dim A))%N -> is_f32 (rd x i) /\ is_f32 (rd y i)) ->
  exists z : store KDense f32, (X <- mv_fft (F := flt) A (x : arr f32) ;; Y <- mv_fft A (y : arr f32) ;; P <- fr_mul X Y ;; fr_ifft A P) = Ok (z : arr f32) /\ valid A z /\
  (forall i, (i < 2 ^ N.of_nat (a_dim A))%N -> is_f32 (rd z i)) /\
  ((forall i, (i < 2 ^ N.of_nat (a_dim A))%N -> finite (rd z i) = true) ->
   forall i, (i < 2 ^ N.of_nat (a_dim A))%N ->
   let v := spec_mul (sq sg) (a_dim A) (fun j => val (rd x j)) (fun j => val (rd y j)) i in
   let e := @fast_product_error flt V64 ((nonnull sg + 1) / 2) (a_dim A - nonnull sg) (sumI (a_dim A) (fun j => Qcabs (val (rd x j)))) (sumI (a_dim A) (fun j => Qcabs (val (rd y j)))) in
   Qcabs (val (rd z i) - v) <= narrowed e v).
Proof.
  intros Hx Hy HV. destruct (fp_f32 sg A D Hl x y Hx Hy) as (z & E & Hz & HI & H).
  { intros k Hk. rewrite <- (rd_dense A x k Hx Hk). apply HV. exact Hk. }
  { intros k Hk. rewrite <- (rd_dense A y k Hy Hk). apply HV. exact Hk. }
  exists z. split; [exact E|]. split; [exact Hz|]. split.
  { intros i Hi. rewrite (rd_dense A z i Hz Hi). apply HI. exact Hi. }
  intros HF i Hi. rewrite (spec_mul_rd sg A D val x y i Hx Hy Hi), (rd_dense A z i Hz Hi), (abs_rd A x Hx), (abs_rd A y Hy). apply H; auto.
  intros k Hk. rewrite <- (rd_dense A z k Hz Hk). apply HF. exact Hk.
Qed.

Lemma fp_storec32 sg A (D : declared sg A) (Hl : (length sg < 63)%nat) (x y : store KDense (cplx f32)) : valid A x -> valid A y ->
  (forall i, (i < 2 ^ N.of_nat (a_dim A))%N -> is_c32 (rd x i) /\ is_c32 (rd y i)) ->
  exists z : store KDense (cplx f32), (X <- mv_fft (F := flt) A (x : arr (cplx f32)) ;; Y <- mv_fft A (y : arr (cplx f32)) ;; P <- fr_mul X Y ;; fr_ifft A P) = Ok (z : arr (cplx f32)) /\ valid A z /\
  (forall i, (i < 2 ^ N.of_nat (a_dim A))%N -> is_c32 (rd z i)) /\
  ((forall i, (i < 2 ^ N.of_nat (a_dim A))%N -> cfinite (rd z i) = true) ->
   forall i, (i < 2 ^ N.of_nat (a_dim A))%N ->
   let v := spec_mul (sq sg) (a_dim A) (fun j => cval (rd x j)) (fun j => cval (rd y j)) i in
   let e := @fast_product_error flt V64 ((nonnull sg + 1) / 2) (a_dim A - nonnull sg) (sumI (a_dim A) (fun j => cabs1 (cval (rd x j)))) (sumI (a_dim A) (fun j => cabs1 (cval (rd y j)))) in
   Qcabs (val (c_re (rd z i)) - c_re v) <= narrowed e (c_re v) /\ Qcabs (val (c_im (rd z i)) - c_im v) <= narrowed e (c_im v)).
Proof.
  intros Hx Hy HV. destruct (fp_c32 sg A D Hl x y Hx Hy) as (z & E & Hz & HI & H).
  { intros k Hk. rewrite <- (rd_dense A x k Hx Hk). apply HV. exact Hk. }
  { intros k Hk. rewrite <- (rd_dense A y k Hy Hk). apply HV. exact Hk. }
  exists z. split; [exact E|]. split; [exact Hz|]. split.
  { intros i Hi. rewrite (rd_dense A z i Hz Hi). apply HI. exact Hi. }
  intros HF i Hi. rewrite (spec_mul_rd sg A D cval x y i Hx Hy Hi), (rd_dense A z i Hz Hi), (cabs_rd A x Hx), (cabs_rd A y Hy). apply H; auto.
  intros k Hk. rewrite <- (rd_dense A z k Hz Hk). apply HF. exact Hk.
Qed.

(** Conversions alone. *)
Lemma widen_full c : is_f32 c -> flt_val (f64_of_f32 c) = val c /\ flt_finite (f64_of_f32 c) = finite c /\ is_f64 (f64_of_f32 c) /\ f32_of_f64 (f64_of_f32 c) = c.
Proof. exact (widen_ok c). Qed.
Lemma narrow_full c : is_f32 (f32_of_f64 c) /\
  (finite (f32_of_f64 c) = true -> flt_finite c = true /\ @rounds f32 V32 (val (f32_of_f64 c)) (flt_val c)) /\
  (forall x, is_f32 x -> val x <> 0 -> Qcabs (flt_val c - val x) <= pow2q (-26) * Qcabs (val x) -> f32_of_f64 c = x).
Proof. split; [apply narrow_ok|]. split; [apply narrow_near|apply narrow_close]. Qed.
End Stores.
