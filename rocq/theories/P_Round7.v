(** Rounding errors of the transforms: final bounds. *)
From Verif Require Export P_Round6.
From Coq Require Import QArith Lqa Lia.
Local Open Scope Qc_scope.

Lemma qpow_add (v : Qc) a b : v ^ (a + b) = v ^ a * v ^ b.
Proof. induction a as [|a IH]; cbn [Nat.add Qcpower]; [ring|]. rewrite IH. ring. Qed.
Lemma qpow_le (u : Qc) a b : 0 <= u -> (a <= b)%nat -> (1 + u) ^ a <= (1 + u) ^ b.
Proof.
  intros Hu H. replace b with ((b - a) + a)%nat by lia. rewrite qpow_add. pose proof (qpow_ge u (b - a) Hu). pose proof (qpow_ge u a Hu) as Ha.
  set (p := _ ^ (b - a)) in *. set (q := _ ^ a) in *. clearbody p q. assert (0 <= (p - 1) * q) by (apply qmul_pos; qlra).
  replace (p * q) with ((p - 1) * q + q) by ring. set (X := _ * q) in *. clearbody X. qlra.
Qed.

Section Tr.
Context {F : Type} {RF : RingOps F} {DF : DivOps F} {V : RoundOps F} {RL : RoundLaws F} {W : NumLaws F}.
Local Notation C := (cplx F).
Local Notation CQ := (cplx Qc).
Local Notation gph g := ((1 + ulp) * (1 + ulp) * (1 + g) - 1).
Local Notation eph e := ((1 + ulp) * (1 + ulp) * e + ((1 + ulp) + 1) * eta).

(** Only the real part of a rotated number is kept. *)
Lemma phase_l_re (z p : C) q : unit4 p q -> finite (c_re (rmul p z)) = true -> cfinite z = true /\
  forall g B e w, napp g B e z w -> Qcabs (val (c_re (rmul p z)) - c_re (rmul q w)) <= gph g * B + eph e.
Proof.
  intros (s & Fs & As & Hs) F1. destruct z as [a b].
  destruct Hs as [(-> & ->)|(-> & ->)]; cbn [rmul CplxOps c_re c_im] in F1.
  - pose proof F1 as K. apply ro_sub in K as (K1 & K2 & _). apply ro_mul in K1 as (_ & Fa & Ra). apply ro_mul in K2 as (_ & Fb & _).
    split; [unfold cfinite; cbn [c_re c_im]; rewrite Fa, Fb; reflexivity|].
    intros g B e [w1 w2] (B1 & B2 & W1 & W2). cbn [rmul CplxOps c_re c_im QcOps radd rsub] in *.
    rewrite (proj2 (ro_mul_0 _ Fb)), sub_r0. rewrite Qcmult_comm in Ra.
    replace (val s * w1 - 0 * w2) with (w1 * val s) by ring. eapply phase_one; eassumption.
  - pose proof F1 as K. apply ro_sub in K as (K1 & K2 & _). apply ro_mul in K1 as (_ & Fa & _). apply ro_mul in K2 as (_ & Fb & Rb).
    split; [unfold cfinite; cbn [c_re c_im]; rewrite Fa, Fb; reflexivity|].
    intros g B e [w1 w2] (B1 & B2 & W1 & W2). cbn [rmul CplxOps c_re c_im QcOps radd rsub] in *.
    rewrite (proj2 (ro_mul_0 _ Fa)), n_sub_def, !n_add_0_l, (proj1 (ro_neg _)). rewrite Qcmult_comm in Rb.
    replace (0 * w1 - val s * w2) with (- (w2 * val s)) by ring.
    replace (- val (rmul s b) - - (w2 * val s)) with (- (val (rmul s b) - w2 * val s)) by ring. rewrite Qcabs_opp. eapply phase_one; eassumption.
Qed.

(** ** The accumulated bounds *)

Lemma rt_bound m P : gph (gph (igain m (gcl m (gph (gph 0))))) * P + eph (eph (ieta m (ecl m (eph (eph 0))))) <= round_trip_error m P.
Proof.
  unfold round_trip_error, igain, gcl, ieta, ecl, zq. pose proof ro_u as Hu. pose proof ro_eta as He.
  assert (H7 := qpow_le ulp (4 * m + 7) (4 * m + 8) Hu ltac:(lia)). assert (H6 := qpow_le ulp (4 * m + 6) (4 * m + 8) Hu ltac:(lia)).
  assert (H5 := qpow_le ulp (4 * m + 5) (4 * m + 8) Hu ltac:(lia)). assert (H4 := qpow_le ulp (4 * m + 4) (4 * m + 8) Hu ltac:(lia)).
  assert (H3 := qpow_le ulp (3 * m + 4) (4 * m + 8) Hu ltac:(lia)). assert (P3 := qpow_le ulp 3 (4 * m + 8) Hu ltac:(lia)).
  assert (P2 := qpow_le ulp 2 (4 * m + 8) Hu ltac:(lia)). assert (P1 := qpow_le ulp 1 (4 * m + 8) Hu ltac:(lia)). assert (P0 := qpow_le ulp 0 (4 * m + 8) Hu ltac:(lia)).
  assert (N3 := qpow_ge ulp (3 * m + 4) Hu).
  assert (HK : 1 <= (1 + 1) ^ m) by (apply qpow_ge; discriminate).
  assert (HM : 0 <= zq (3 * Z.of_nat m)) by (apply zq_pos; lia).
  assert (EZ : Q2Qc (inject_Z (3 * Z.of_nat m + 4)) = zq (3 * Z.of_nat m) + zq 4) by apply zq_add. rewrite EZ.
  change (Q2Qc (inject_Z (3 * Z.of_nat m))) with (zq (3 * Z.of_nat m)). change (Q2Qc (inject_Z 5)) with (zq 5).
  assert (E5 : zq 5 = 1 + 1 + 1 + 1 + 1) by (apply Qc_is_canon; reflexivity). assert (E4 : zq 4 = 1 + 1 + 1 + 1) by (apply Qc_is_canon; reflexivity). rewrite E5, E4.
  set (M := zq (3 * Z.of_nat m)) in *. clearbody M. set (K := (1 + 1) ^ m) in *. clearbody K.
  replace (3 * m)%nat with (m + m + m)%nat in * by lia. replace (4 * m)%nat with (m + m + m + m)%nat in * by lia. clear EZ E5 E4.
  set (v := 1 + ulp) in *. assert (Ev : 1 + ulp = v) by reflexivity. clearbody v.
  match goal with |- ?a <= ?b => assert (HG : b - a = eta * (
     K * ((v ^ (m + m + m + m + 8) - v ^ (m + m + m + m + 7)) + (v ^ (m + m + m + m + 8) - v ^ (m + m + m + m + 6)) + (v ^ (m + m + m + m + 8) - v ^ (m + m + m + m + 5))
        + (1 + 1) * (v ^ (m + m + m + m + 8) - v ^ (m + m + m + m + 4)))
     + M * (v ^ (m + m + m + m + 8) - v ^ (m + m + m + 4)) + v ^ (m + m + m + 4)
     + (v ^ (m + m + m + m + 8) - v ^ 3) + (v ^ (m + m + m + m + 8) - v ^ 2) + (v ^ (m + m + m + m + 8) - v ^ 1) + (v ^ (m + m + m + m + 8) - v ^ 0))) end.
  { rewrite !qpow_add. cbn [Qcpower]. set (p := v ^ m). clearbody p. ring. }
  match goal with |- ?a <= ?b => cut (0 <= b - a); [intros HH; set (A1 := a) in *; set (A2 := b) in *; clearbody A1 A2; qlra|] end. rewrite HG. clear HG.
  set (t8 := v ^ (m + m + m + m + 8)) in *. set (t7 := v ^ (m + m + m + m + 7)) in *. set (t6 := v ^ (m + m + m + m + 6)) in *. set (t5 := v ^ (m + m + m + m + 5)) in *.
  set (t4 := v ^ (m + m + m + m + 4)) in *. set (t3 := v ^ (m + m + m + 4)) in *. set (s3 := v ^ 3) in *. set (s2 := v ^ 2) in *. set (s1 := v ^ 1) in *. set (s0 := v ^ 0) in *. clearbody t8 t7 t6 t5 t4 t3 s3 s2 s1 s0.
  apply qmul_pos; auto.
  assert (A1 : 0 <= K * ((t8 - t7) + (t8 - t6) + (t8 - t5) + (1 + 1) * (t8 - t4))) by (apply qmul_pos; qlra).
  assert (A2 : 0 <= M * (t8 - t3)) by (apply qmul_pos; qlra).
  set (X1 := K * _) in *. set (X2 := M * _) in *. clearbody X1 X2. qlra.
Qed.

Lemma fwd_bound m P : gcl m (gph 0) * P + ecl m (eph 0) <= fft_error m P.
Proof.
  unfold fft_error, gcl, ecl. pose proof ro_u as Hu. pose proof ro_eta as He.
  assert (H1 := qpow_le ulp (m + 1) (m + 2) Hu ltac:(lia)). assert (H0 := qpow_le ulp m (m + 2) Hu ltac:(lia)).
  assert (HK : 1 <= (1 + 1) ^ m) by (apply qpow_ge; discriminate).
  change (Q2Qc (inject_Z 3)) with (zq 3). assert (E3 : zq 3 = 1 + 1 + 1) by (apply Qc_is_canon; reflexivity). rewrite E3.
  set (K := (1 + 1) ^ m) in *. clearbody K. set (v := 1 + ulp) in *. clearbody v.
  match goal with |- ?a <= ?b => assert (HG : b - a = eta * (K * ((v ^ (m + 2) - v ^ (m + 1)) + (1 + 1) * (v ^ (m + 2) - v ^ m)) + 1)) end.
  { rewrite !qpow_add. cbn [Qcpower]. set (p := v ^ m). clearbody p. ring. }
  match goal with |- ?a <= ?b => cut (0 <= b - a); [intros HH; set (A1 := a) in *; set (A2 := b) in *; clearbody A1 A2; qlra|] end. rewrite HG. clear HG.
  set (t2 := v ^ (m + 2)) in *. set (t1 := v ^ (m + 1)) in *. set (t0 := v ^ m) in *. clearbody t2 t1 t0. apply qmul_pos; auto.
  assert (A1 : 0 <= K * ((t2 - t1) + (1 + 1) * (t2 - t0))) by (apply qmul_pos; qlra). set (X1 := K * _) in *. clearbody X1. qlra.
Qed.

Lemma inv_bound m B : gph (igain m 0) * B + eph (ieta m 0) <= ifft_error m B.
Proof.
  unfold ifft_error, igain, ieta. pose proof ro_u as Hu. pose proof ro_eta as He.
  assert (H1 := qpow_le ulp 1 (3 * m + 2) Hu ltac:(lia)). assert (H0 := qpow_le ulp 0 (3 * m + 2) Hu ltac:(lia)).
  assert (EZ : Q2Qc (inject_Z (3 * Z.of_nat m + 2)) = zq (3 * Z.of_nat m) + zq 2) by apply zq_add. rewrite EZ.
  assert (E2 : zq 2 = 1 + 1) by (apply Qc_is_canon; reflexivity). rewrite E2.
  set (M := zq (3 * Z.of_nat m)) in *. clearbody M. set (v := 1 + ulp) in *. clearbody v.
  match goal with |- ?a <= ?b => assert (HG : b - a = eta * ((v ^ (3 * m + 2) - v ^ 1) + (v ^ (3 * m + 2) - v ^ 0))) end.
  { rewrite !qpow_add. cbn [Qcpower]. set (p := v ^ (3 * m)). clearbody p. ring. }
  match goal with |- ?a <= ?b => cut (0 <= b - a); [intros HH; set (A1 := a) in *; set (A2 := b) in *; clearbody A1 A2; qlra|] end. rewrite HG. clear HG.
  apply qmul_pos; auto. set (t2 := v ^ (3 * m + 2)) in *. set (t1 := v ^ 1) in *. set (t0 := v ^ 0) in *. clearbody t2 t1 t0. qlra.
Qed.

(** ** The round trip of a multivector *)

Section MV.
Context {md : Mode}.
Variables (sg : list tok) (A : algebra).
Hypothesis D : declared sg A.
Hypothesis Hl : (length sg < 63)%nat.
Local Notation n := (nonnull sg).

Lemma cq_back {T} {RT : RingOps T} {IC : IntoCplx T F} (x : N -> T) k : rmul (ipw (popcount (N.land k (a_imag A)))) (cq A x k) = yq x k.
Proof. unfold cq. rewrite mul_assoc, ipw_ipn, mul_1_l. reflexivity. Qed.

Lemma wq_real (x : N -> F) : sumI (a_dim A) (wq (IC := RealInto) x) = sumI (a_dim A) (fun j => Qcabs (val (x j))).
Proof.
  apply sumI_ext. intros i _. unfold wq, yq, cabs1, cval. cbn [c_re c_im into_complex RealInto]. rewrite (proj1 ro_0), qabs0. apply Qcplus_0_r.
Qed.

Lemma rt_real (x : arr F) : arr_wf (a_dim A) x ->
  exists z : arr F, (X <- mv_fft (F := F) A x ;; fr_ifft A X) = Ok z /\ arr_wf (a_dim A) z /\
  ((forall k, (k < pow2 (a_dim A))%N -> finite (arr_coef z k) = true) -> forall k, (k < pow2 (a_dim A))%N ->
   Qcabs (val (arr_coef z k) - val (arr_coef x k)) <= round_trip_error (half n) (sumI (a_dim A) (fun j => Qcabs (val (arr_coef x j))))).
Proof.
  intros Hx. destruct (r_fft (T := F) (IC := RealInto) sg A D Hl eq_refl x Hx) as (r & E & Hr). rewrite E. cbn [bind].
  destruct (r_ifft (T := F) (FC := RealFrom) sg A D Hl eq_refl r _ Hr) as (z & Ez & Hz & Hc). exists z. split; [exact Ez|]. split; [exact Hz|].
  intros HF k Hk.
  assert (HP : forall k, (k < pow2 (a_dim A))%N -> cfinite (icoef sg (frep sg (cfl A (arr_coef x))) k) = true).
  { intros j Hj. apply (phase_l_re _ _ _ (ipw_unit (popcount (N.land j (a_imag A))))). specialize (HF j Hj). rewrite Hc in HF by auto. exact HF. }
  assert (H := rt_core sg A D Hl (arr_coef x) HP k Hk).
  specialize (HF k Hk). rewrite Hc in * by auto. cbn [from_complex RealFrom] in *.
  assert (H2 := proj2 (phase_l_re _ _ _ (ipw_unit (popcount (N.land k (a_imag A)))) HF) _ _ _ _ H).
  rewrite cq_back in H2. unfold yq in H2. cbn [cval c_re into_complex RealInto] in H2. rewrite wq_real in H2.
  eapply Qcle_trans; [exact H2|apply rt_bound].
Qed.

Lemma rt_cplx (x : arr C) : arr_wf (a_dim A) x ->
  exists z : arr C, (X <- mv_fft (F := F) A x ;; fr_ifft A X) = Ok z /\ arr_wf (a_dim A) z /\
  ((forall k, (k < pow2 (a_dim A))%N -> cfinite (arr_coef z k) = true) -> forall k, (k < pow2 (a_dim A))%N ->
   cwithin (round_trip_error (half n) (sumI (a_dim A) (fun j => cabs1 (cval (arr_coef x j))))) (arr_coef z k) (cval (arr_coef x k))).
Proof.
  intros Hx. destruct (r_fft (T := C) (RT := CplxOps) (WT := cplx_num W) (IC := CplxInto) sg A D Hl eq_refl x Hx) as (r & E & Hr). rewrite E. cbn [bind].
  destruct (r_ifft (T := C) (RT := CplxOps) (WT := cplx_num W) (FC := CplxFrom) sg A D Hl eq_refl r _ Hr) as (z & Ez & Hz & Hc). exists z. split; [exact Ez|]. split; [exact Hz|].
  intros HF k Hk.
  assert (HP : forall k, (k < pow2 (a_dim A))%N -> cfinite (icoef sg (frep sg (cfl A (arr_coef x))) k) = true).
  { intros j Hj. apply (phase_l _ _ _ (ipw_unit (popcount (N.land j (a_imag A))))). specialize (HF j Hj). rewrite Hc in HF by auto. exact HF. }
  assert (H := rt_core sg A D Hl (arr_coef x) HP k Hk).
  specialize (HF k Hk). rewrite Hc in * by auto. cbn [from_complex CplxFrom] in *.
  assert (H2 := proj2 (phase_l _ _ _ (ipw_unit (popcount (N.land k (a_imag A)))) HF) _ _ _ _ H).
  rewrite cq_back in H2. unfold yq in H2. cbn [into_complex CplxInto] in H2. destruct H2 as (_ & _ & H3 & H4).
  split; (eapply Qcle_trans; [eassumption|apply rt_bound]).
Qed.
End MV.

(** ** Arrays *)

Section Array.
Context {md : Mode}.

Lemma fwd_error {T} {RT : RingOps T} {IC : IntoCplx T F} (Hi0 : into_complex (r0 : T) = (r0 : C)) n (l : list T) : length l = (2 ^ n)%nat ->
  exists (M : mat C) (E : mat CQ), clifft l = Ok M /\ clifft (map (fun c => cval (into_complex c)) l) = Ok E /\
    square_mat (2 ^ half n) M /\ square_mat (2 ^ half n) E /\
    ((forall i j, (i < 2 ^ half n)%nat -> (j < 2 ^ half n)%nat -> cfinite (m_at M i j) = true) ->
     forall i j, (i < 2 ^ half n)%nat -> (j < 2 ^ half n)%nat ->
     cwithin (fft_error (half n) (sumI n (fun t => cabs1 (cval (into_complex (coefs l t)))))) (m_at M i j) (m_at E i j)).
Proof.
  intros Hl. destruct (r_clifft Hi0 n l Hl) as (M & EM & HM).
  set (l' := map (fun c => cval (into_complex c)) l). assert (Hl' : length l' = (2 ^ n)%nat) by (unfold l'; rewrite map_length; exact Hl).
  destruct (clifft_ok n l' Hl') as (E & EE & HE). exists M, E. split; [exact EM|]. split; [exact EE|].
  split; [split; [apply HM|split; apply HM]|]. split; [split; [apply HE|split; apply HE]|].
  intros HF i j Hi Hj. destruct HM as (_ & _ & _ & HM). destruct HE as (_ & _ & _ & HE). rewrite HM, HE by auto. unfold nn, tr.
  assert (HW : forall t, (t < pow2 (2 * half n))%N -> cfinite (tfun l t) = true -> napp (gph 0) (pad n (fun t => cabs1 (cval (into_complex (coefs l t)))) t) (eph 0) (tfun l t) (tfun l' t)).
  { intros t Ht Hft. unfold tfun, phi in *. destruct (phase_r _ _ _ (ipw_unit (popcount (N.land t idx_mask))) Hft) as [_ N1]. apply N1. clear N1.
    unfold pad. destruct (N.ltb_spec t (pow2 n)) as [Htn|Htn].
    - replace (into_complex (lc l' t)) with (cval (into_complex (lc l t))); [apply napp_self|]. unfold l', lc. cbn [into_complex CplxInto].
      rewrite (nth_indep (map _ l) _ (cval (into_complex (r0 : T)))) by (rewrite map_length, Hl; apply to_nat_lt_pow2; auto).
      exact (eq_sym (map_nth (fun c => cval (into_complex c)) l r0 (N.to_nat t))).
    - unfold lc. rewrite !nth_overflow by (rewrite ?Hl, ?Hl', <- pow2_nat; unfold pow2 in *; lia). rewrite Hi0. 
      unfold napp, cwithin. cbn [c_re c_im r0 CplxOps QcOps into_complex CplxInto]. rewrite (proj1 ro_0). replace (0 - 0) with 0 by ring. rewrite qabs0.
      repeat split; apply Qcle_refl. }
  assert (G : 0 <= gph 0) by (apply gph_pos, Qcle_refl). assert (E0 : 0 <= eph 0) by (apply eph_pos, Qcle_refl).
  destruct (cl_napp (half n) _ _ (tfun l) (tfun l') _ G E0 HW) with (i := N.of_nat i) (j := N.of_nat j) as (_ & _ & N3 & N4); try (apply of_nat_lt; auto).
  { intros a b Ha Hb. specialize (HF (N.to_nat a) (N.to_nat b) ltac:(apply to_nat_lt_pow2; auto) ltac:(apply to_nat_lt_pow2; auto)). rewrite HM in HF by (apply to_nat_lt_pow2; auto). unfold nn in HF. rewrite !N2Nat.id in HF. exact HF. }
  rewrite sum_pad in N3, N4. split; (eapply Qcle_trans; [eassumption|apply fwd_bound]).
Qed.

Lemma inv_error m (M : mat C) (B : Qc) : square_mat (2 ^ m) M ->
  (forall i j, (i < 2 ^ m)%nat -> (j < 2 ^ m)%nat -> Qcabs (val (c_re (m_at M i j))) <= B /\ Qcabs (val (c_im (m_at M i j))) <= B) ->
  exists (l : list C) (e : list CQ), iclifft M = Ok l /\ iclifft (mkMat (m_nr M) (m_nc M) (map cval (m_data M))) = Ok e /\
    length l = (2 ^ (2 * m))%nat /\ length e = (2 ^ (2 * m))%nat /\
    ((forall t, (t < 2 ^ N.of_nat (2 * m))%N -> cfinite (coefs l t) = true) ->
     forall t, (t < 2 ^ N.of_nat (2 * m))%N -> cwithin (ifft_error m B) (coefs l t) (coefs e t)).
Proof.
  intros (R1 & R2 & R3) HB.
  assert (HM : mrep m M (fun i j => m_at M (N.to_nat i) (N.to_nat j))). { repeat split; auto. intros i j Hi Hj. unfold nn. rewrite !Nat2N.id. reflexivity. }
  set (M' := mkMat (m_nr M) (m_nc M) (map cval (m_data M))).
  assert (HM' : mrep m M' (fun i j => cval (m_at M (N.to_nat i) (N.to_nat j)))).
  { repeat split; auto. { unfold m_ok, M' in *. cbn [m_data m_nr m_nc]. rewrite map_length. exact R3. }
    intros i j Hi Hj. unfold nn. rewrite !Nat2N.id. unfold m_at, M'. cbn [m_data m_nc]. 
    rewrite (nth_indep (map cval (m_data M)) _ (cval r0)) by (rewrite map_length, R3, R1, R2; nia). apply map_nth. }
  destruct (iclifft_ok m M _ HM) as (l & El & Ll & Hf). destruct (iclifft_ok m M' _ HM') as (e & Ee & Le & Hg).
  exists l, e. split; [exact El|]. split; [exact Ee|]. split; [exact Ll|]. split; [exact Le|]. intros HF t Ht.
  change (coefs l t) with (lc l t). change (coefs e t) with (lc e t). rewrite Hf, Hg by auto. unfold phi.
  assert (HP : forall t, (t < pow2 (2 * m))%N -> cfinite (rmul (icl m (fun i j => m_at M (N.to_nat i) (N.to_nat j)) t) (ipn (popcount (N.land t idx_mask)))) = true).
  { intros u Hu. specialize (HF u Hu). change (coefs l u) with (lc l u) in HF. rewrite Hf in HF by auto. exact HF. }
  assert (HB0 : 0 <= B). { destruct (HB 0%nat 0%nat) as [H1 _]; try (apply Nat.neq_0_lt_0, Nat.pow_nonzero; lia). eapply Qcle_trans; [apply Qcabs_nonneg|exact H1]. }
  destruct (phase_r _ _ _ (ipn_unit (popcount (N.land t idx_mask))) (HP t Ht)) as [_ N1].
  destruct (N1 (igain m 0) B (ieta m 0) (icl m (fun i j => cval (m_at M (N.to_nat i) (N.to_nat j))) t)) as (_ & _ & N3 & N4).
  { apply icl_near; auto; try apply Qcle_refl.
    - intros i j Hi Hj _. destruct (HB (N.to_nat i) (N.to_nat j) ltac:(apply to_nat_lt_pow2; auto) ltac:(apply to_nat_lt_pow2; auto)) as [B1 B2].
      unfold napp, cwithin, cval. cbn [c_re c_im]. split; [exact B1|]. split; [exact B2|].
      split; (match goal with |- Qcabs (?a - ?a) <= _ => replace (a - a) with 0 by ring end; rewrite qabs0, Qcmult_0_l; apply Qcle_refl).
    - intros u Hu. apply (phase_r _ _ _ (ipn_unit (popcount (N.land u idx_mask)))). apply HP. exact Hu. }
  split; (eapply Qcle_trans; [eassumption|apply inv_bound]).
Qed.
End Array.
End Tr.

#[global] Instance CplxNum {F} {RF : RingOps F} {W : NumLaws F} : NumLaws (cplx F) := cplx_num W.

Section Stores.
Context {F : Type} {RF : RingOps F} {DF : DivOps F} {V : RoundOps F} {RL : RoundLaws F} {W : NumLaws F} {md : Mode} {HO : HashOrder}.
Lemma round_trip_real sg A (D : declared sg A) (Hl : (length sg < 63)%nat) (x : store KDense F) : valid A x ->
  exists z : store KDense F, (X <- mv_fft (F := F) A (x : arr F) ;; fr_ifft A X) = Ok (z : arr F) /\ valid A z /\
  ((forall i, (i < 2 ^ N.of_nat (a_dim A))%N -> finite (rd z i) = true) ->
   forall i, (i < 2 ^ N.of_nat (a_dim A))%N ->
   Qcabs (val (rd z i) - val (rd x i)) <= round_trip_error ((nonnull sg + 1) / 2) (sumI (a_dim A) (fun j => Qcabs (val (rd x j))))).
Proof.
  intros Hx. destruct (rt_real sg A D Hl x Hx) as (z & E & Hz & H). exists z. split; [exact E|]. split; [exact Hz|]. intros HF i Hi.
  rewrite !(rd_coef (S := arr F) (a_dim A)) by auto. rewrite (sumI_ext _ _ (fun j => Qcabs (val (arr_coef x j)))) by (intros; rewrite (rd_coef (S := arr F) (a_dim A)) by auto; reflexivity).
  apply H; auto. intros k Hk. rewrite <- (HF k Hk). f_equal. symmetry. exact (rd_coef (S := store KDense F) (a_dim A) z k Hz Hk).
Qed.
Lemma round_trip_cplx sg A (D : declared sg A) (Hl : (length sg < 63)%nat) (x : store KDense (cplx F)) : valid A x ->
  exists z : store KDense (cplx F), (X <- mv_fft (F := F) A (x : arr (cplx F)) ;; fr_ifft A X) = Ok (z : arr (cplx F)) /\ valid A z /\
  ((forall i, (i < 2 ^ N.of_nat (a_dim A))%N -> cfinite (rd z i) = true) ->
   forall i, (i < 2 ^ N.of_nat (a_dim A))%N ->
   cwithin (round_trip_error ((nonnull sg + 1) / 2) (sumI (a_dim A) (fun j => cabs1 (cval (rd x j))))) (rd z i) (cval (rd x i))).
Proof.
  intros Hx. destruct (rt_cplx sg A D Hl x Hx) as (z & E & Hz & H). exists z. split; [exact E|]. split; [exact Hz|]. intros HF i Hi.
  rewrite !(rd_coef (S := arr (cplx F)) (a_dim A)) by auto. rewrite (sumI_ext _ _ (fun j => cabs1 (cval (arr_coef x j)))) by (intros; rewrite (rd_coef (S := arr (cplx F)) (a_dim A)) by auto; reflexivity).
  apply H; auto. intros k Hk. rewrite <- (HF k Hk). f_equal. symmetry. exact (rd_coef (S := store KDense (cplx F)) (a_dim A) z k Hz Hk).
Qed.
End Stores.
