(** exp in the transform domain against the exponential series. *)
From Verif Require Export P_ExpLim4 P_FScal P_Props10.
From Coq Require Import QArith Lqa Lia.
Local Open Scope Qc_scope.

Section FExp.
Context {T : Type} {RT : RingOps T} {LT : RingLaws T} {CT : CommLaws T} {IC : IntoCplx T Qc} {FC : FromCplx T Qc} {CV : ConvLaws T Qc}
  {FF : FromF T Qc} {FRM : FromLaws T Qc} {SZ : SizeLaws T} {EO : ExpOps Qc} {EL : EpsLaws Qc} {ML : MaxLaws Qc} {NF : NormF T Qc} {md : Mode} {HO : HashOrder}.
Local Notation MV := (store KDense T).
Variables (sg : list tok) (A : algebra).
Hypothesis D : declared sg A.
Hypothesis Hl : (length sg < 63)%nat.
Hypothesis Hfrom : forall q : Qc, into_complex (from_f (T := T) q) = mkC q 0.
Local Notation d := (a_dim A).
Local Notation fft x := (mv_fft (F := Qc) (T := T) A x).

Lemma fft_scale_r (x : MV) X (q : Qc) : valid A x -> fft x = Ok X -> exists y : MV, mv_scale A x (from_f q) = Ok y /\ valid A y /\ feq d (rd y) (fun i => rmul (rd x i) (from_f q)) /\ fft y = Ok (fr_scale_r X q).
Proof.
  intros Hx EX. destruct (h_scale A x (from_f q) _ Hx (feq_refl _ _)) as (y & Ey & Hy & Hy'). exists y. split; [exact Ey|]. split; [exact Hy|].
  split; [intros i Hi; unfold rd at 1; rewrite (Hy' i Hi); reflexivity|].
  destruct (c40_scale (F := Qc) sg A D Hl x (from_f q) Hx) as (z & E1 & E2). rewrite EX in E1. rewrite Ey in E2. cbn [bind] in E1, E2. rewrite E2, <- E1. f_equal. rewrite Hfrom. symmetry. exact (proj1 (t_scalars (F := Qc) X q (mkC q q))).
Qed.
Lemma fft_taylor (y : MV) Y n : valid A y -> fft y = Ok Y -> exists t : MV, taylor (F := Qc) A y n = Ok t /\ valid A t /\ taylor_fft A Y n = fft t.
Proof.
  intros Hy EY. pose proof (valid_of A y Hy) as HD. induction n as [|n (t & Et & Ht & Eft)]; cbn [taylor taylor_fft].
  - destruct (g_one A HD) as (o & Eo & Ho & _). exists o. split; [exact Eo|]. split; [exact Ho|]. destruct (c40_one (F := Qc) (T := T) sg A D Hl) as (z & E1 & E2). rewrite E1. rewrite Eo in E2. cbn [bind] in E2. symmetry. exact E2.
  - rewrite Et, Eft. cbn [bind]. destruct (g_pow A sg D y (Datatypes.S n) Hy) as (p & Ep & Hp & _). rewrite Ep. cbn [bind].
    destruct (c30_fft (F := Qc) sg A D Hl y (Datatypes.S n) Hy) as (P & E1 & E2). rewrite EY in E1. rewrite Ep in E2. cbn [bind] in E1, E2.
    destruct (fft_scale_r p P (1 / fact_f (Datatypes.S n)) Hp E2) as (q & Eq & Hq & _ & Efq). change (rdiv r1 (fact_f (F := Qc) (Datatypes.S n))) with (1 / fact_f (F := Qc) (Datatypes.S n)). rewrite Eq. cbn [bind].
    destruct (h_add A t q _ _ Ht Hq (feq_refl _ _) (feq_refl _ _)) as (z & Ez & Hz & _). exists z. split; [exact Ez|]. split; [exact Hz|].
    destruct (c40_add (F := Qc) sg A D Hl t q Ht Hq) as (Z & E3 & E4). rewrite Ez in E4. cbn [bind] in E4. rewrite E4, <- E3, Efq, E1. destruct (fft t); reflexivity.
Qed.
Lemma div_scale (X : fftrepr Qc) (c : Qc) : fr_div_r X c = fr_scale_r X (1 / c).
Proof. apply a3_map_ext. intros [u v]. unfold c_divr, c_mulr. cbn [c_re c_im rdiv rmul QcDiv QcOps]. f_equal; unfold Qcdiv; ring. Qed.
Lemma fft_exp_gives fuel (x : MV) X (c : Qc) : valid A x -> (18 < fuel)%nat -> fft x = Ok X -> exp_scale A X = Ok c ->
  exists z : MV, (E <- fr_exp A fuel X ;; fr_ifft A E) = Ok (z : arr T) /\ valid A z /\ feq d (rd z) (fpow A (tay (F := Qc) A (fun i => rmul (rd x i) (from_f (1 / c))) 18) (e_usize c)).
Proof.
  intros Hx Hf EX Ec. destruct (c38_total (F := Qc) sg A D Hl x Hx) as (X' & EX' & SX). rewrite EX in EX'. injection EX' as <-.
  destruct (fft_scale_r x X (1 / c) Hx EX) as (y & Ey & Hy & Hy' & Efy). rewrite <- div_scale in Efy.
  destruct (t_one sg A D Hl X SX) as (o & Eo & Ho & _). destruct (kept_scale sg A D Hl X c SX) as [_ SY].
  pose proof (exp_loop_fft sg A D Hl (fr_div_r X c) SY 18 0 fuel o (fr_div_r X c) eq_refl Hf Eo (pow_1 A _)) as Lp. rewrite div_one_one in Lp.
  destruct (fft_taylor y (fr_div_r X c) 18 Hy Efy) as (t & Et & Ht & Eft).
  destruct (taylor_gives sg A D y _ 18 Hy Hy') as (t' & Et' & _ & Ht'). rewrite Et in Et'. injection Et' as <-.
  destruct (h_pow A sg D t (e_usize c) _ Ht (feq_refl _ _)) as (z & Ez & Hz & Hz'). exists z. split; [|split; [exact Hz|]].
  - unfold fr_exp. rewrite Eo. cbn [bind]. rewrite Ec. cbn [bind]. rewrite Lp, Eft. destruct (c30_fft (F := Qc) sg A D Hl t (e_usize c) Ht) as (P & E1 & E2). rewrite Ez in E2. cbn [bind] in E2.
    pose proof (c38_roundtrip (F := Qc) sg A D Hl z Hz) as R. rewrite E2 in R. cbn [bind] in R. destruct (fft t) as [Tt| |]; try discriminate. cbn [bind] in *. rewrite E1. exact R.
  - intros i Hi. unfold rd at 1. rewrite (Hz' i Hi). apply fpow_ext; auto. intros j Hj. unfold rd. rewrite (Ht' j Hj). reflexivity.
Qed.
Lemma fscale_pos (X : fftrepr Qc) c : repr_shape sg X -> exp_scale A X = Ok c -> c <> r0.
Proof.
  intros SX Ec. destruct (scale_fft_ok sg A D Hl X SX) as (mg & Em). unfold exp_scale in Ec. rewrite Em in Ec. cbn [bind] in Ec. injection Ec as <-. apply f_one_le.
  destruct (fold_max_ge2 (flat_map m_data (t_mats X)) r1) as [H1 _]. set (u := fold_left _ _ _) in *.
  pose proof (f_le_trans _ _ _ (f_le_max_l u (e_sqrt (e_norm mg))) (f_le_ceil _)) as Hu. destruct H1 as [->|H1]; [exact Hu|]. eapply f_le_trans; eauto.
Qed.
Theorem c76_bound fuel (x : MV) X (c : Qc) n : valid A x -> (18 < fuel)%nat -> fft x = Ok X -> exp_scale A X = Ok c -> nat_f (e_usize c) = c -> total d (rd x) <= nat_f n * c ->
  exists z : MV, (E <- fr_exp A fuel X ;; fr_ifft A E) = Ok (z : arr T) /\ valid A z /\ forall K, (18 * e_usize c <= K)%nat ->
    total d (fun i => rsub (rd z i) (exp_sum (sq sg) d (rd x) K i)) <= exp_num K (total d (rd x)) - exp_num 18 (total d (rd x) / c) ^ e_usize c /\
    total d (fun i => rsub (rd z i) (exp_sum (sq sg) d (rd x) K i)) <= c * ((total d (rd x) / c) ^ 19 / qfact 19) * Q2Qc (3 # 1) ^ (n * e_usize c).
Proof.
  intros Hx Hf EX Ec Hs Hn. destruct (fft_exp_gives fuel x X c Hx Hf EX Ec) as (z & Ez & Hz & Hz'). exists z. split; [exact Ez|]. split; [exact Hz|]. intros K HK.
  destruct (c38_total (F := Qc) sg A D Hl x Hx) as (X' & EX' & SX). rewrite EX in EX'. injection EX' as <-.
  assert (Hc : c <> 0) by exact (fscale_pos X c SX Ec).
  assert (Hs0 : (0 < e_usize c)%nat) by (destruct (e_usize c); [exfalso; apply Hc; rewrite <- Hs; reflexivity|lia]).
  rewrite nat_natq in Hs, Hn. pose proof (scaling sg A D (rd x) 18 (e_usize c) K Hs0 HK) as B. rewrite Hs in B.
  assert (B' : total d (fun i => rsub (rd z i) (exp_sum (sq sg) d (rd x) K i)) <= exp_num K (total d (rd x)) - exp_num 18 (total d (rd x) / c) ^ e_usize c).
  { erewrite total_ext; [exact B|]. intros i Hi. cbv beta. f_equal. exact (Hz' i Hi). }
  split; [exact B'|]. eapply Qcle_trans; [exact B'|]. apply (rest_bound 18 (e_usize c) K (total d (rd x)) c n Hs0 Hs (total_pos A _) HK Hn).
Qed.
(** Both ways to compute the exponential. *)
Theorem c76_agree fuel (x : MV) X (c c' : Qc) n : valid A x -> (18 < fuel)%nat -> fft x = Ok X -> exp_scale A X = Ok c -> nat_f (e_usize c) = c -> total d (rd x) <= nat_f n * c ->
  mv_exp_scale A x = Ok c' -> nat_f (e_usize c') = c' -> total d (rd x) <= nat_f n * c' ->
  exists z y : MV, (E <- fr_exp A fuel X ;; fr_ifft A E) = Ok (z : arr T) /\ valid A z /\ mv_exp (F := Qc) A fuel x = Ok y /\ valid A y /\
    total d (fun i => rsub (rd z i) (rd y i)) <= c * ((total d (rd x) / c) ^ 19 / qfact 19) * Q2Qc (3 # 1) ^ (n * e_usize c) + c' * ((total d (rd x) / c') ^ 19 / qfact 19) * Q2Qc (3 # 1) ^ (n * e_usize c').
Proof.
  intros Hx Hf EX Ec Hs Hn Ec' Hs' Hn'. destruct (c76_bound fuel x X c n Hx Hf EX Ec Hs Hn) as (z & Ez & Hz & B). destruct (c74_bound sg A D fuel x c' n Hx Hf Ec' Hs' Hn') as (y & Ey & Hy & B').
  exists z, y. repeat (split; [assumption|]). specialize (B (18 * e_usize c + 18 * e_usize c')%nat ltac:(lia)). specialize (B' (18 * e_usize c + 18 * e_usize c')%nat ltac:(lia)). destruct B as [_ B].
  set (K := (18 * e_usize c + 18 * e_usize c')%nat) in *. rewrite total_sub_sym in B'. eapply Qcle_trans; [|apply Qcplus_le_compat; [exact B|exact B']].
  eapply Qcle_trans; [|apply total_add]. rewrite (total_ext A _ (fadd (fun i => rsub (rd z i) (exp_sum (sq sg) d (rd x) K i)) (fun i => rsub (exp_sum (sq sg) d (rd x) K i) (rd y i)))); [apply Qcle_refl|].
  intros i _. unfold fadd. abel.
Qed.
End FExp.
