(** exp(x) exp(y) against exp(x + y): multivectors. *)
From Verif Require Export P_ExpLim6.
From Coq Require Import QArith Qround Lqa Lia.
Local Open Scope Qc_scope.

Lemma archimed (q : Qc) : exists k, q <= natq k.
Proof.
  exists (Z.to_nat (Qceiling q)). unfold natq, Qcle, Q2Qc. cbn [this]. rewrite Qred_correct. eapply Qle_trans; [apply Qle_ceiling|]. rewrite <- Zle_Qle. lia.
Qed.
Lemma natq_add a b : natq (a + b) = natq a + natq b.
Proof. induction a as [|a IH]; cbn [Nat.add]; [change (natq 0) with 0; ring|]. rewrite !natq_S, IH. ring. Qed.
Lemma natq_mono a b : (a <= b)%nat -> natq a <= natq b.
Proof. induction 1 as [|b H IH]; [apply Qcle_refl|]. rewrite natq_S. eapply Qcle_trans; [exact IH|]. qn; lra. Qed.
Lemma ecf_small s n k : 0 <= s -> s <= natq n -> natq (SS k) * ecf s (SS k) <= s * Q2Qc (3 # 1) ^ n.
Proof.
  intros H0 Hn. rewrite ecf_S. apply qmul_le; auto. eapply Qcle_trans; [|apply (exp_num_3 k s n H0 Hn)]. destruct k as [|k]; [unfold ecf; cbn [exp_num Qcpower qfact]; replace (1 / 1) with 1 by (field; discriminate); apply Qcle_refl|].
  rewrite exp_num_ecf. pose proof (exp_num_pos k s H0). set (a := exp_num k s) in *. set (b := ecf s (SS k)). clearbody a b. qn; lra.
Qed.
Lemma limit s C L B K0 : 0 <= s -> 0 <= C -> (forall K, (K0 <= K)%nat -> L <= B + ecf s (SS K) * C) -> L <= B.
Proof.
  intros H0 HC H. destruct (Qclt_le_dec B L) as [Hl|]; [exfalso|auto]. destruct (archimed s) as (n & Hn). set (dl := L - B). assert (Hd : 0 < dl) by (unfold dl; clear H; qn; lra).
  set (M := s * Q2Qc (3 # 1) ^ n * C). destruct (archimed (M / dl)) as (k & Hk). set (K := (K0 + k)%nat). specialize (H K ltac:(lia)).
  assert (Hk' : M / dl <= natq K) by (eapply Qcle_trans; [exact Hk|apply natq_mono; lia]).
  assert (H1 : natq (SS K) * dl <= M).
  { apply Qcle_trans with (natq (SS K) * (ecf s (SS K) * C)); [apply qmul_le; [apply natq_pos|unfold dl; set (e := ecf s (SS K) * C) in *; clearbody e; clear - H; qn; lra]|].
    unfold M. replace (natq (SS K) * (ecf s (SS K) * C)) with (natq (SS K) * ecf s (SS K) * C) by ring. apply Qcmult_le_compat_r; auto. apply ecf_small; auto. }
  assert (H2 : M <= natq K * dl).
  { replace M with (M / dl * dl) by (field; intros E; rewrite E in Hd; revert Hd; apply Qcle_not_lt, Qcle_refl). apply Qcmult_le_compat_r; [exact Hk'|apply Qclt_le_weak; exact Hd]. }
  rewrite natq_S in H1. replace ((natq K + 1) * dl) with (natq K * dl + dl) in H1 by ring. set (y := natq K * dl) in *. clearbody y M dl. clear - H1 H2 Hd. qn; lra.
Qed.
(** The square of partial sums lies below the partial sum of twice the length. *)
Lemma conv_tri_le u w K : (forall j, 0 <= u j) -> (forall j, 0 <= w j) -> forall m, qsumto u m * qsumto w K <= qtri u w (m + K).
Proof.
  intros Hu Hw m. revert u Hu. 
  assert (Hq : forall j k, qsumto w j <= qsumto w (k + j)).
  { intros j k. induction k as [|k IH]; [apply Qcle_refl|]. cbn [Nat.add qsumto]. specialize (Hw (SS (k + j))). set (a := qsumto w (k + j)) in *. set (b := w (SS (k + j))) in *. clearbody a b. qn; lra. }
  assert (Hp : forall m u, (forall j, 0 <= u j) -> u O * qsumto w m <= qtri u w m).
  { intros [|k] u Hu; cbn [qtri]; [apply Qcle_refl|]. assert (P : 0 <= qtri (fun j => u (SS j)) w k).
    { assert (Hs : forall n, 0 <= qsumto w n) by (intros n; induction n as [|n IH]; cbn [qsumto]; [apply Hw|]; specialize (Hw (SS n)); set (a := qsumto w n) in *; set (b := w (SS n)) in *; clearbody a b; qn; lra).
      assert (G : forall n v, (forall j, 0 <= v j) -> 0 <= qtri v w n); [|apply G; auto]. clear k. intros n. induction n as [|k IH]; intros v Hv; cbn [qtri]; [apply qmul_pos; auto|]. apply Qcle_trans with (0 + 0); [discriminate|]. apply Qcplus_le_compat; [apply qmul_pos; auto|apply IH; intros; apply Hv]. }
    set (a := u O * qsumto w (SS k)). set (b := qtri _ _ _) in *. clearbody a b. qn; lra. }
  induction m as [|m IH]; intros u Hu; [cbn [Nat.add qsumto]; apply Hp; auto|]. rewrite qsumto_shift. cbn [Nat.add qtri]. rewrite Qcmult_plus_distr_l. apply Qcplus_le_compat; [apply qmul_le; auto; apply (Hq K (SS m))|]. apply (IH (fun j => u (SS j))). auto.
Qed.
Lemma exp_mul_le K p q : 0 <= p -> 0 <= q -> exp_num K p * exp_num K q <= exp_num (K + K) (p + q).
Proof. intros Hp Hq. rewrite <- qtri_exp, <- !qsum_exp. apply conv_tri_le; intros j; apply ecf_pos; auto. Qed.
Lemma exp_mul_tail K p q n : 0 <= p -> 0 <= q -> p + q <= natq n -> exp_num K p * exp_num K q - exp_num K (p + q) <= ecf (p + q) (SS K) * Q2Qc (3 # 1) ^ n.
Proof.
  intros Hp Hq Hn. assert (H : 0 <= p + q) by (qn; lra). pose proof (exp_mul_le K p q Hp Hq) as H1. pose proof (tail_le (p + q) K (K + K) H ltac:(lia)) as H2.
  assert (H3 : ecf (p + q) (SS K) * exp_num (K + K) (p + q) <= ecf (p + q) (SS K) * Q2Qc (3 # 1) ^ n) by (apply qmul_le; [apply ecf_pos; auto|apply exp_num_3; auto]).
  set (a := exp_num K p * exp_num K q) in *. set (b := exp_num K (p + q)) in *. set (c := exp_num (K + K) (p + q)) in *. set (e := ecf (p + q) (SS K)) in *. set (f := e * c) in *. set (g := e * Q2Qc (3 # 1) ^ n) in *. clearbody a b c f g. clear - H1 H2 H3. qn; lra.
Qed.

Section Exp.
Context {T : Type} {RO : RingOps T} {L : RingLaws T} {CT : CommLaws T} {FF : FromF T Qc} {FRM : FromLaws T Qc} {SZ : SizeLaws T}.
Context {EO : ExpOps Qc} {EL : EpsLaws Qc} {ML : MaxLaws Qc} {NF : NormF T Qc} {m : Mode}.
Context {S : Type} {St : Storage T S} {SL : StorageLaws T S}.
Variables (sg : list tok) (A : algebra).
Hypothesis D : declared sg A.
Local Notation d := (a_dim A).
Local Notation gpA := (gp d (a_imag A) (a_proj A)).
Implicit Types x y : S.
(** What exp gives: near the partial sums, and no larger than the same procedure on numbers. *)
Lemma exp_near fuel x (c : Qc) : valid A x -> (18 < fuel)%nat -> mv_exp_scale A x = Ok c -> nat_f (e_usize c) = c ->
  exists z g, mv_exp (F := Qc) A fuel x = Ok z /\ valid A z /\ total d (rd z) <= g /\ (0 < e_usize c)%nat /\
  forall K, (18 * e_usize c <= K)%nat -> total d (fsub (rd z) (tay (F := Qc) A (rd x) K)) <= exp_num K (total d (rd x)) - g /\
    forall n, total d (rd x) <= nat_f n * c -> exp_num K (total d (rd x)) - g <= c * ((total d (rd x) / c) ^ 19 / qfact 19) * Q2Qc (3 # 1) ^ (n * e_usize c).
Proof.
  intros Hx Hf Ec Hs. destruct (exp_gives sg A D fuel x c Hx Hf Ec) as (z & Ez & Hz & Hz'). exists z, (exp_num 18 (total d (rd x) / c) ^ e_usize c). split; [exact Ez|]. split; [exact Hz|].
  assert (Hc : c <> 0) by (change (c <> r0); apply f_one_le; destruct (exp_scale_bound A x _ Hx (v_mag2 A sg D x Hx)) as (c' & Ec' & H1 & _); rewrite Ec in Ec'; injection Ec' as <-; exact H1).
  assert (Hs0 : (0 < e_usize c)%nat) by (destruct (e_usize c); [exfalso; apply Hc; rewrite <- Hs; reflexivity|lia]).
  rewrite nat_natq in Hs. split; [|split; [exact Hs0|]].
  - set (a := 1 / c). set (h := fun i => rmul (rd x i) (from_f a)). rewrite (total_ext A _ (evp A (ppow (psc a (Ex 18)) (e_usize c)) (rd x))).
    + eapply Qcle_trans; [apply total_ev|].
      * intros k. apply (pow_Ex_le a 18 (e_usize c)). unfold a. rewrite <- Hs. unfold Qcdiv. rewrite Qcmult_1_l. apply qinv_pos. destruct (e_usize c) as [|s']; [lia|]. rewrite natq_S. pose proof (natq_pos s'). qn; lra.
      * rewrite evq_pow, evq_sc, evq_Ex. unfold a. replace (1 / c * total d (rd x)) with (total d (rd x) / c) by (field; auto). apply Qcle_refl.
    + intros i Hi. unfold rd at 1. rewrite (Hz' i Hi). symmetry. rewrite (evp_pow A _ _ _ i Hi). apply fpow_ext; auto. eapply feq_trans; [apply evp_sc|apply evp_Ex].
  - intros K HK. split.
    + pose proof (scaling sg A D (rd x) 18 (e_usize c) K Hs0 HK) as B. rewrite Hs in B. erewrite total_ext; [exact B|]. intros i Hi. cbv beta. unfold fsub. f_equal; [unfold rd at 1; rewrite (Hz' i Hi); reflexivity|].
      rewrite (sum_spec sg A D _ K i Hi). symmetry. apply evp_Ex; auto.
    + intros n Hn. rewrite nat_natq in Hn. apply (rest_bound 18 (e_usize c) K (total d (rd x)) c n Hs0 Hs (total_pos A _) HK Hn).
Qed.
Theorem c77 fuel x y s (c1 c2 c3 : Qc) n k : valid A x -> valid A y -> agree A (mv_mul A x y) (mv_mul A y x) -> (18 < fuel)%nat -> mv_add x y = Ok s ->
  mv_exp_scale A x = Ok c1 -> nat_f (e_usize c1) = c1 -> mv_exp_scale A y = Ok c2 -> nat_f (e_usize c2) = c2 -> mv_exp_scale A s = Ok c3 -> nat_f (e_usize c3) = c3 ->
  total d (rd x) <= nat_f n * c1 -> total d (rd y) <= nat_f n * c2 -> total d (rd s) <= nat_f n * c3 -> total d (rd x) <= nat_f k -> total d (rd y) <= nat_f k ->
  exists p w, (a <- mv_exp (F := Qc) A fuel x ;; b <- mv_exp (F := Qc) A fuel y ;; mv_mul A a b) = Ok p /\ valid A p /\ mv_exp (F := Qc) A fuel s = Ok w /\ valid A w /\
  let b c r := c * ((r / c) ^ 19 / qfact 19) * Q2Qc (3 # 1) ^ (n * e_usize c) in
  total d (fun i => rsub (rd p i) (rd w i)) <= (b c1 (total d (rd x)) + b c2 (total d (rd y))) * Q2Qc (3 # 1) ^ k + b c3 (total d (rd s)).
Proof.
  intros Hx Hy Hc Hf Es E1 U1 E2 U2 E3 U3 N1 N2 N3 B1 B2. destruct (h_add A x y _ _ Hx Hy (feq_refl _ _) (feq_refl _ _)) as (s' & Es' & Hs & Hs'). rewrite Es in Es'. injection Es' as <-.
  assert (Fs : feq d (rd s) (fadd (rd x) (rd y))) by (intros i Hi; unfold rd at 1; rewrite (Hs' i Hi); reflexivity).
  assert (C : feq d (gpA (rd x) (rd y)) (gpA (rd y) (rd x))).
  { destruct (h_mul A sg D x y _ _ Hx Hy (feq_refl _ _) (feq_refl _ _)) as (u & Eu & Hu & Hu'). destruct (h_mul A sg D y x _ _ Hy Hx (feq_refl _ _) (feq_refl _ _)) as (v & Ev & Hv & Hv').
    destruct Hc as (z1 & z2 & F1 & F2 & V1 & V2 & Hq). rewrite Eu in F1. rewrite Ev in F2. injection F1 as <-. injection F2 as <-. destruct Hq as [_ Hq]. intros i Hi. specialize (Hq i Hi). unfold rd in Hq at 1 2. rewrite (Hu' i Hi), (Hv' i Hi) in Hq. exact Hq. }
  destruct (exp_near fuel x c1 Hx Hf E1 U1) as (a & g1 & Ea & Ha & G1 & P1 & X1). destruct (exp_near fuel y c2 Hy Hf E2 U2) as (b & g2 & Eb & Hb & G2 & P2 & X2).
  destruct (exp_near fuel s c3 Hs Hf E3 U3) as (w & g3 & Ew & Hw & G3 & P3 & X3). destruct (h_mul A sg D a b _ _ Ha Hb (feq_refl _ _) (feq_refl _ _)) as (p & Ep & Hp & Hp').
  exists p, w. split; [rewrite Ea; cbn [bind]; rewrite Eb; exact Ep|]. split; [exact Hp|]. split; [exact Ew|]. split; [exact Hw|]. intros bd.
  set (P := total d (rd x)) in *. set (Q := total d (rd y)) in *. set (R := total d (rd s)) in *. rewrite nat_natq in B1, B2.
  assert (HP : 0 <= P) by apply total_pos. assert (HQ : 0 <= Q) by apply total_pos.
  refine (limit (P + Q) (Q2Qc (3 # 1) ^ (k + k)) _ _ (18 * e_usize c1 + 18 * e_usize c2 + 18 * e_usize c3)%nat _ _ _); [clear - HP HQ; clearbody P Q; qn; lra|apply qpow_pos; discriminate|].
  intros K HK. destruct (X1 K ltac:(lia)) as [Y1 Z1]. destruct (X2 K ltac:(lia)) as [Y2 Z2]. destruct (X3 K ltac:(lia)) as [Y3 Z3]. specialize (Z1 n N1). specialize (Z2 n N2). specialize (Z3 n N3). fold (bd c1 P) in Z1. fold (bd c2 Q) in Z2. fold (bd c3 R) in Z3.
  set (F := tay (F := Qc) A (rd x) K) in *. set (G := tay (F := Qc) A (rd y) K) in *. set (H := tay (F := Qc) A (rd s) K) in *.
  assert (TF : forall f, total d (tay (F := Qc) A f K) <= exp_num K (total d f)).
  { intros f. rewrite <- evq_Ex. eapply Qcle_trans; [|apply (total_ev A f (Ex K))]; [rewrite (total_ext A _ _ (feq_sym _ _ _ (evp_Ex A f K))); apply Qcle_refl|]. intros j. pose proof (sc_Ex_le 1 K j ltac:(discriminate)) as [I _]. rewrite cf_sc, one_pow, Qcmult_1_l in I. exact I. }
  assert (G1' : g1 <= exp_num K P) by (pose proof (total_pos A (fsub (rd a) F)) as I; pose proof (Qcle_trans _ _ _ I Y1) as J; clear - J; set (u := exp_num K P) in *; clearbody u; qn; lra).
  assert (G2' : g2 <= exp_num K Q) by (pose proof (total_pos A (fsub (rd b) G)) as I; pose proof (Qcle_trans _ _ _ I Y2) as J; clear - J; set (u := exp_num K Q) in *; clearbody u; qn; lra).
  pose proof (prod_near A (rd a) (rd b) F G g1 g2 _ _ G1 (TF (rd y)) G1' G2' Y1 Y2) as W1.
  pose proof (sums_mul A (rd x) (rd y) K C) as W2. fold F G P Q in W2.
  assert (W2' : total d (fsub (gpA F G) H) <= ecf (P + Q) (SS K) * Q2Qc (3 # 1) ^ (k + k)).
  { rewrite (total_ext A _ (fsub (gpA F G) (tay (F := Qc) A (fadd (rd x) (rd y)) K))).
    - eapply Qcle_trans; [exact W2|]. apply exp_mul_tail; auto. rewrite natq_add. apply Qcplus_le_compat; auto.
    - intros i Hi. unfold fsub. f_equal. apply tay_ext; auto. }
  assert (W3 : exp_num K P * exp_num K Q - g1 * g2 <= (bd c1 P + bd c2 Q) * Q2Qc (3 # 1) ^ k).
  { replace (_ - _) with ((exp_num K P - g1) * exp_num K Q + g1 * (exp_num K Q - g2)) by ring. rewrite Qcmult_plus_distr_l.
    assert (M1 : exp_num K P <= Q2Qc (3 # 1) ^ k) by (apply exp_num_3; auto). assert (M2 : exp_num K Q <= Q2Qc (3 # 1) ^ k) by (apply exp_num_3; auto).
    pose proof (exp_num_pos K Q HQ) as I1. pose proof (total_pos A (rd a)) as I2.
    apply Qcplus_le_compat; [apply qmul_le2; auto|rewrite Qcmult_comm; apply qmul_le2; auto].
    - clear - G1'. set (u := exp_num K P) in *. clearbody u. qn; lra.
    - clear - I1. set (u := exp_num K Q) in *. clearbody u. qn; lra.
    - clear - G2'. set (u := exp_num K Q) in *. clearbody u. qn; lra.
    - eapply Qcle_trans; [exact I2|exact G1].
    - eapply Qcle_trans; [exact G1'|exact M1]. }
  rewrite (total_ext A _ (fadd (fsub (gpA (rd a) (rd b)) (gpA F G)) (fadd (fsub (gpA F G) H) (fsub H (rd w))))).
  2:{ intros i Hi. unfold fadd, fsub. assert (E : rd p i = gpA (rd a) (rd b) i) by (unfold rd at 1; rewrite (Hp' i Hi); reflexivity). rewrite E. abel. }
  eapply Qcle_trans; [apply total_add|]. assert (Y3' : total d (fsub H (rd w)) <= bd c3 R) by (unfold fsub; rewrite total_sub_sym; eapply Qcle_trans; [exact Y3|exact Z3]).
  pose proof (total_add A (fsub (gpA F G) H) (fsub H (rd w))) as V. set (e := ecf (P + Q) (SS K) * Q2Qc (3 # 1) ^ (k + k)) in *. set (v := (bd c1 P + bd c2 Q) * Q2Qc (3 # 1) ^ k) in *. set (b3 := bd c3 R) in *.
  set (t1 := total d (fsub (gpA (rd a) (rd b)) (gpA F G))) in *. set (t2 := total d (fadd _ _)) in *. set (t3 := total d (fsub (gpA F G) H)) in *. set (t4 := total d (fsub H (rd w))) in *. fold Q in W1. set (q := exp_num K P * exp_num K Q - g1 * g2) in *.
  clearbody e v b3 t1 t2 t3 t4 q. clear - W1 W2' W3 V Y3'. qn; lra.
Qed.
End Exp.
