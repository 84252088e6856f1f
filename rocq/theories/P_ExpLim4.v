(** exp(x) exp(-x) against 1. *)
From Verif Require Export P_ExpLim3 P_ExpSym.
From Coq Require Import QArith Lqa Lia.
Local Open Scope Qc_scope.

Lemma conv_abs k : forall u w, Qcabs (conv u w k) <= conv (fun j => Qcabs (u j)) (fun j => Qcabs (w j)) k.
Proof.
  induction k as [|k IH]; intros u w; cbn [conv]; [rewrite Qcabs_Qcmult; apply Qcle_refl|]. eapply Qcle_trans; [apply Qcabs_triangle|]. rewrite Qcabs_Qcmult. apply Qcplus_le_compat; [apply Qcle_refl|].
  apply (IH (fun j => u (Datatypes.S j)) w).
Qed.
Lemma conv_ext_le k : forall u u' w w', (forall j, (j <= k)%nat -> u j = u' j) -> (forall j, (j <= k)%nat -> w j = w' j) -> conv u w k = conv u' w' k.
Proof.
  induction k as [|k IH]; intros u u' w w' E E'; cbn [conv]; rewrite E, E' by lia; [reflexivity|]. f_equal. apply IH; intros j Hj; [apply E|apply E']; lia.
Qed.
Lemma one_pow k : 1 ^ k = 1.
Proof. induction k as [|k IH]; [reflexivity|]. cbn [Qcpower]. rewrite IH. ring. Qed.
Lemma zero_pow k : 0 ^ Datatypes.S k = 0.
Proof. cbn [Qcpower]. ring. Qed.
Lemma m1_pow k : Qcabs ((- (1)) ^ k) = 1.
Proof. induction k as [|k IH]; [apply Qcabs_pos; discriminate|]. cbn [Qcpower]. rewrite Qcabs_Qcmult, IH, Qcabs_opp, Qcmult_1_r. apply Qcabs_pos. discriminate. Qed.
(** T(y) T(-y) - 1 for the Taylor polynomial T of degree n. *)
Definition twist (n : nat) : list Qc := padd (pmul (Ex n) (psc (- (1)) (Ex n))) (- (1) :: nil).
Definition twist_bound (n : nat) : list Qc := psc (1 + 1) (padd (Ex (n + n)) (cmul (- (1)) (Ex n))).
Lemma cf_m1 k : cf (- (1) :: nil) (Datatypes.S k) = 0.
Proof. apply cf_out. cbn [length]. lia. Qed.
Lemma twist_le n k : Qcabs (cf (twist n) k) <= cf (twist_bound n) k.
Proof.
  unfold twist, twist_bound. rewrite cf_add, cf_mul, cf_sc, cf_add, cf_cmul.
  destruct (Nat.le_gt_cases k n) as [H|H].
  - rewrite !cf_Ex by lia. replace (1 / qfact k + - (1) * (1 / qfact k)) with 0 by ring. rewrite Qcmult_0_r.
    assert (E : conv (cf (Ex n)) (cf (psc (- (1)) (Ex n))) k = ecf 0 k).
    { replace 0 with (1 + - (1)) by ring. rewrite <- ecf_conv. apply conv_ext_le; intros j Hj; [|rewrite cf_sc]; rewrite cf_Ex by lia; unfold ecf, Qcdiv; [rewrite one_pow|]; ring. }
    rewrite E. destruct k as [|k]; [discriminate|]. rewrite cf_m1. unfold ecf. rewrite zero_pow. unfold Qcdiv. rewrite Qcmult_0_l, Qcplus_0_l, qabs0. apply Qcle_refl.
  - destruct k as [|k]; [lia|]. rewrite cf_m1, Qcplus_0_r, (cf_out (Ex n)) by (rewrite len_Ex; lia). rewrite Qcmult_0_r, Qcplus_0_r.
    destruct (Nat.le_gt_cases (Datatypes.S k) (n + n)) as [H2|H2].
    + rewrite cf_Ex by lia. replace ((1 + 1) ^ Datatypes.S k * (1 / qfact (Datatypes.S k))) with (ecf (1 + 1) (Datatypes.S k)) by (unfold ecf, Qcdiv; ring).
      rewrite <- ecf_conv. eapply Qcle_trans; [apply conv_abs|]. apply conv_mono; intros j; (split; [apply Qcabs_nonneg|]).
      * pose proof (sc_Ex_le 1 n j ltac:(discriminate)) as [A1 A2]. rewrite cf_sc, one_pow, Qcmult_1_l in A1, A2. rewrite Qcabs_pos; auto.
      * rewrite cf_sc, Qcabs_Qcmult, m1_pow, Qcmult_1_l. pose proof (sc_Ex_le 1 n j ltac:(discriminate)) as [A1 A2]. rewrite cf_sc, one_pow, Qcmult_1_l in A1, A2. rewrite Qcabs_pos; auto.
    + rewrite (cf_out (Ex (n + n))) by (rewrite len_Ex; lia). rewrite Qcmult_0_r, <- cf_mul, cf_out; [rewrite qabs0; apply Qcle_refl|].
      pose proof (len_mul1 (Ex n) (psc (- (1)) (Ex n))) as Hl. rewrite len_sc, len_Ex in Hl. lia.
Qed.
Lemma evq_twist n r : evq (twist_bound n) r = exp_num (n + n) ((1 + 1) * r) - exp_num n ((1 + 1) * r).
Proof. unfold twist_bound. rewrite evq_sc, evq_add, evq_cmul, !evq_Ex. ring. Qed.

Lemma tail_mono n j s s' : 0 <= s -> s <= s' -> 0 <= exp_num (j + n) s - exp_num n s /\ exp_num (j + n) s - exp_num n s <= exp_num (j + n) s' - exp_num n s'.
Proof.
  intros H0 H. induction j as [|j [I1 I2]].
  - change (0 + n)%nat with n. replace (exp_num n s - exp_num n s) with 0 by ring. replace (exp_num n s' - exp_num n s') with 0 by ring. split; apply Qcle_refl.
  - change (Datatypes.S j + n)%nat with (Datatypes.S (j + n)). rewrite !exp_num_ecf. pose proof (ecf_pos s (Datatypes.S (j + n)) H0) as P1.
    assert (P2 : ecf s (Datatypes.S (j + n)) <= ecf s' (Datatypes.S (j + n))) by (unfold ecf, Qcdiv; apply Qcmult_le_compat_r; [apply qpow_mono; auto|apply qinv_pos, qfact_pos]).
    set (X := ecf s _) in *. set (X' := ecf s' _) in *. set (Y := exp_num (j + n) s) in *. set (Y' := exp_num (j + n) s') in *. set (Z := exp_num n s) in *. set (Z' := exp_num n s') in *. clearbody X X' Y Y' Z Z'. split; qn; lra.
Qed.

Section Poly.
Context {T : Type} {RO : RingOps T} {L : RingLaws T} {CT : CommLaws T} {FF : FromF T Qc} {FRM : FromLaws T Qc} {SZ : SizeLaws T}.
Variables (sg : list tok) (A : algebra).
Hypothesis D : declared sg A.
Local Notation d := (a_dim A).
Local Notation gpA := (gp d (a_imag A) (a_proj A)).
Lemma total_ev_abs f l m : (forall k, Qcabs (cf l k) <= cf m k) -> total d (evp A l f : N -> T) <= evq m (total d f).
Proof.
  intros H. apply Qcle_trans with (evq (map Qcabs l) (total d f)).
  - clear H. induction l as [|c l IH]; cbn [evp evq map].
    + unfold total. rewrite sumI_0; [apply Qcle_refl|]. intros. apply size_0.
    + eapply Qcle_trans; [apply total_add|]. apply Qcplus_le_compat; [rewrite total_dq; apply Qcle_refl|]. eapply Qcle_trans; [apply total_mul|]. apply qmul_le; [apply total_pos|exact IH].
  - apply evq_mono; [apply total_pos|]. intros k. assert (E : cf (map Qcabs l) k = Qcabs (cf l k)) by (unfold cf; rewrite <- (map_nth Qcabs), qabs0; reflexivity). rewrite E. split; [apply Qcabs_nonneg|apply H].
Qed.
Lemma from_m1 : from_f (T := T) (- (1)) = rneg r1.
Proof.
  assert (Z : radd (from_f (T := T) (- (1))) (from_f 1) = r0) by (rewrite <- from_add; change (radd (- (1)) 1) with (- (1) + 1); replace (- (1) + 1) with 0 by ring; apply from0).
  change (from_f 1) with (from_f (T := T) (r1 : Qc)) in Z. rewrite from_one in Z. rewrite <- (add_0_r (from_f (- (1)))), <- (add_neg_r r1), add_assoc, Z. apply add_0_l.
Qed.
Local Notation one := (del 0%N (r1 : T)).
Lemma twist_total f n : total d (fun i => rsub (gpA (tay (F := Qc) A f n) (tay (F := Qc) A (fneg f) n) i) (one i)) <= exp_num (n + n) ((1 + 1) * total d f) - exp_num n ((1 + 1) * total d f).
Proof.
  rewrite <- evq_twist. eapply Qcle_trans; [|apply (total_ev_abs f (twist n) (twist_bound n)), twist_le]. rewrite (total_ext A _ (evp A (twist n) f)); [apply Qcle_refl|].
  intros i Hi. unfold twist. rewrite (evp_add A f _ _ i Hi). unfold fadd. rewrite (evp_mul A f _ _ i Hi). rewrite sub_def. f_equal.
  - apply gp_ext; auto; [apply feq_sym, evp_Ex|]. eapply feq_trans; [|apply feq_sym, evp_sc]. eapply feq_trans; [apply feq_sym, evp_Ex|].
    intros j Hj. rewrite !(evp_Ex A _ n j Hj). apply tay_ext; auto. intros i' _. unfold fneg. rewrite from_m1, mul_neg_r, mul_1_r. reflexivity.
  - cbn [evp]. unfold fadd, dq. rewrite gp_0_r, add_0_r, from_m1. unfold del. destruct (i =? 0)%N; [reflexivity|apply neg_0].
Qed.
Lemma total_one : total d one = 1.
Proof.
  assert (E : from_f (T := T) 1 = r1) by (change (from_f (T := T) (r1 : Qc) = r1); apply from_one). transitivity (total d (dq 1 : N -> T)); [unfold dq; rewrite E; reflexivity|]. rewrite total_dq. apply Qcabs_pos. discriminate.
Qed.
Lemma near_one_pow (u : N -> T) e n : total d (fun i => rsub (u i) (one i)) <= e -> total d (fun i => rsub (fpow A u n i) (one i)) <= (1 + e) ^ n - 1.
Proof.
  intros H. assert (He : 0 <= e) by (eapply Qcle_trans; [apply (total_pos A)|exact H]).
  assert (Hu : total d u <= 1 + e).
  { rewrite (total_ext A u (fadd one (fun i => rsub (u i) (one i)))). 2:{ intros i _. unfold fadd. rewrite sub_def, (add_comm (u i)), add_assoc, add_neg_r. symmetry. apply add_0_l. }
    eapply Qcle_trans; [apply total_add|]. rewrite total_one. apply Qcplus_le_compat; [apply Qcle_refl|exact H]. }
  induction n as [|n IH]; cbn [fpow Qcpower].
  - unfold total. rewrite sumI_0; [discriminate|]. intros i _. rewrite sub_def, add_neg_r. apply size_0.
  - rewrite (total_ext A _ (fadd (gpA (fun i => rsub (fpow A u n i) (one i)) u) (fun i => rsub (u i) (one i)))).
    2:{ intros i Hi. unfold fadd. change (fun i0 => rsub (fpow A u n i0) (one i0)) with (fsub (fpow A u n) one). rewrite gp_sub_l, gp_1_l. abel. }
    eapply Qcle_trans; [apply total_add|]. eapply Qcle_trans; [apply Qcplus_le_compat; [apply total_mul|exact H]|].
    assert (B : total d (fun i => rsub (fpow A u n i) (one i)) * total d u <= ((1 + e) ^ n - 1) * (1 + e)) by (apply qmul_le2; auto; apply total_pos).
    eapply Qcle_trans; [apply Qcplus_le_compat; [exact B|apply Qcle_refl]|]. replace (((1 + e) ^ n - 1) * (1 + e) + e) with ((1 + e) * (1 + e) ^ n - 1) by ring. apply Qcle_refl.
Qed.
Lemma pow_prod (u v : N -> T) n : feq d (gpA u v) (gpA v u) -> feq d (gpA (fpow A u n) (fpow A v n)) (fpow A (gpA u v) n).
Proof.
  intros C. induction n as [|n IH]; cbn [fpow]; intros i Hi; [apply gp_1_l|].
  assert (C2 : feq d (gpA u (fpow A v n)) (gpA (fpow A v n) u)) by (apply comm_pow; auto).
  transitivity (gpA (fpow A u n) (gpA (gpA u (fpow A v n)) v) i).
  { rewrite gp_assoc by auto. apply gp_ext; auto using feq_refl. intros j Hj. symmetry. apply gp_assoc; auto. }
  transitivity (gpA (fpow A u n) (gpA (gpA (fpow A v n) u) v) i).
  { apply gp_ext; auto using feq_refl. apply gp_feq; auto using feq_refl. }
  transitivity (gpA (gpA (fpow A u n) (fpow A v n)) (gpA u v) i).
  { rewrite (gp_assoc _ _ _ (fpow A u n)) by auto. apply gp_ext; auto using feq_refl. intros j Hj. apply gp_assoc; auto. }
  apply gp_ext; auto using feq_refl.
Qed.
Lemma comm_tay2 (h g : N -> T) n : feq d (gpA h g) (gpA g h) -> feq d (gpA h (tay (F := Qc) A g n)) (gpA (tay (F := Qc) A g n) h).
Proof.
  intros E. induction n as [|n IH]; intros i Hi; cbn [tay]; [rewrite gp_1_l, gp_1_r by auto; reflexivity|].
  rewrite gp_add_l, gp_add_r. f_equal; auto. rewrite gp_scale_r, gp_smul_l by auto. f_equal. apply (comm_pow A _ _ (Datatypes.S n) E i Hi).
Qed.
Lemma total_scale (f : N -> T) q : total d (fun i => rmul (f i) (from_f q)) <= total d f * Qcabs q.
Proof. unfold total. change Qcmult with (@rmul Qc QcOps). rewrite sumI_mul_r. apply qI_le. intros i _. rewrite <- (size_from (T := T)). apply size_mul. Qed.
End Poly.

Section Exp.
Context {T : Type} {RO : RingOps T} {L : RingLaws T} {CT : CommLaws T} {FF : FromF T Qc} {FRM : FromLaws T Qc} {SZ : SizeLaws T}.
Context {EO : ExpOps Qc} {EL : EpsLaws Qc} {NF : NormF T Qc} {MS : MaxSym T Qc} {m : Mode}.
Context {S : Type} {St : Storage T S} {SL : StorageLaws T S}.
Variables (sg : list tok) (A : algebra).
Hypothesis D : declared sg A.
Local Notation d := (a_dim A).
Local Notation gpA := (gp d (a_imag A) (a_proj A)).
Implicit Types x y : S.
Lemma fexp_inverse (f : N -> T) : let r := total d f * Qcabs (1 / fscale A f) in
  total d (fun i => rsub (gpA (fexp (F := Qc) A f) (fexp (F := Qc) A (fneg f)) i) (del 0%N r1 i)) <=
  (1 + (exp_num (18 + 18) ((1 + 1) * r) - exp_num 18 ((1 + 1) * r))) ^ e_usize (fscale A f) - 1.
Proof.
  intros r. set (c := fscale A f) in *. set (g := fun i => rmul (f i) (from_f (1 / c))).
  assert (Ec : fscale (F := Qc) A (fneg f) = c) by (apply (fscale_sg A (fun _ => true) f)).
  assert (Eg : feq d (fexp (F := Qc) A (fneg f)) (fpow A (tay (F := Qc) A (fneg g) 18) (e_usize c))).
  { unfold fexp. rewrite Ec. apply fpow_ext, tay_ext. intros i _. unfold fneg, g. rewrite mul_neg_l. reflexivity. }
  rewrite (total_ext A _ (fun i => rsub (fpow A (gpA (tay (F := Qc) A g 18) (tay (F := Qc) A (fneg g) 18)) (e_usize c) i) (del 0%N r1 i))).
  - eapply Qcle_trans; [apply near_one_pow, twist_total|]. 
    assert (Hg : total d g <= r) by apply total_scale. assert (H0 : 0 <= total d g) by apply total_pos.
    apply Qcplus_le_compat; [|apply Qcle_refl]. 
    assert (H2 : (1 + 1) * total d g <= (1 + 1) * r) by (apply qmul_le; auto; discriminate). assert (H3 : 0 <= (1 + 1) * total d g) by (apply qmul_pos; auto; discriminate).
    destruct (tail_mono 18 18 _ _ H3 H2) as [T1 T2]. apply qpow_mono; [|apply Qcplus_le_compat; [apply Qcle_refl|exact T2]].
    apply Qcle_trans with (0 + 0); [discriminate|]. apply Qcplus_le_compat; [discriminate|exact T1].
  - intros i Hi. f_equal. rewrite <- (pow_prod A); auto; [apply gp_ext; auto; apply feq_refl|].
    apply comm_tay2. apply feq_sym, comm_tay2. intros j Hj. rewrite gp_neg_l, gp_neg_r. reflexivity.
Qed.
Theorem c75_inverse fuel x : valid A x -> (18 < fuel)%nat ->
  exists c p, mv_exp_scale (F := Qc) A x = Ok c /\
  (z <- mv_exp (F := Qc) A fuel x ;; y <- mv_neg A x ;; w <- mv_exp (F := Qc) A fuel y ;; mv_mul A z w) = Ok p /\ valid A p /\
  let r := (1 + 1) * (total d (rd x) * Qcabs (1 / c)) in
  total d (fun i => rsub (rd p i) (single 0%N r1 i)) <= (1 + (exp_num 36 r - exp_num 18 r)) ^ e_usize c - 1.
Proof.
  intros Hx Hf. assert (G : gives A (z <- mv_exp (F := Qc) A fuel x ;; y <- mv_neg A x ;; w <- mv_exp (F := Qc) A fuel y ;; mv_mul A z w) (gpA (fexp (F := Qc) A (rd x)) (fexp (F := Qc) A (fneg (rd x))))).
  { eapply gives_bind; [apply (h_exp sg A D fuel x _ Hx (feq_refl _ _) Hf)|]. intros z Hz Hz'. eapply gives_bind; [apply (h_neg A sg D x _ Hx (feq_refl _ _))|]. intros y Hy Hy'.
    eapply gives_bind; [apply (h_exp sg A D fuel y _ Hy Hy' Hf)|]. intros w Hw Hw'. apply (h_mul A sg D _ _ _ _ Hz Hw Hz' Hw'). }
  destruct G as (p & Ep & Hp & Hp'). exists (fscale A (rd x)), p. split; [apply (exp_scale_eq sg A D x _ Hx (feq_refl _ _))|]. split; [exact Ep|]. split; [exact Hp|].
  intros r. pose proof (fexp_inverse (rd x)) as B. cbv zeta in B. erewrite total_ext; [exact B|]. intros i Hi. cbv beta. f_equal. unfold rd at 1. rewrite (Hp' i Hi). reflexivity.
Qed.
Theorem c75_rotor fuel x : valid A x -> (18 < fuel)%nat -> agree A (mv_rev A x) (mv_neg A x) ->
  exists c p, mv_exp_scale (F := Qc) A x = Ok c /\
  (z <- mv_exp (F := Qc) A fuel x ;; w <- mv_rev A z ;; mv_mul A z w) = Ok p /\ valid A p /\
  let r := (1 + 1) * (total d (rd x) * Qcabs (1 / c)) in
  total d (fun i => rsub (rd p i) (single 0%N r1 i)) <= (1 + (exp_num 36 r - exp_num 18 r)) ^ e_usize c - 1.
Proof.
  intros Hx Hf Hr. assert (Er : feq d (frev (rd x)) (fneg (rd x))).
  { destruct (g_rev A x Hx) as (u & Eu & Hu & Hu'). destruct (g_neg A sg D x Hx) as (v & Ev & Hv & Hv'). destruct Hr as (z1 & z2 & E1 & E2 & V1 & V2 & Hq). rewrite Eu in E1. rewrite Ev in E2. injection E1 as <-. injection E2 as <-.
    destruct Hq as [_ Hq]. intros i Hi. specialize (Hu' i Hi). specialize (Hv' i Hi). specialize (Hq i Hi). unfold rd in Hq at 1 2. rewrite Hu', Hv' in Hq. exact Hq. }
  assert (G : gives A (z <- mv_exp (F := Qc) A fuel x ;; w <- mv_rev A z ;; mv_mul A z w) (gpA (fexp (F := Qc) A (rd x)) (fexp (F := Qc) A (fneg (rd x))))).
  { eapply gives_bind; [apply (h_exp sg A D fuel x _ Hx (feq_refl _ _) Hf)|]. intros z Hz Hz'. eapply gives_bind; [apply (h_rev A z _ Hz Hz')|]. intros w Hw Hw'.
    apply (h_mul A sg D _ _ _ _ Hz Hw Hz'). eapply feq_trans; [exact Hw'|]. eapply feq_trans; [apply (frev_exp A)|].
    assert (Es : fscale (F := Qc) A (frev (rd x)) = fscale A (fneg (rd x))) by (etransitivity; [apply (fscale_sg A (fun i => rbit (popcount i)) (rd x))|symmetry; apply (fscale_sg A (fun _ => true) (rd x))]).
    unfold fexp. rewrite Es. apply fpow_ext, tay_ext. intros i Hi. rewrite (Er i Hi). reflexivity. }
  destruct G as (p & Ep & Hp & Hp'). exists (fscale A (rd x)), p. split; [apply (exp_scale_eq sg A D x _ Hx (feq_refl _ _))|]. split; [exact Ep|]. split; [exact Hp|].
  intros r. pose proof (fexp_inverse (rd x)) as B. cbv zeta in B. erewrite total_ext; [exact B|]. intros i Hi. cbv beta. f_equal. unfold rd at 1. rewrite (Hp' i Hi). reflexivity.
Qed.
End Exp.
