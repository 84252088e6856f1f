(** exp of square roots of numbers: lemmas behind C87. *)
From Verif Require Export P_ExpLim3 Spec_Rotor.
From Coq Require Import QArith Lia Reals Qreals Lra.
Local Open Scope Qc_scope.

Section Alg.
Context {T : Type} {RO : RingOps T} {L : RingLaws T} {CT : CommLaws T} {FF : FromF T Qc} {FRM : FromLaws T Qc}.
Variables (sg : list tok) (A : algebra).
Hypothesis D : declared sg A.
Local Notation d := (a_dim A).
Local Notation gpA := (gp d (a_imag A) (a_proj A)).
Variables (f : N -> T) (s : Qc).
Hypothesis Hf : feq d (spec_mul (sq sg) d f f) (single 0%N (from_f s)).

Lemma sq_f : feq d (gpA f f) (del 0 (from_f s)).
Proof. intros i Hi. rewrite <- (spec_mul_gp _ _ _ _ _ _ (declared_metric sg A D) i Hi). apply Hf; auto. Qed.
Lemma pow_even j : feq d (fpow A f (2 * j)) (del 0 (from_f (s ^ j))).
Proof.
  induction j as [|j IH].
  - intros i Hi. cbn [Nat.mul fpow Qcpower]. change (1%Qc) with (r1 : Qc). rewrite from_one. reflexivity.
  - replace (2 * Datatypes.S j)%nat with (Datatypes.S (Datatypes.S (2 * j))) by lia. intros i Hi. cbn [fpow].
    rewrite gp_assoc by auto. rewrite (gp_ext d _ _ _ _ _ _ i Hi IH sq_f). rewrite (del_gp A). cbn [Qcpower].
    change (s * s ^ j) with (rmul s (s ^ j)). rewrite from_mul, (del_sc (from_f s)). reflexivity.
Qed.
Lemma pow_odd j : feq d (fpow A f (Datatypes.S (2 * j))) (fun i => rmul (f i) (from_f (s ^ j))).
Proof.
  intros i Hi. cbn [fpow]. rewrite (gp_ext d _ _ _ _ _ _ i Hi (pow_even j) (feq_refl _ _)). apply (del_gp A).
Qed.
Lemma exp_sum_sq J : feq d (exp_sum (sq sg) d f (Datatypes.S (2 * J))) (fun i => radd (single 0%N (from_f (even_sum J s)) i) (rmul (f i) (from_f (odd_sum J s)))).
Proof.
  induction J as [|J IH].
  - intros i Hi. change (Datatypes.S (2 * 0)) with 1%nat. cbn [exp_sum even_sum odd_sum]. rewrite (pow_spec sg A D f 1 i Hi).
    pose proof (pow_odd 0 i Hi) as E1. change (Datatypes.S (2 * 0)) with 1%nat in E1. change (s ^ 0) with (r1 : Qc) in E1. rewrite E1.
    replace (1 / qfact 1) with (r1 : Qc) by (apply Qc_is_canon; reflexivity). change 1%Qc with (r1 : Qc). rewrite !from_one, !mul_1_r. reflexivity.
  - replace (Datatypes.S (2 * Datatypes.S J))%nat with (Datatypes.S (Datatypes.S (Datatypes.S (2 * J)))) by lia. intros i Hi.
    assert (ES : forall n, exp_sum (sq sg) d f (Datatypes.S n) i = radd (exp_sum (sq sg) d f n i) (rmul (spec_pow (sq sg) d f (Datatypes.S n) i) (from_f (1 / qfact (Datatypes.S n))))) by reflexivity.
    rewrite (ES (Datatypes.S (Datatypes.S (2 * J)))), (ES (Datatypes.S (2 * J))), (IH i Hi). rewrite !(pow_spec sg A D f _ i Hi).
    replace (Datatypes.S (Datatypes.S (2 * J)))%nat with (2 * Datatypes.S J)%nat by lia.
    rewrite (pow_even (Datatypes.S J) i Hi), (pow_odd (Datatypes.S J) i Hi). cbn [even_sum odd_sum].
    replace (2 * Datatypes.S J + 1)%nat with (Datatypes.S (2 * Datatypes.S J)) by lia.
    set (E := qfact (2 * Datatypes.S J)). set (O := qfact (Datatypes.S (2 * Datatypes.S J))). set (p := s ^ Datatypes.S J).
    replace (even_sum J s + p / E) with (radd (even_sum J s) (rmul p (1 / E))) by (cbn; unfold Qcdiv; ring).
    replace (odd_sum J s + p / O) with (radd (odd_sum J s) (rmul p (1 / O))) by (cbn; unfold Qcdiv; ring).
    rewrite !from_add, !from_mul, mul_add_r, mul_assoc. unfold single, del. destruct (i =? 0)%N; [abel|]. rewrite mul_0_l. abel.
Qed.
End Alg.

(** ** Rational numbers as real numbers *)
Local Open Scope R_scope.
Lemma qr_add a b : qr (a + b)%Qc = qr a + qr b.
Proof. unfold qr. rewrite <- Q2R_plus. apply Qeq_eqR. apply Qred_correct. Qed.
Lemma qr_mul a b : qr (a * b)%Qc = qr a * qr b.
Proof. unfold qr. rewrite <- Q2R_mult. apply Qeq_eqR. apply Qred_correct. Qed.
Lemma qr_neg a : qr (- a)%Qc = - qr a.
Proof. unfold qr. rewrite <- Q2R_opp. apply Qeq_eqR. apply Qred_correct. Qed.
Lemma qr_sub a b : qr (a - b)%Qc = qr a - qr b.
Proof. unfold Qcminus. rewrite qr_add, qr_neg. reflexivity. Qed.
Lemma qr_0 : qr 0%Qc = 0. Proof. unfold qr, Q2R. simpl. lra. Qed.
Lemma qr_1 : qr 1%Qc = 1. Proof. unfold qr, Q2R. simpl. lra. Qed.
Lemma qr_nz a : a <> 0%Qc -> qr a <> 0.
Proof. intros Ha E. apply Ha. apply Qc_is_canon. apply eqR_Qeq. unfold qr in E. rewrite E. unfold Q2R. simpl. lra. Qed.
Lemma qr_div a b : b <> 0%Qc -> qr (a / b)%Qc = qr a / qr b.
Proof.
  intros Hb. apply Rmult_eq_reg_r with (qr b); [|apply qr_nz; auto]. rewrite <- qr_mul. unfold Rdiv. rewrite Rmult_assoc, Rinv_l, Rmult_1_r by (apply qr_nz; auto).
  f_equal. field. exact Hb.
Qed.
Lemma qr_le a b : (a <= b)%Qc -> qr a <= qr b. Proof. apply Qle_Rle. Qed.
Lemma qr_abs a : qr (Qcabs a) = Rabs (qr a).
Proof.
  destruct (Qclt_le_dec a 0) as [Hl|Hl].
  - rewrite Qcabs_neg by (apply Qclt_le_weak; exact Hl). rewrite qr_neg, Rabs_left1; auto. rewrite <- qr_0. apply qr_le, Qclt_le_weak, Hl.
  - rewrite Qcabs_pos by exact Hl. rewrite Rabs_pos_eq; auto. rewrite <- qr_0. apply qr_le, Hl.
Qed.
Lemma qr_pow a n : qr (a ^ n)%Qc = qr a ^ n.
Proof. induction n as [|n IH]; cbn [Qcpower pow]; [apply qr_1|]. rewrite qr_mul, IH. reflexivity. Qed.
Lemma qr_nat n : qr (Q2Qc (inject_Z (Z.of_nat n))) = INR n.
Proof. unfold qr. change (this (Q2Qc (inject_Z (Z.of_nat n)))) with (Qred (inject_Z (Z.of_nat n))). rewrite (Qeq_eqR _ _ (Qred_correct _)). unfold Q2R. simpl. rewrite Rinv_1, Rmult_1_r, INR_IZR_INZ. reflexivity. Qed.
Lemma qr_fact n : qr (qfact n) = INR (fact n).
Proof. induction n as [|n IH]; [apply qr_1|]. cbn [qfact]. rewrite qr_mul, IH, qr_nat. change (fact (Datatypes.S n)) with (Datatypes.S n * fact n)%nat. rewrite mult_INR. ring. Qed.
Lemma fact_nz n : qfact n <> 0%Qc.
Proof. intros E. apply (INR_fact_neq_0 n). rewrite <- qr_fact, E. apply qr_0. Qed.

(** ** The series *)
Lemma even_R J s : qr (even_sum J s) = sum_f_R0 (fun i => qr s ^ i / INR (fact (2 * i))) J.
Proof.
  induction J as [|J IH]; cbn [even_sum sum_f_R0]; [rewrite qr_1; simpl; lra|]. rewrite qr_add, IH, qr_div, qr_pow, qr_fact by apply fact_nz. reflexivity.
Qed.
Lemma odd_R J s : qr (odd_sum J s) = sum_f_R0 (fun i => qr s ^ i / INR (fact (2 * i + 1))) J.
Proof.
  induction J as [|J IH]; cbn [odd_sum sum_f_R0]; [rewrite qr_1; simpl; lra|]. rewrite qr_add, IH, qr_div, qr_pow, qr_fact by apply fact_nz. reflexivity.
Qed.
Lemma cv_ext u v l : (forall n, u n = v n) -> Un_cv u l -> Un_cv v l.
Proof. intros E Hu eps He. destruct (Hu eps He) as (N & HN). exists N. intros n Hn. rewrite <- E. auto. Qed.
Lemma even_cos t s : qr s = - (t * t) -> Un_cv (fun J => qr (even_sum J s)) (cos t).
Proof.
  intros Es. unfold cos. destruct (exist_cos (Rsqr t)) as [a Ha]. apply cv_ext with (sum_f_R0 (fun i => cos_n i * Rsqr t ^ i)); [|exact Ha].
  intros n. rewrite even_R. apply sum_eq. intros i _. unfold cos_n. rewrite Es. replace (- (t * t)) with (-1 * (t * t)) by ring. rewrite Rpow_mult_distr. unfold Rsqr, Rdiv. ring.
Qed.
Lemma odd_sin t s : t <> 0 -> qr s = - (t * t) -> Un_cv (fun J => qr (odd_sum J s)) (sin t / t).
Proof.
  intros Ht Es. unfold sin. destruct (exist_sin (Rsqr t)) as [a Ha]. replace (t * a / t) with a by (field; exact Ht). apply cv_ext with (sum_f_R0 (fun i => sin_n i * Rsqr t ^ i)); [|exact Ha].
  intros n. rewrite odd_R. apply sum_eq. intros i _. unfold sin_n. rewrite Es. replace (- (t * t)) with (-1 * (t * t)) by ring. rewrite Rpow_mult_distr. unfold Rsqr, Rdiv. ring.
Qed.
Lemma exp_cv t : Un_cv (sum_f_R0 (fun i => / INR (fact i) * t ^ i)) (exp t).
Proof. unfold exp. destruct (exist_exp t) as [a Ha]. exact Ha. Qed.
Lemma cv_sub u l (h : nat -> nat) : (forall n, (n <= h n)%nat) -> Un_cv u l -> Un_cv (fun n => u (h n)) l.
Proof. intros Hh Hu eps He. destruct (Hu eps He) as (N & HN). exists N. intros n Hn. apply HN. specialize (Hh n). lia. Qed.
Lemma cosh_part t s J : qr s = t * t ->
  sum_f_R0 (fun i => / INR (fact i) * t ^ i) (Datatypes.S (2 * J)) = qr (even_sum J s) + t * qr (odd_sum J s).
Proof.
  intros Es. rewrite even_R, odd_R. induction J as [|J IH].
  - simpl. lra.
  - replace (Datatypes.S (2 * Datatypes.S J))%nat with (Datatypes.S (Datatypes.S (Datatypes.S (2 * J)))) by lia. rewrite !(tech5 _ (Datatypes.S _)), IH, !tech5.
    replace (Datatypes.S (Datatypes.S (2 * J)))%nat with (2 * Datatypes.S J)%nat by lia. replace (2 * Datatypes.S J + 1)%nat with (Datatypes.S (2 * Datatypes.S J)) by lia.
    assert (Ep : qr s ^ Datatypes.S J = t ^ (2 * Datatypes.S J)) by (rewrite Es, pow_mult; f_equal; ring).
    rewrite Ep. change (t ^ Datatypes.S (2 * Datatypes.S J)) with (t * t ^ (2 * Datatypes.S J)). unfold Rdiv. ring.
Qed.
Lemma exp_part t s : qr s = t * t -> Un_cv (fun J => qr (even_sum J s) + t * qr (odd_sum J s)) (exp t).
Proof.
  intros Es. apply cv_ext with (fun J => sum_f_R0 (fun i => / INR (fact i) * t ^ i) (Datatypes.S (2 * J))); [intros; apply cosh_part; auto|].
  apply (cv_sub _ _ (fun J => Datatypes.S (2 * J))); [intros; lia|apply exp_cv].
Qed.
Lemma cv_const c : Un_cv (fun _ => c) c.
Proof. intros eps He. exists 0%nat. intros. unfold R_dist. rewrite Rminus_diag_eq, Rabs_R0 by reflexivity. exact He. Qed.
Lemma even_cosh t s : qr s = t * t -> Un_cv (fun J => qr (even_sum J s)) (cosh t).
Proof.
  intros Es. assert (Es' : qr s = - t * - t) by (rewrite Es; ring). pose proof (exp_part t s Es) as H1. pose proof (exp_part (- t) s Es') as H2.
  unfold cosh, Rdiv. apply cv_ext with (fun J => ((qr (even_sum J s) + t * qr (odd_sum J s)) + (qr (even_sum J s) + - t * qr (odd_sum J s))) * / 2); [intros; lra|].
  apply (CV_mult _ (fun _ => / 2)); [apply (CV_plus _ _ _ _ H1 H2)|apply cv_const].
Qed.
Lemma odd_sinh t s : t <> 0 -> qr s = t * t -> Un_cv (fun J => qr (odd_sum J s)) (sinh t / t).
Proof.
  intros Ht Es. assert (Es' : qr s = - t * - t) by (rewrite Es; ring). pose proof (exp_part t s Es) as H1. pose proof (exp_part (- t) s Es') as H2.
  replace (sinh t / t) with ((exp t - exp (- t)) * (/ 2 * / t)) by (unfold sinh; field; exact Ht).
  apply cv_ext with (fun J => ((qr (even_sum J s) + t * qr (odd_sum J s)) - (qr (even_sum J s) + - t * qr (odd_sum J s))) * (/ 2 * / t)); [intros; field; exact Ht|].
  apply (CV_mult _ (fun _ => / 2 * / t)); [apply (CV_minus _ _ _ _ H1 H2)|apply cv_const].
Qed.
Lemma num_R K r : qr (exp_num K r) = sum_f_R0 (fun i => / INR (fact i) * qr r ^ i) K.
Proof.
  induction K as [|K IH]; cbn [exp_num sum_f_R0]; [rewrite qr_1; simpl; lra|]. rewrite qr_add, IH, qr_div, qr_pow, qr_fact by apply fact_nz. unfold Rdiv. ring.
Qed.
Lemma num_exp r : Un_cv (fun K => qr (exp_num K r)) (exp (qr r)).
Proof. apply cv_ext with (sum_f_R0 (fun i => / INR (fact i) * qr r ^ i)); [intros; symmetry; apply num_R|apply exp_cv]. Qed.

(** ** Limits of sums of coefficients *)
Lemma cv_norm l (g : nat -> N -> R) (h : N -> R) : (forall i, In i l -> Un_cv (fun J => g J i) (h i)) ->
  Un_cv (fun J => fold_right (fun i s => Rabs (g J i) + s) 0 l) (fold_right (fun i s => Rabs (h i) + s) 0 l).
Proof.
  induction l as [|a l IH]; intros Hg; cbn [fold_right]; [apply cv_const|].
  apply (CV_plus (fun J => Rabs (g J a)) (fun J => fold_right (fun i s => Rabs (g J i) + s) 0 l)); [apply (cv_cvabs (fun J => g J a)), Hg; left; reflexivity|apply IH; intros; apply Hg; right; auto].
Qed.
Lemma cv_le u v a b n0 : (forall n, (n0 <= n)%nat -> u n <= v n) -> Un_cv u a -> Un_cv v b -> a <= b.
Proof.
  intros Hle Hu Hv. destruct (Rle_lt_dec a b) as [|Hlt]; auto. exfalso.
  destruct (Hu ((a - b) / 2)) as (N1 & H1); [lra|]. destruct (Hv ((a - b) / 2)) as (N2 & H2); [lra|]. set (n := (n0 + N1 + N2)%nat).
  specialize (H1 n ltac:(lia)). specialize (H2 n ltac:(lia)). specialize (Hle n ltac:(lia)). unfold R_dist in *. apply Rabs_def2 in H1, H2. lra.
Qed.
Lemma norm_R d (f : N -> Qc) : qr (suml (fun i => Qcabs (f i)) (idxs d)) = rnorm1 d (fun i => qr (f i)).
Proof.
  unfold rnorm1. induction (idxs d) as [|a l IH]; cbn [suml fold_right]; [apply qr_0|]. change (radd (Qcabs (f a)) ?u) with (Qcabs (f a) + u)%Qc. rewrite qr_add, qr_abs, IH. reflexivity.
Qed.
Lemma limit d (z : N -> Qc) (E : nat -> N -> Qc) (h : N -> R) (B : nat -> Qc) b n0 :
  (forall J, (n0 <= J)%nat -> (suml (fun i => Qcabs (z i - E J i)) (idxs d) <= B J)%Qc) ->
  (forall i, In i (idxs d) -> Un_cv (fun J => qr (E J i)) (h i)) -> Un_cv (fun J => qr (B J)) b ->
  rnorm1 d (fun i => qr (z i) - h i) <= b.
Proof.
  intros Hle Hh HB. apply (cv_le (fun J => rnorm1 d (fun i => qr (z i) - qr (E J i))) (fun J => qr (B J)) _ _ n0).
  - intros J HJ. specialize (Hle J HJ). apply qr_le in Hle. rewrite norm_R in Hle. eapply Rle_trans; [|exact Hle]. unfold rnorm1. clear.
    induction (idxs d) as [|a l IH]; cbn [fold_right]; [lra|]. rewrite qr_sub. apply Rplus_le_compat_l. exact IH.
  - apply cv_norm. intros i Hi. apply (CV_minus (fun _ => qr (z i)) (fun J => qr (E J i))); [apply cv_const|auto].
  - exact HB.
Qed.
