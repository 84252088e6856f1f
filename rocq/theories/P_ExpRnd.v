(** Rounding errors of exp: norms, and the same procedure on numbers. *)
From Verif Require Export Spec_ExpRnd P_ExpLim4 P_Range2 P_Round4.
From Coq Require Import QArith Lqa Lia.
Local Open Scope Qc_scope.

#[local] Existing Instance id_from.
#[local] Instance id_laws : FromLaws Qc Qc.
Proof. constructor; reflexivity. Qed.
#[local] Instance abs_size : SizeLaws Qc.
Proof.
  refine {| size := Qcabs |}; cbn [radd rmul rneg r0 QcOps from_f id_from].
  - apply Qcabs_nonneg.
  - apply Qcabs_pos, Qcle_refl.
  - apply Qcabs_triangle.
  - apply Qcabs_opp.
  - intros a b. rewrite Qcabs_Qcmult. apply Qcle_refl.
  - reflexivity.
Defined.

(** Norms. *)
Lemma qeq_le (a b : Qc) : a = b -> a <= b.
Proof. intros ->. apply Qcle_refl. Qed.
Lemma two_S d : two_d (S d) = (1 + 1) * two_d d.
Proof.
  replace (1 + 1) with (Q2Qc (inject_Z 2)) by (apply Qc_is_canon; reflexivity). unfold two_d. rewrite Nat2Z.inj_succ, Z.pow_succ_r by lia. apply Qc_is_canon. unfold Qcmult, Q2Qc. cbn [this]. rewrite !Qred_correct. rewrite inject_Z_mult. reflexivity.
Qed.
Lemma two_pos d : 0 <= two_d d.
Proof. induction d as [|d IH]; [discriminate|]. rewrite two_S. apply qmul_pos; [discriminate|exact IH]. Qed.
Lemma qI_const d c : sumI d (fun _ => c) = two_d d * c.
Proof.
  induction d as [|d IH].
  - rewrite (sumI_O (T := Qc)). change (two_d 0) with 1. ring.
  - rewrite (sumI_S (T := Qc)). rewrite IH, two_S. change (@radd Qc QcOps) with Qcplus. ring.
Qed.
Lemma qI_add d (f g : N -> Qc) : sumI d (fun i => f i + g i) = sumI d f + sumI d g.
Proof. exact (sumI_add (T := Qc) d f g). Qed.
Lemma qI_mul d (f : N -> Qc) c : sumI d (fun i => f i * c) = sumI d f * c.
Proof. symmetry. exact (sumI_mul_r (T := Qc) d c f). Qed.
Lemma qI_term d (f : N -> Qc) i : (forall j, (j < pow2 d)%N -> 0 <= f j) -> (i < pow2 d)%N -> f i <= sumI d f.
Proof.
  intros Hf Hi. apply Qcle_trans with (sumI d (fun j => if (j =? i)%N then f j else 0)).
  - rewrite (sumI_single d _ i); [rewrite N.eqb_refl; apply Qcle_refl|exact Hi|]. intros j _ Hj. apply N.eqb_neq in Hj. rewrite Hj. reflexivity.
  - apply qI_le. intros j Hj. destruct (j =? i)%N; [apply Qcle_refl|apply Hf, Hj].
Qed.
Lemma norm1_pos d f : 0 <= norm1 d f.
Proof. apply qI_pos. intros. apply Qcabs_nonneg. Qed.
Lemma norm1_term d f i : (i < pow2 d)%N -> Qcabs (f i) <= norm1 d f.
Proof. intros Hi. apply (qI_term d (fun i => Qcabs (f i))); auto. intros. apply Qcabs_nonneg. Qed.
Lemma norm1_le d (f g : N -> Qc) : (forall i, (i < pow2 d)%N -> Qcabs (f i) <= Qcabs (g i)) -> norm1 d f <= norm1 d g.
Proof. apply qI_le. Qed.
Lemma norm1_tri d (f g h : N -> Qc) : norm1 d (fun i => f i - h i) <= norm1 d (fun i => f i - g i) + norm1 d (fun i => g i - h i).
Proof.
  unfold norm1. rewrite <- qI_add. apply qI_le. intros i _. replace (f i - h i) with ((f i - g i) + (g i - h i)) by ring. apply Qcabs_triangle.
Qed.
Lemma norm1_conv d (f g : N -> Qc) : sumI d (fun i => sumI d (fun j => Qcabs (f j) * Qcabs (g (N.lxor j i)))) = norm1 d f * norm1 d g.
Proof.
  unfold norm1. change Qcmult with (@rmul Qc QcOps). rewrite sumI_swap, sumI_mul_r. apply sumI_ext. intros i Hi. rewrite <- sumI_mul_l. f_equal.
  rewrite <- (sumI_lxor_l d i (fun k => Qcabs (g k)) Hi). reflexivity.
Qed.

Section Maj.
Context {F : Type} {RF : RingOps F} {DF : DivOps F} {V : RoundOps F} {RL : RoundLaws F} {W : NumLaws F} {G : RangeOps F} {GL : RangeLaws F} {m : Mode} {H : HashOrder}.
Variable rnd : Qc -> Qc.
Hypothesis Hr : forall a, a <= rnd a.
Variable sg : list tok.
Variable A : algebra.
Hypothesis D : declared sg A.
Variable K : kind.
Local Notation d := (a_dim A).
Local Notation gpA := (gp d (a_imag A) (a_proj A)).

(** z is f up to U - L, and the norm of f is at most L; so that of z is at most U. *)
Definition maj (z : store K F) (f : N -> Qc) (U L : Qc) : Prop :=
  valid A z /\ all_okay A z /\ norm1 d (fun i => val (rd z i) - f i) <= U - L /\ norm1 d f <= L.
Lemma maj_norm z f U L : maj z f U L -> norm1 d (fun i => val (rd z i)) <= U.
Proof.
  intros (_ & _ & He & Hf). apply Qcle_trans with (norm1 d (fun i => val (rd z i) - f i) + norm1 d f); [|qlra].
  unfold norm1. rewrite <- qI_add. apply qI_le. intros i _. replace (val (rd z i)) with ((val (rd z i) - f i) + f i) at 1 by ring. apply Qcabs_triangle.
Qed.
Lemma maj_pos z f U L : maj z f U L -> 0 <= L /\ L <= U.
Proof. intros (_ & _ & He & Hf). pose proof (norm1_pos d f). pose proof (norm1_pos d (fun i => val (rd z i) - f i)). split; [apply (Qcle_trans _ (norm1 d f)); auto|]. qlra. Qed.
Lemma maj_ext z f g U L : feq d f g -> maj z f U L -> maj z g U L.
Proof.
  intros E (Hz & Kz & He & Hf). split; [exact Hz|]. split; [exact Kz|].
  assert (E1 : norm1 d (fun i => val (rd z i) - g i) = norm1 d (fun i => val (rd z i) - f i)) by (apply sumI_ext; intros i Hi; rewrite (E i Hi); reflexivity).
  assert (E2 : norm1 d g = norm1 d f) by (apply sumI_ext; intros i Hi; rewrite (E i Hi); reflexivity). rewrite E1, E2. auto.
Qed.
Lemma cap_some a U : cap rnd a = Some U -> a <= U /\ U < big.
Proof.
  unfold cap. destruct (Qccompare (rnd a) big) eqn:E; intros Eq; try discriminate. injection Eq as <-. split; [apply Hr|]. apply Qclt_alt. exact E.
Qed.
Lemma eta_low : eta <= low rnd.
Proof. apply Hr. Qed.
Lemma grow_le n : (1 + ulp) ^ n <= grow rnd n.
Proof.
  induction n as [|n IH]; cbn [grow Qcpower]; [apply Qcle_refl|]. eapply Qcle_trans; [|apply Hr]. apply qmul_le; [|exact IH]. pose proof ro_u. qlra.
Qed.
Lemma top_scale_some a t U : top_scale rnd d a t = Some U -> (1 + ulp) * (a * t) + two_d d * eta <= U /\ U < big.
Proof.
  intros E. apply cap_some in E. destruct E as [E1 E2]. split; [|exact E2]. eapply Qcle_trans; [|exact E1]. apply Qcplus_le_compat; [apply Qcle_refl|]. apply qmul_le; [apply two_pos|apply eta_low].
Qed.
Lemma top_add_some a b U : top_add rnd d a b = Some U -> (1 + ulp) * (a + b) + two_d d * eta <= U /\ U < big.
Proof.
  intros E. apply cap_some in E. destruct E as [E1 E2]. split; [|exact E2]. eapply Qcle_trans; [|exact E1]. apply Qcplus_le_compat; [apply Qcle_refl|]. apply qmul_le; [apply two_pos|apply eta_low].
Qed.
Lemma top_mul_some a b U : 0 <= a * b -> top_mul rnd d a b = Some U ->
  (1 + ulp) ^ S (2 ^ d) * (a * b) + two_d d * (Q2Qc (inject_Z (2 * Z.of_nat (2 ^ d))) * (1 + ulp) ^ (2 ^ d) * eta) <= U /\ U < big.
Proof.
  intros Hab E. apply cap_some in E. destruct E as [E1 E2]. split; [|exact E2]. eapply Qcle_trans; [|exact E1]. apply Qcplus_le_compat; [apply Qcmult_le_compat_r; [apply (grow_le (S (2 ^ d)))|exact Hab]|].
  apply qmul_le; [apply two_pos|]. apply qmul_le2; [|apply ro_eta| |apply eta_low].
  - apply qmul_pos; [apply nat_pos|]. apply (Qcle_trans _ 1); [discriminate|]. apply qpow_ge, ro_u.
  - apply qmul_le; [apply nat_pos|apply grow_le].
Qed.
Lemma maj_one (x : store K F) : valid A x -> exists z : store K F, mv_one A = Ok z /\ maj z (del 0 1) 1 1.
Proof.
  intros Hx. destruct (g_one A (valid_of A x Hx)) as (z & E & Hz & Hc). exists z. split; [exact E|]. split; [exact Hz|].
  assert (Er : forall i, (i < pow2 d)%N -> rd z i = del 0 r1 i) by (intros i Hi; unfold rd; rewrite (Hc i Hi); reflexivity).
  split. { intros i Hi. rewrite Er by exact Hi. unfold del. destruct (i =? 0)%N; [apply ra_1|apply ra_0]. }
  assert (N1 : norm1 d (del 0 1) = 1).
  { unfold norm1. rewrite (sumI_single d _ 0%N); [apply Qcabs_pos; discriminate|apply pow2_pos|]. intros j _ Hj. rewrite del_neq by auto. apply Qcabs_pos, Qcle_refl. }
  split; [|rewrite N1; apply Qcle_refl]. unfold norm1. rewrite (sumI_0 (T := Qc)); [discriminate|]. intros i Hi. rewrite Er by exact Hi. unfold del. destruct (i =? 0)%N.
  - rewrite (proj1 ro_1). replace (1 - 1) with 0 by ring. apply Qcabs_pos, Qcle_refl.
  - rewrite (proj1 ro_0). change (@r0 Qc QcOps) with 0. replace (0 - 0) with 0 by ring. apply Qcabs_pos, Qcle_refl.
Qed.
Lemma u_pos : 0 <= (ulp : Qc). Proof. exact ro_u. Qed.
Lemma e_pos : 0 <= (eta : Qc). Proof. exact ro_eta. Qed.
Lemma two_ge : 1 <= two_d d.
Proof. clear. induction d as [|n IH]; [discriminate|]. rewrite two_S. qlra. Qed.

Lemma maj_scale z f U L t U' : maj z f U L -> okay t -> top_scale rnd d U (Qcabs (val t)) = Some U' ->
  exists z' : store K F, mv_scale A z t = Ok z' /\ maj z' (fun i => f i * val t) U' (L * Qcabs (val t)).
Proof.
  intros M Kt E. pose proof (maj_norm _ _ _ _ M) as HN. pose proof (maj_pos _ _ _ _ M) as [HL HU]. destruct M as (Hz & Kz & He & Hf).
  apply top_scale_some in E. destruct E as [E1 E2]. set (a := Qcabs (val t)) in *. assert (Ha : 0 <= a) by apply Qcabs_nonneg.
  pose proof u_pos as Hu. pose proof e_pos as Hee. pose proof two_ge as H2.
  assert (HUa : 0 <= U * a) by (apply qmul_pos; [apply (Qcle_trans _ L); assumption|exact Ha]).
  assert (Hua : 0 <= ulp * (U * a)) by (apply qmul_pos; auto). assert (H2e : 0 <= two_d d * eta) by (apply qmul_pos; auto; apply two_pos).
  destruct (w_scale A z t (proj2 (ro_mul_0 t (ra_fin t Kt))) Hz) as (z' & Ez & Hz' & Hc). exists z'. split; [exact Ez|].
  assert (Er : forall i, (i < pow2 d)%N -> rd z' i = rmul (rd z i) t) by (intros i Hi; unfold rd at 1; rewrite (Hc i Hi); reflexivity).
  assert (Kz' : all_okay A z').
  { intros i Hi. rewrite Er by exact Hi. apply ra_mul; auto. rewrite Qcabs_Qcmult. fold a. eapply Qcle_lt_trans; [|exact E2]. eapply Qcle_trans; [|exact E1].
    apply Qcle_trans with (U * a). { apply Qcmult_le_compat_r; auto. eapply Qcle_trans; [|exact HN]. apply (norm1_term d (fun i => val (rd z i))); exact Hi. }
    replace ((1 + ulp) * (U * a)) with (U * a + ulp * (U * a)) by ring. qlra. }
  split; [exact Hz'|]. split; [exact Kz'|]. split.
  - eapply Qcle_trans; [apply (norm1_tri d _ (fun i => val (rd z i) * val t))|].
    assert (B1 : norm1 d (fun i => val (rd z' i) - val (rd z i) * val t) <= ulp * (U * a) + two_d d * eta).
    { rewrite <- qI_const. apply Qcle_trans with (sumI d (fun i => Qcabs (val (rd z i)) * (ulp * a) + eta)).
      - apply qI_le. intros i Hi. rewrite Er by exact Hi. pose proof (Kz' i Hi) as Kp. rewrite Er in Kp by exact Hi. destruct (ro_mul _ _ (ra_fin _ Kp)) as (_ & _ & R). unfold rounds in R.
        eapply Qcle_trans; [exact R|]. rewrite Qcabs_Qcmult. fold a. apply Qcplus_le_compat; [|apply Qcle_refl]. apply qeq_le. ring.
      - rewrite qI_add, qI_mul. apply Qcplus_le_compat; [|apply Qcle_refl]. fold (norm1 d (fun i => val (rd z i))). replace (ulp * (U * a)) with (U * (ulp * a)) by ring. apply Qcmult_le_compat_r; auto. apply qmul_pos; auto. }
    assert (B2 : norm1 d (fun i => val (rd z i) * val t - f i * val t) <= (U - L) * a).
    { apply Qcle_trans with (norm1 d (fun i => val (rd z i) - f i) * a); [|apply Qcmult_le_compat_r; auto]. unfold norm1. rewrite <- qI_mul. apply qI_le. intros i _.
      replace (val (rd z i) * val t - f i * val t) with ((val (rd z i) - f i) * val t) by ring. rewrite Qcabs_Qcmult. apply Qcle_refl. }
    eapply Qcle_trans; [apply Qcplus_le_compat; [exact B1|exact B2]|]. replace ((U - L) * a) with (U * a - L * a) by ring. replace ((1 + ulp) * (U * a)) with (U * a + ulp * (U * a)) in E1 by ring.
    clear - E1. set (p := U * a) in *. set (q := L * a). set (w := ulp * p) in *. set (e := two_d d * eta) in *. clearbody p q w e. qlra.
  - apply Qcle_trans with (norm1 d f * a); [|apply Qcmult_le_compat_r; auto]. unfold norm1. rewrite <- qI_mul. apply qI_le. intros i _. rewrite Qcabs_Qcmult. apply Qcle_refl.
Qed.

Lemma maj_add z f U L z2 g U2 L2 U' : maj z f U L -> maj z2 g U2 L2 -> top_add rnd d U U2 = Some U' ->
  exists z' : store K F, mv_add z z2 = Ok z' /\ maj z' (fadd f g) U' (L + L2).
Proof.
  intros M M2 E. pose proof (maj_norm _ _ _ _ M) as HN. pose proof (maj_pos _ _ _ _ M) as [HL HU]. destruct M as (Hz & Kz & He & Hf).
  pose proof (maj_norm _ _ _ _ M2) as HN2. pose proof (maj_pos _ _ _ _ M2) as [HL2 HU2]. destruct M2 as (Hz2 & Kz2 & He2 & Hf2).
  apply top_add_some in E. destruct E as [E1 E2].
  pose proof u_pos as Hu. pose proof e_pos as Hee. pose proof two_ge as H2.
  assert (HUa : 0 <= U + U2) by (clear - HL HU HL2 HU2; qlra).
  assert (Hua : 0 <= ulp * (U + U2)) by (apply qmul_pos; auto). assert (H2e : 0 <= two_d d * eta) by (apply qmul_pos; auto; apply two_pos).
  destruct (g_add A z z2 Hz Hz2) as (z' & Ez & Hz' & Hc). exists z'. split; [exact Ez|].
  assert (Er : forall i, (i < pow2 d)%N -> rd z' i = radd (rd z i) (rd z2 i)) by (intros i Hi; unfold rd at 1; rewrite (Hc i Hi); reflexivity).
  assert (Kz' : all_okay A z').
  { intros i Hi. rewrite Er by exact Hi. apply ra_add; auto. eapply Qcle_lt_trans; [apply Qcabs_triangle|]. eapply Qcle_lt_trans; [|exact E2]. eapply Qcle_trans; [|exact E1].
    apply Qcle_trans with (U + U2). { apply Qcplus_le_compat; [eapply Qcle_trans; [|exact HN]; apply (norm1_term d (fun i => val (rd z i))); exact Hi|eapply Qcle_trans; [|exact HN2]; apply (norm1_term d (fun i => val (rd z2 i))); exact Hi]. }
    replace ((1 + ulp) * (U + U2)) with (U + U2 + ulp * (U + U2)) by ring. clear - Hua H2e. set (w := ulp * _) in *. set (e := two_d d * eta) in *. clearbody w e. qlra. }
  split; [exact Hz'|]. split; [exact Kz'|]. split.
  - eapply Qcle_trans; [apply (norm1_tri d _ (fun i => val (rd z i) + val (rd z2 i)))|].
    assert (B1 : norm1 d (fun i => val (rd z' i) - (val (rd z i) + val (rd z2 i))) <= ulp * (U + U2) + two_d d * eta).
    { rewrite <- qI_const. apply Qcle_trans with (sumI d (fun i => (Qcabs (val (rd z i)) + Qcabs (val (rd z2 i))) * ulp + eta)).
      - apply qI_le. intros i Hi. rewrite Er by exact Hi. pose proof (Kz' i Hi) as Kp. rewrite Er in Kp by exact Hi. destruct (ro_add _ _ (ra_fin _ Kp)) as (_ & _ & R). unfold rounds in R.
        eapply Qcle_trans; [exact R|]. apply Qcplus_le_compat; [|apply Qcle_refl]. rewrite Qcmult_comm. apply Qcmult_le_compat_r; auto. apply Qcabs_triangle.
      - rewrite qI_add, qI_mul, qI_add. apply Qcplus_le_compat; [|apply Qcle_refl]. fold (norm1 d (fun i => val (rd z i))) (norm1 d (fun i => val (rd z2 i))). rewrite Qcmult_comm. apply qmul_le; auto. apply Qcplus_le_compat; auto. }
    assert (B2 : norm1 d (fun i => val (rd z i) + val (rd z2 i) - fadd f g i) <= (U - L) + (U2 - L2)).
    { apply Qcle_trans with (norm1 d (fun i => val (rd z i) - f i) + norm1 d (fun i => val (rd z2 i) - g i)); [|apply Qcplus_le_compat; auto]. unfold norm1. rewrite <- qI_add. apply qI_le. intros i _.
      unfold fadd. change (radd (f i) (g i)) with (f i + g i). replace (val (rd z i) + val (rd z2 i) - (f i + g i)) with ((val (rd z i) - f i) + (val (rd z2 i) - g i)) by ring. apply Qcabs_triangle. }
    eapply Qcle_trans; [apply Qcplus_le_compat; [exact B1|exact B2]|]. replace ((1 + ulp) * (U + U2)) with (U + U2 + ulp * (U + U2)) in E1 by ring.
    clear - E1. set (w := ulp * _) in *. set (e := two_d d * eta) in *. clearbody w e. qlra.
  - apply Qcle_trans with (norm1 d f + norm1 d g); [|apply Qcplus_le_compat; auto]. unfold norm1. rewrite <- qI_add. apply qI_le. intros i _. apply Qcabs_triangle.
Qed.

Lemma gp_sub (f f' g g' : N -> Qc) : norm1 d (fun i => gpA f g i - gpA f' g' i) <= norm1 d (fun i => f i - f' i) * norm1 d g + norm1 d f' * norm1 d (fun i => g i - g' i).
Proof.
  eapply Qcle_trans; [apply (norm1_tri d _ (gpA f' g))|]. apply Qcplus_le_compat.
  - eapply Qcle_trans; [|apply (total_mul (SZ := abs_size) A (fun i => f i - f' i) g)]. apply qeq_le. apply sumI_ext. intros i Hi. change (fun i => f i - f' i) with (fsub f f'). change Qcabs with (size (T := Qc)). f_equal. rewrite gp_sub_l. reflexivity.
  - eapply Qcle_trans; [|apply (total_mul (SZ := abs_size) A f' (fun i => g i - g' i))]. apply qeq_le. apply sumI_ext. intros i Hi. change (fun i => g i - g' i) with (fsub g g'). change Qcabs with (size (T := Qc)). f_equal. rewrite gp_sub_r. reflexivity.
Qed.

Lemma maj_mul z f U L z2 g U2 L2 U' : maj z f U L -> maj z2 g U2 L2 -> top_mul rnd d U U2 = Some U' ->
  exists z' : store K F, mv_mul A z z2 = Ok z' /\ maj z' (gpA f g) U' (L * L2).
Proof.
  intros M M2 E. pose proof (maj_norm _ _ _ _ M) as HN. pose proof (maj_pos _ _ _ _ M) as [HL HU]. destruct M as (Hz & Kz & He & Hf).
  pose proof (maj_norm _ _ _ _ M2) as HN2. pose proof (maj_pos _ _ _ _ M2) as [HL2 HU2]. destruct M2 as (Hz2 & Kz2 & He2 & Hf2).
  apply top_mul_some in E; [|apply qmul_pos; [apply (Qcle_trans _ L)|apply (Qcle_trans _ L2)]; assumption]. destruct E as [E1 E2]. set (kap := Q2Qc (inject_Z (2 * Z.of_nat (2 ^ d))) * (1 + ulp) ^ (2 ^ d) * eta) in *.
  assert (Hk : 0 <= kap). { unfold kap. apply qmul_pos; [|apply e_pos]. apply qmul_pos; [apply nat_pos|]. apply qpow_pos. pose proof u_pos. qlra. }
  set (B := (1 + ulp) ^ S (2 ^ d)) in *. assert (HB : 1 <= B) by (apply qpow_ge, u_pos). pose proof two_ge as H2.
  set (P := fun i => sumI d (fun j => Qcabs (val (rd z j)) * Qcabs (val (rd z2 (N.lxor j i))))).
  assert (HP : forall i, 0 <= P i) by (intros i; apply qI_pos; intros; apply qmul_pos; apply Qcabs_nonneg).
  assert (HS : sumI d P <= U * U2). { unfold P. rewrite (norm1_conv d (fun i => val (rd z i)) (fun i => val (rd z2 i))). apply qmul_le2; auto; apply norm1_pos. }
  assert (HU0 : 0 <= U) by (apply (Qcle_trans _ L); assumption). assert (HU20 : 0 <= U2) by (apply (Qcle_trans _ L2); assumption).
  assert (PE : forall i, (i < pow2 d)%N -> product_error (length (mv_coeff_enumerate z)) (P i) <= (B - 1) * P i + kap).
  { intros i Hi. eapply Qcle_trans; [apply (product_error_mono _ (2 ^ d) _ (P i)); [apply (enum_len A z Hz)|apply HP|apply Qcle_refl]|]. unfold product_error. fold B kap. apply Qcle_refl. }
  destruct (mul_kept sg A D K z z2 Hz Hz2 Kz Kz2) as (z' & Ez & Hz' & Hm). exists z'. split; [exact Ez|].
  assert (Hm' : forall i, (i < pow2 d)%N -> okay (rd z' i) /\ Qcabs (val (rd z' i) - gpA (fun j => val (rd z j)) (fun j => val (rd z2 j)) i) <= (B - 1) * P i + kap).
  { intros i Hi. destruct (Hm i Hi) as [O R].
    - cbv zeta. fold (P i). eapply Qcle_lt_trans; [|exact E2]. eapply Qcle_trans; [|exact E1]. eapply Qcle_trans; [apply Qcplus_le_compat; [apply Qcle_refl|apply PE; exact Hi]|].
      assert (HPi : P i <= U * U2) by (eapply Qcle_trans; [apply (qI_term d P); auto|exact HS]).
      replace (P i + ((B - 1) * P i + kap)) with (B * P i + kap) by ring. apply Qcplus_le_compat; [apply qmul_le; auto; apply (Qcle_trans _ 1); [discriminate|exact HB]|].
      replace kap with (1 * kap) at 1 by ring. apply Qcmult_le_compat_r; auto.
    - split; [exact O|]. rewrite (spec_mul_gp _ _ _ _ _ _ (declared_metric sg A D) i Hi) in R. eapply Qcle_trans; [exact R|]. apply PE; exact Hi. }
  split; [exact Hz'|]. split; [intros i Hi; apply Hm'; exact Hi|]. split.
  - eapply Qcle_trans; [apply (norm1_tri d _ (gpA (fun j => val (rd z j)) (fun j => val (rd z2 j))))|].
    assert (B1 : norm1 d (fun i => val (rd z' i) - gpA (fun j => val (rd z j)) (fun j => val (rd z2 j)) i) <= (B - 1) * (U * U2) + two_d d * kap).
    { rewrite <- qI_const. apply Qcle_trans with (sumI d (fun i => P i * (B - 1) + kap)).
      - apply qI_le. intros i Hi. rewrite (Qcmult_comm (P i)). apply Hm'. exact Hi.
      - rewrite qI_add, qI_mul. apply Qcplus_le_compat; [|apply Qcle_refl]. rewrite Qcmult_comm. apply qmul_le; auto. clear - HB. qlra. }
    assert (B2 : norm1 d (fun i => gpA (fun j => val (rd z j)) (fun j => val (rd z2 j)) i - gpA f g i) <= (U - L) * U2 + L * (U2 - L2)).
    { eapply Qcle_trans; [apply gp_sub|]. apply Qcplus_le_compat; apply qmul_le2; auto; apply norm1_pos. }
    eapply Qcle_trans; [apply Qcplus_le_compat; [exact B1|exact B2]|].
    replace ((B - 1) * (U * U2) + two_d d * kap + ((U - L) * U2 + L * (U2 - L2))) with (B * (U * U2) + two_d d * kap - L * L2) by ring.
    clear - E1. set (p := B * _) in *. set (e := two_d d * kap) in *. clearbody p e. set (q := L * L2). clearbody q. qlra.
  - eapply Qcle_trans; [apply (total_mul (SZ := abs_size) A f g)|]. apply qmul_le2; auto; apply norm1_pos.
Qed.

Lemma maj_pow fuel : forall z f U L n U', (n < fuel)%nat -> (0 < n)%nat -> maj z f U L -> top_pow rnd d fuel U n = Some U' ->
  exists z' : store K F, mv_pow_fuel A fuel z n = Ok z' /\ maj z' (fpow A f n) U' (L ^ n).
Proof.
  induction fuel as [|fuel IH]; intros z f U L n U' Hn Hp M E; [lia|]. destruct n as [|[|n]]; [lia| |].
  - cbn [mv_pow_fuel]. cbn [top_pow] in E. injection E as <-. exists z. split; [reflexivity|]. replace (L ^ 1) with L by (cbn; ring). eapply maj_ext; [|exact M]. apply feq_sym. exact (fpow_1 (T := Qc) A _).
  - set (N2 := S (S n)) in *.
    assert (Et : top_pow rnd d (S fuel) U N2 = match top_pow rnd d fuel U (Nat.div2 N2) with
      | Some h => match top_mul rnd d h h with Some hh => if Nat.even N2 then Some hh else top_mul rnd d hh U | None => None end | None => None end) by reflexivity.
    assert (Em : mv_pow_fuel A (S fuel) z N2 = (h <- mv_pow_fuel A fuel z (Nat.div2 N2) ;; hh <- mv_mul A h h ;; if Nat.even N2 then Ok hh else mv_mul A hh z)) by reflexivity.
    rewrite Et in E. rewrite Em. clear Et Em. pose proof (Nat.div2_odd N2) as Eo. assert (Hd : (0 < Nat.div2 N2 < N2)%nat) by (split; [unfold N2; cbn; lia|apply Nat.lt_div2; unfold N2; lia]).
    assert (Ev : Nat.even N2 = negb (Nat.odd N2)) by (rewrite Nat.negb_odd; reflexivity). rewrite Ev in *. clearbody N2. set (h := Nat.div2 N2) in *. clearbody h.
    destruct (top_pow rnd d fuel U h) as [Uh|] eqn:Eh; [|discriminate]. destruct (IH z f U L h Uh ltac:(lia) ltac:(lia) M Eh) as (zh & -> & Mh). cbn [bind].
    destruct (top_mul rnd d Uh Uh) as [Uhh|] eqn:Ehh; [|discriminate]. destruct (maj_mul _ _ _ _ _ _ _ _ _ Mh Mh Ehh) as (zhh & -> & Mhh). cbn [bind].
    destruct (Nat.odd N2); cbn [negb Nat.b2n] in *.
    + destruct (maj_mul _ _ _ _ _ _ _ _ _ Mhh M E) as (z' & -> & M'). exists z'. split; [reflexivity|].
      replace (L ^ N2) with (L ^ h * L ^ h * L). { eapply maj_ext; [|exact M']. replace N2 with (S (h + h)) by lia. cbn [fpow]. intros i Hi. apply gp_ext; auto using feq_refl. apply feq_sym, fpow_add; auto. }
      replace N2 with (S (h + h)) by lia. cbn [Qcpower]. rewrite qpow_add. ring.
    + injection E as <-. exists zhh. split; [reflexivity|]. replace N2 with (h + h)%nat by lia. rewrite qpow_add. eapply maj_ext; [|exact Mhh]. apply feq_sym, fpow_add; auto.
Qed.

(** The series. *)
Context {EO : ExpOps F} {FF : FromF F F} {NF : NormF F F}.
Hypothesis HF : forall a : F, from_f a = a.
Local Notation ecoef := (exp_coeff (F := F)).
Local Notation vc j := (val (ecoef j)).
Definition vcs (k : nat) : list Qc := map (fun j => vc j) (seq 0 (S k)).
Lemma vcs_S k : vcs (S k) = vcs k ++ vc (S k) :: nil.
Proof. unfold vcs. rewrite (seq_S (S k)), map_app. reflexivity. Qed.
Lemma vcs_len k : length (vcs k) = S k.
Proof. unfold vcs. rewrite map_length, seq_length. reflexivity. Qed.
Variable n : nat.
Hypothesis Hgo : forall j, (j < n)%nat -> e_gt_eps (ecoef j) = true.
Hypothesis Hstop : e_gt_eps (ecoef n) = false.
Hypothesis Kc : forall j, (j <= n)%nat -> okay (ecoef j).
Hypothesis Pc : forall j, (j <= n)%nat -> 0 <= vc j.

Lemma maj_loop y fy Uy rho : maj y fy Uy rho -> forall r k fuel s p Us Up Ut, (k + r = n)%nat -> (r < fuel)%nat ->
  maj s (evp A (vcs k) fy) Us (evq (vcs k) rho) -> maj p (fpow A fy (S k)) Up (rho ^ S k) ->
  top_sum rnd d Uy (map (fun j => vc j) (seq (S k) r)) Us Up = Some Ut ->
  exists z : store K F, mv_exp_loop A fuel y (ecoef k) (S k) s p = Ok z /\ maj z (evp A (vcs n) fy) Ut (evq (vcs n) rho).
Proof.
  intros My. induction r as [|r IH]; intros k fuel s p Us Up Ut Hk Hf Ms Mp E; destruct fuel as [|fuel]; try lia; cbn [mv_exp_loop].
  - rewrite Nat.add_0_r in Hk. subst k. rewrite Hstop. cbn in E. injection E as <-. exists s. auto.
  - rewrite Hgo by lia. change (rdiv (ecoef k) (nat_f (S k))) with (ecoef (S k)). cbn [seq map top_sum] in E.
    destruct (top_scale rnd d Up (vc (S k))) as [Uq|] eqn:Eq; [|discriminate]. destruct (top_add rnd d Us Uq) as [Us'|] eqn:Es; [|discriminate]. destruct (top_mul rnd d Up Uy) as [Up'|] eqn:Ep; [|discriminate].
    assert (Ea : Qcabs (vc (S k)) = vc (S k)) by (apply Qcabs_pos, Pc; lia).
    destruct (maj_scale _ _ _ _ (ecoef (S k)) Uq Mp (Kc (S k) ltac:(lia)) ltac:(rewrite Ea; exact Eq)) as (q & E1 & Mq). rewrite HF, E1. cbn [bind].
    destruct (maj_add _ _ _ _ _ _ _ _ _ Ms Mq Es) as (s' & E2 & Ms'). rewrite E2. cbn [bind].
    destruct (maj_mul _ _ _ _ _ _ _ _ _ Mp My Ep) as (p' & E3 & Mp'). rewrite E3. cbn [bind]. rewrite Nat.add_1_r.
    apply (IH (S k) fuel s' p' Us' Up' Ut); auto; try lia.
    + rewrite vcs_S, evq_app, vcs_len. replace (evq (vcs k) rho + vc (S k) * rho ^ S k) with (evq (vcs k) rho + rho ^ S k * Qcabs (vc (S k))) by (rewrite Ea; ring).
      eapply maj_ext; [|exact Ms']. intros i Hi. rewrite (evp_app A fy _ _ i Hi), vcs_len. reflexivity.
    + replace (rho ^ S (S k)) with (rho ^ S k * rho) by (cbn [Qcpower]; ring). exact Mp'.
Qed.

Theorem maj_exp x fuel c r U : valid A x -> all_okay A x -> norm1 d (fun i => val (rd x i)) <= r -> mv_exp_scale A x = Ok c -> okay (rdiv r1 c) -> 0 <= val (rdiv r1 c) -> (0 < e_usize c)%nat -> (n < fuel)%nat ->
  top_exp rnd d r (val (rdiv r1 c)) (map (fun j => vc j) (seq 1 n)) (e_usize c) = Some U ->
  exists z : store K F, mv_exp A fuel x = Ok z /\
  maj z (fpow A (evp A (vcs n) (fun i => val (rd x i) * val (rdiv r1 c))) (e_usize c)) U (evq (vcs n) (r * val (rdiv r1 c)) ^ e_usize c).
Proof.
  intros Hx Kx Hnx Ec Ki Pi Hs Hf E. unfold top_exp in E. set (inv := rdiv r1 c) in *. set (s := e_usize c) in *.
  destruct (top_scale rnd d r (val inv)) as [Uy|] eqn:Ey; [|discriminate]. destruct (top_sum rnd d Uy _ 1 Uy) as [Ut|] eqn:Et; [|discriminate].
  assert (Mx : maj x (fun i => val (rd x i)) r r). { split; [exact Hx|]. split; [exact Kx|]. split; [|exact Hnx]. unfold norm1. rewrite (sumI_0 (T := Qc)); [apply qeq_le; change (@r0 Qc QcOps) with 0; ring|]. intros i _. replace (val (rd x i) - val (rd x i)) with 0 by ring. apply Qcabs_pos, Qcle_refl. }
  destruct (maj_one x Hx) as (o & Eo & Mo). unfold mv_exp. rewrite Eo. cbn [bind]. rewrite Ec. cbn [bind]. cbv zeta. fold inv s. rewrite HF.
  assert (Ea : Qcabs (val inv) = val inv) by (apply Qcabs_pos, Pi).
  destruct (maj_scale _ _ _ _ inv Uy Mx Ki ltac:(rewrite Ea; exact Ey)) as (y & Ey' & My). rewrite Ey'. cbn [bind]. rewrite Ea in My.
  assert (V0 : vcs 0 = 1 :: nil) by (unfold vcs; cbn; rewrite (proj1 ro_1); reflexivity).
  destruct (maj_loop y _ Uy _ My n 0 fuel o y 1 Uy Ut eq_refl Hf) as (t & El & Mt).
  - rewrite V0. replace (evq (1 :: nil) (r * val inv)) with 1 by (cbn [evq]; ring). eapply maj_ext; [|exact Mo]. apply feq_sym. exact (evp_1 (T := Qc) A _).
  - replace ((r * val inv) ^ 1) with (r * val inv) by (cbn; ring). eapply maj_ext; [|exact My]. apply feq_sym. exact (fpow_1 (T := Qc) A _).
  - exact Et.
  - change (ecoef 0) with (r1 : F) in El. rewrite El. cbn [bind]. unfold mv_pow. apply (maj_pow (S s) t _ Ut _ s U); auto.
Qed.
End Maj.

(** The coefficients of the rounded series against those of the exponential series. *)
Lemma cpow_pos l t : (forall k, 0 <= cf l k) -> forall k, 0 <= cf (ppow l t) k.
Proof.
  intros Hl. induction t as [|t IH]; intros k; cbn [ppow]; [destruct k as [|[|k]]; cbn; discriminate|]. rewrite cf_mul. apply conv_pos; auto.
Qed.
Lemma cpow_mono l l' t : (forall k, 0 <= cf l k /\ cf l k <= cf l' k) -> forall k, cf (ppow l t) k <= cf (ppow l' t) k.
Proof.
  intros Hl. induction t as [|t IH]; intros k; cbn [ppow]; [apply Qcle_refl|]. rewrite !cf_mul. apply conv_mono; auto. intros j. split; [apply cpow_pos; apply Hl|apply IH].
Qed.
Lemma cpow_ecf l a t : 0 <= a -> (forall k, 0 <= cf l k /\ cf l k <= ecf a k) -> forall k, cf (ppow l t) k <= ecf (natq t * a) k.
Proof.
  intros Ha Hl. induction t as [|t IH]; intros k.
  - cbn [ppow]. destruct k as [|k]; [unfold ecf; cbn [qfact Qcpower cf nth]; discriminate|]. rewrite cf_out by (cbn [length]; lia). change (natq 0) with 0. rewrite Qcmult_0_l. apply ecf_pos, Qcle_refl.
  - cbn [ppow]. rewrite cf_mul. rewrite natq_S. replace ((natq t + 1) * a) with (natq t * a + a) by ring. rewrite <- ecf_conv. apply conv_mono; auto. intros j. split; [apply cpow_pos; apply Hl|apply IH].
Qed.
Lemma pow_mul (a b : Qc) k : (a * b) ^ k = a ^ k * b ^ k.
Proof. induction k as [|k IH]; cbn [Qcpower]; [ring|]. rewrite IH. ring. Qed.
Lemma ecf_mono a b k : 0 <= a -> a <= b -> ecf a k <= ecf b k.
Proof. intros Ha Hb. unfold ecf, Qcdiv. apply Qcmult_le_compat_r; [apply P_ExpLim2.qpow_mono; auto|apply qinv_pos, qfact_pos]. Qed.

Lemma evq_incr l r r' : 0 <= r -> r <= r' -> (forall k, 0 <= cf l k) -> evq l r <= evq l r'.
Proof.
  intros H0 H1. induction l as [|c l IH]; intros Hl; cbn [evq]; [apply Qcle_refl|]. apply Qcplus_le_compat; [apply Qcle_refl|].
  assert (Hl' : forall k, 0 <= cf l k) by (intros k; apply (Hl (S k))). apply qmul_le2; auto.
  apply (evq_mono r H0 nil l). intros k. split; [destruct k; apply Qcle_refl|]. eapply Qcle_trans; [|apply Hl']. destruct k; apply Qcle_refl.
Qed.

Section Coef.
Variables (sg : list tok) (A : algebra).
Hypothesis D : declared sg A.
Local Notation d := (a_dim A).
Variables (cs : list Qc) (n s : nat) (v lo hi : Qc).
Hypothesis Hs : (0 < s)%nat.
Hypothesis Hlen : length cs = S n.
Hypothesis Hv : 0 <= v.
Hypothesis Hlo : 0 <= lo /\ lo <= 1.
Hypothesis Hhi : 1 <= hi.
(** c_j (s v)^j is 1/j! up to factors lo^j and hi^j. *)
Hypothesis Hcs : forall j, (j <= n)%nat -> ecf lo j <= cf cs j * (natq s * v) ^ j /\ cf cs j * (natq s * v) ^ j <= ecf hi j.

Lemma s_nz : natq s <> 0.
Proof. destruct s; [lia|apply natq_nz]. Qed.
Lemma s_pos : 0 <= 1 / natq s.
Proof. unfold Qcdiv. rewrite Qcmult_1_l. apply qinv_pos. destruct s; [lia|]. rewrite natq_S. pose proof (natq_pos n0). qlra. Qed.
Lemma sc_bound k : cf (psc (lo / natq s) (Ex n)) k <= cf (psc v cs) k /\ cf (psc v cs) k <= ecf (hi / natq s) k.
Proof.
  rewrite !cf_sc. pose proof s_nz as Hz. pose proof s_pos as Hp. destruct (Nat.le_gt_cases k n) as [Hk|Hk].
  - rewrite cf_Ex by exact Hk. destruct (Hcs k Hk) as [H1 H2].
    assert (Q : 0 <= (1 / natq s) ^ k) by (apply qpow_pos, Hp).
    assert (E1 : (lo / natq s) ^ k * (1 / qfact k) = ecf lo k * (1 / natq s) ^ k). { unfold ecf. replace (lo / natq s) with (lo * (1 / natq s)) by (field; exact Hz). rewrite pow_mul. field. apply qfact_nz. }
    assert (E2 : ecf (hi / natq s) k = ecf hi k * (1 / natq s) ^ k). { unfold ecf. replace (hi / natq s) with (hi * (1 / natq s)) by (field; exact Hz). rewrite pow_mul. field. apply qfact_nz. }
    assert (E3 : v ^ k * cf cs k = cf cs k * (natq s * v) ^ k * (1 / natq s) ^ k). { replace v with (natq s * v * (1 / natq s)) at 1 by (field; exact Hz). rewrite pow_mul. ring. }
    rewrite E1, E2, E3. split; apply Qcmult_le_compat_r; auto.
  - rewrite !cf_out by (rewrite ?len_Ex; lia). rewrite !Qcmult_0_r. split; [apply Qcle_refl|]. apply ecf_pos. unfold Qcdiv in *. rewrite Qcmult_1_l in Hp. apply qmul_pos; auto. apply (Qcle_trans _ 1); [discriminate|exact Hhi].
Qed.
Lemma sc_low k : 0 <= cf (psc (lo / natq s) (Ex n)) k.
Proof. apply sc_Ex_le. unfold Qcdiv. apply qmul_pos; [apply Hlo|]. pose proof s_pos as Hp. unfold Qcdiv in Hp. rewrite Qcmult_1_l in Hp. exact Hp. Qed.
Lemma poly_pos k : 0 <= cf (psc v cs) k.
Proof. eapply Qcle_trans; [apply sc_low|apply sc_bound]. Qed.
Lemma low_le r : 0 <= r -> exp_num n (lo * r / natq s) ^ s <= evq cs (r * v) ^ s.
Proof.
  intros Hr. apply P_ExpLim2.qpow_mono.
  - apply (Qcle_trans _ 1); [discriminate|]. apply exp_num_pos. unfold Qcdiv. apply qmul_pos; [apply qmul_pos; auto; apply Hlo|]. pose proof s_pos as Hp. unfold Qcdiv in Hp. rewrite Qcmult_1_l in Hp. exact Hp.
  - rewrite <- evq_Ex. replace (lo * r / natq s) with (lo / natq s * r) by (unfold Qcdiv; ring). rewrite <- evq_sc. rewrite Qcmult_comm, <- evq_sc. apply evq_mono; auto. intros k. split; [apply sc_low|apply sc_bound].
Qed.
Lemma poly_near (f : N -> Qc) K r : (n * s <= K)%nat -> norm1 d f <= r ->
  norm1 d (fun i => fpow A (evp A cs (fun i => f i * v)) s i - exp_sum (sq sg) d f K i) <= exp_num K (hi * r) - exp_num n (lo * r / natq s) ^ s.
Proof.
  intros HK Hr.
  set (l := padd (ppow (psc v cs) s) (cmul (- (1)) (Ex K))). set (u := padd (psc hi (Ex K)) (cmul (- (1)) (ppow (psc (lo / natq s) (Ex n)) s))).
  assert (Hlu : forall k, Qcabs (cf l k) <= cf u k).
  { intros k. unfold l, u. rewrite !cf_add, !cf_cmul.
    assert (T1 : cf (ppow (psc (lo / natq s) (Ex n)) s) k <= cf (ppow (psc v cs) s) k) by (apply cpow_mono; intros j; split; [apply sc_low|apply sc_bound]).
    assert (T2 : cf (ppow (psc v cs) s) k <= ecf hi k).
    { replace hi with (natq s * (hi / natq s)) by (field; apply s_nz). apply cpow_ecf; [|intros j; split; [apply poly_pos|apply sc_bound]].
      unfold Qcdiv. apply qmul_pos; [apply (Qcle_trans _ 1); [discriminate|exact Hhi]|]. pose proof s_pos as Hp. unfold Qcdiv in Hp. rewrite Qcmult_1_l in Hp. exact Hp. }
    assert (T3 : cf (ppow (psc (lo / natq s) (Ex n)) s) k <= ecf 1 k).
    { apply (Qcle_trans _ (ecf (natq s * (lo / natq s)) k)); [apply pow_Ex_le|].
      - unfold Qcdiv. apply qmul_pos; [apply Hlo|]. pose proof s_pos as Hp. unfold Qcdiv in Hp. rewrite Qcmult_1_l in Hp. exact Hp.
      - replace (natq s * (lo / natq s)) with lo by (field; apply s_nz). apply ecf_mono; apply Hlo. }
    assert (T4 : ecf 1 k <= ecf hi k) by (apply ecf_mono; [discriminate|exact Hhi]).
    destruct (Nat.le_gt_cases k K) as [Hk|Hk].
    - rewrite cf_sc, cf_Ex by exact Hk. replace (hi ^ k * (1 / qfact k)) with (ecf hi k) by (unfold ecf; field; apply qfact_nz). replace (1 / qfact k) with (ecf 1 k) by (unfold ecf; rewrite one_pow; reflexivity).
      revert T1 T2 T3 T4. set (t := cf (ppow (psc v cs) s) k). set (lw := cf _ k). set (e1 := ecf 1 k). set (eh := ecf hi k). clearbody t lw e1 eh. intros.
      apply Qcabs_Qcle_condition. split; qlra.
    - rewrite (cf_sc hi), (cf_out (Ex K)) by (rewrite len_Ex; lia).
      rewrite (cf_out (ppow (psc v cs) s)) by (pose proof (len_pow (psc v cs) n s); rewrite len_sc in *; specialize (H Hlen); lia).
      rewrite (cf_out (ppow (psc (lo / natq s) (Ex n)) s)) by (pose proof (len_pow (psc (lo / natq s) (Ex n)) n s); rewrite len_sc, len_Ex in *; specialize (H eq_refl); lia).
      apply qeq_le. rewrite Qcabs_pos; [ring|]. apply qeq_le. ring. }
  assert (E : norm1 d (fun i => fpow A (evp A cs (fun i => f i * v)) s i - exp_sum (sq sg) d f K i) = total d (evp A l f)).
  { apply sumI_ext. intros i Hi. change (size (T := Qc)) with Qcabs. f_equal. unfold l. rewrite (evp_add A f _ _ i Hi). unfold fadd. rewrite (evp_cmul A f _ _ i Hi), (sum_spec sg A D f K i Hi), (evp_pow A f _ _ i Hi).
    assert (Es : feq d (evp A (psc v cs) f) (evp A cs (fun i => f i * v))) by (refine (feq_trans d _ _ _ (evp_sc A f v cs) _); intros j Hj; reflexivity).
    rewrite (fpow_ext A (evp A (psc v cs) f) (evp A cs (fun i => f i * v)) s Es i Hi). change (@radd Qc QcOps) with Qcplus. change (@rmul Qc QcOps) with Qcmult. change (from_f (- (1))) with (- (1)). ring. }
  rewrite E. eapply Qcle_trans; [apply (total_ev_abs A f l u Hlu)|].
  apply (Qcle_trans _ (evq u r)).
  - assert (Hu : forall k, 0 <= cf u k) by (intros k; eapply Qcle_trans; [apply Qcabs_nonneg|apply Hlu]).
    apply evq_incr; auto. apply total_pos.
  - unfold u. rewrite evq_add, evq_cmul, evq_pow, !evq_sc, !evq_Ex. apply qeq_le. replace (lo / natq s * r) with (lo * r / natq s) by (unfold Qcdiv; ring). ring.
Qed.
End Coef.
