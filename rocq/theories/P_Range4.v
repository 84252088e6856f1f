(** Products of moderate floats do not overflow. *)
From Verif Require Export P_Range2.
From Coq Require Import QArith Qabs Qpower ZArith Lia Lqa Floats.SpecFloat.
Local Open Scope Qc_scope.

Local Notation B t := (Q2Qc (inject_Z (2 * Z.of_nat t))).
Lemma pow_small (u : Qc) t : 0 <= u -> B t * u <= 1 -> (1 + u) ^ t <= 1 + B t * u.
Proof.
  intros Hu. induction t as [|t IH]; intros Ht.
  - cbn [Qcpower]. change (B 0) with 0. rewrite Qcmult_0_l, Qcplus_0_r. apply Qcle_refl.
  - rewrite nat_step in *. pose proof (nat_pos t) as HB. set (b := B t) in *. clearbody b. cbn [Qcpower].
    assert (Hb0 : 0 <= b * u) by (apply qmul_pos; auto).
    assert (Ht' : b * u <= 1). { clear - Ht Hu. set (x := b * u) in *. assert (E : (b + (1 + 1)) * u = x + (1 + 1) * u) by (unfold x; ring). rewrite E in Ht. clearbody x. clear E. qlra. }
    specialize (IH Ht'). set (g := (1 + u) ^ t) in *. clearbody g.
    assert (A1 : (1 + u) * g <= (1 + u) * (1 + b * u)) by (apply qmul_le; [qlra|exact IH]).
    assert (A2 : 0 <= (1 - b * u) * u) by (apply qmul_pos; auto; clear - Ht'; set (x := b * u) in *; clearbody x; qlra).
    eapply Qcle_trans; [exact A1|]. clear - A2. qlra.
Qed.

Lemma pow2_this z : (this (pow2q z) == bp z)%Q.
Proof. unfold pow2q, Q2Qc. cbn [this]. apply Qred_correct. Qed.
Lemma pow2_add a b : pow2q (a + b) = pow2q a * pow2q b.
Proof. apply Qc_is_canon. unfold Qcmult, Q2Qc. cbn [this]. rewrite Qred_correct, !pow2_this. apply bp_add. Qed.
Lemma pow2_le a b : (a <= b)%Z -> pow2q a <= pow2q b.
Proof. intros Hab. unfold Qcle. rewrite !pow2_this. apply bp_le; auto. Qed.
Lemma pow2_pos a : 0 < pow2q a.
Proof. unfold Qclt. rewrite pow2_this. apply bp_pos. Qed.
Lemma pow2_0 : pow2q 0 = 1. Proof. reflexivity. Qed.
Lemma pow2_1 : pow2q 1 = 1 + 1. Proof. apply Qc_is_canon; reflexivity. Qed.
Lemma pow2_S a : pow2q (a + 1) = (1 + 1) * pow2q a.
Proof. rewrite pow2_add, pow2_1. ring. Qed.
Lemma int_le_pow t p : (0 <= p)%Z -> (Z.of_nat t <= 2 ^ p)%Z -> Q2Qc (inject_Z (Z.of_nat t)) <= pow2q p.
Proof.
  intros H0 Ht. unfold Qcle. rewrite pow2_this, bp_Z by auto. unfold Q2Qc. cbn [this]. rewrite Qred_correct, <- Zle_Qle. exact Ht.
Qed.
Lemma int_double t : B t = (1 + 1) * Q2Qc (inject_Z (Z.of_nat t)).
Proof.
  assert (E : 1 + 1 = Q2Qc 2) by (apply Qc_is_canon; reflexivity). rewrite E.
  apply Qc_is_canon. unfold Qcmult, Q2Qc. cbn [this]. rewrite !Qred_correct, inject_Z_mult. reflexivity.
Qed.

Lemma sumI_le_const n (f : N -> Qc) c : (forall i, (i < pow2 n)%N -> f i <= c) -> sumI n f <= pow2q (Z.of_nat n) * c.
Proof.
  intros Hf. unfold sumI. assert (E : pow2q (Z.of_nat n) = Q2Qc (inject_Z (Z.of_nat (length (idxs n))))).
  { apply Qc_is_canon. rewrite pow2_this, bp_Z by lia. unfold Q2Qc. cbn [this]. rewrite Qred_correct. unfold idxs. rewrite map_length, seq_length.
    rewrite Nat2Z.inj_pow. reflexivity. }
  rewrite E. clear E. assert (Hf' : forall i, In i (idxs n) -> f i <= c) by (intros i Hi; apply Hf, in_idxs, Hi). clear Hf. revert Hf'.
  induction (idxs n) as [|i l IH]; intros Hf; cbn [suml length].
  - change (Q2Qc (inject_Z (Z.of_nat 0))) with 0. rewrite Qcmult_0_l. apply Qcle_refl.
  - assert (Es : Q2Qc (inject_Z (Z.of_nat (S (length l)))) = Q2Qc (inject_Z (Z.of_nat (length l))) + 1).
    { apply Qc_is_canon. unfold Qcplus, Q2Qc. cbn [this]. rewrite !Qred_correct. rewrite Nat2Z.inj_succ, <- Z.add_1_r, inject_Z_plus. reflexivity. }
    rewrite Es. change (@radd Qc QcOps) with Qcplus. replace ((_ + 1) * c) with (c + Q2Qc (inject_Z (Z.of_nat (length l))) * c) by ring.
    apply Qcplus_le_compat; [apply Hf; cbn; auto|]. apply IH. intros; apply Hf; cbn; auto.
Qed.

Section Fmt.
Variables prec emax : Z.
Hypothesis Hp : (1 < prec)%Z.
Hypothesis He : (3 <= emax)%Z.
Local Instance FO : RingOps flt := flt_ops prec emax.
Local Instance FD : DivOps flt := flt_div prec emax.
Local Instance FV : RoundOps flt := flt_round prec emax.
Local Instance FG : RangeOps flt := flt_range prec emax.
Context {RL : RoundLaws flt} {W : NumLaws flt} {GL : RangeLaws flt} {m : Mode} {H : HashOrder}.

Lemma reach_flt t P : (Z.of_nat t < 2 ^ (prec - 1))%Z -> 0 <= P -> P + product_error t P <= (1 + 1) * P + 1.
Proof.
  intros Ht HP. pose proof ro_u as Hu. pose proof ro_eta as Hh.
  assert (B1 : B (S t) * ulp <= 1).
  { rewrite int_double. cbn [ulp FV flt_round]. assert (L : Q2Qc (inject_Z (Z.of_nat (S t))) <= pow2q (prec - 1)) by (apply int_le_pow; lia).
    apply (Qcle_trans _ ((1 + 1) * pow2q (prec - 1) * pow2q (- prec))).
    - apply Qcmult_le_compat_r; [|apply Qclt_le_weak, pow2_pos]. apply qmul_le; [discriminate|exact L].
    - rewrite <- pow2_S, <- pow2_add. replace (prec - 1 + 1 + - prec)%Z with 0%Z by lia. rewrite pow2_0. apply Qcle_refl. }
  assert (B0 : B t * ulp <= 1).
  { eapply Qcle_trans; [|exact B1]. rewrite nat_step. apply Qcmult_le_compat_r; auto. set (b := B t). clearbody b. qlra. }
  pose proof (pow_small ulp (S t) Hu B1) as G1. pose proof (pow_small ulp t Hu B0) as G0. unfold product_error.
  assert (A1 : (1 + ulp) ^ S t * P <= (1 + 1) * P).
  { apply Qcmult_le_compat_r; auto. eapply Qcle_trans; [exact G1|]. set (b := B (S t) * ulp) in *. clearbody b. clear - B1. qlra. }
  assert (A2 : B t * (1 + ulp) ^ t * eta <= 1).
  { apply (Qcle_trans _ (B t * (1 + 1) * eta)).
    - apply Qcmult_le_compat_r; auto. apply qmul_le; [apply nat_pos|]. eapply Qcle_trans; [exact G0|]. set (b := B t * ulp) in *. clearbody b. clear - B0. qlra.
    - rewrite int_double. cbn [eta FV flt_round].
      assert (L : Q2Qc (inject_Z (Z.of_nat t)) <= pow2q (prec - 1)) by (apply int_le_pow; lia).
      apply (Qcle_trans _ ((1 + 1) * pow2q (prec - 1) * (1 + 1) * pow2q (3 - emax - prec - 1))).
      + apply Qcmult_le_compat_r; [|apply Qclt_le_weak, pow2_pos]. apply Qcmult_le_compat_r; [|discriminate]. apply qmul_le; [discriminate|exact L].
      + rewrite <- pow2_S. rewrite (Qcmult_comm _ (1 + 1)), <- pow2_S, <- pow2_add.
        change 1 with (pow2q 0). apply pow2_le. lia. }
  set (X := (1 + ulp) ^ S t) in *. set (Y := B t * (1 + ulp) ^ t * eta) in *. clearbody X Y. clear - A1 A2. 
  replace (P + ((X - 1) * P + Y)) with (X * P + Y) by ring. apply Qcplus_le_compat; assumption.
Qed.

Theorem flt_product (k : kind) sg A (x y : store k flt) (a b : Z) : declared sg A -> valid A x -> valid A y -> all_okay A x -> all_okay A y ->
  (forall j, (j < 2 ^ N.of_nat (a_dim A))%N -> Qcabs (val (rd x j)) <= pow2q a /\ Qcabs (val (rd y j)) <= pow2q b) ->
  (Z.of_nat (length (mv_coeff_enumerate x)) < 2 ^ (prec - 1))%Z -> (a + b + Z.of_nat (a_dim A) <= emax - 4)%Z ->
  exists z, mv_mul A x y = Ok z /\ valid A z /\ all_okay A z /\
  forall i, (i < 2 ^ N.of_nat (a_dim A))%N ->
  Qcabs (val (rd z i) - spec_mul (sq sg) (a_dim A) (fun j => val (rd x j)) (fun j => val (rd y j)) i)
   <= product_error (length (mv_coeff_enumerate x)) (sumI (a_dim A) (fun j => Qcabs (val (rd x j)) * Qcabs (val (rd y (N.lxor j i))))).
Proof.
  intros D Hx Hy Kx Ky Hb Ht Hab. destruct (mul_kept sg A D k x y Hx Hy Kx Ky) as (z & E & Hz & Hc). exists z. split; [exact E|]. split; [exact Hz|].
  assert (G : forall i, (i < 2 ^ N.of_nat (a_dim A))%N -> let P := sumI (a_dim A) (fun j => Qcabs (val (rd x j)) * Qcabs (val (rd y (N.lxor j i)))) in
    P + product_error (length (mv_coeff_enumerate x)) P < big).
  { intros i Hi P. assert (P0 : 0 <= P) by (apply qI_pos; intros; apply qmul_pos; apply Qcabs_nonneg).
    assert (P1 : P <= pow2q (Z.of_nat (a_dim A)) * (pow2q a * pow2q b)).
    { apply sumI_le_const. intros j Hj. apply qmul_le2; try apply Qcabs_nonneg; [apply (Hb j Hj)|]. apply Hb. apply lxor_lt; auto. }
    rewrite <- !pow2_add in P1. eapply Qcle_lt_trans; [apply reach_flt; auto|].
    assert (P2 : P <= pow2q (emax - 4)) by (eapply Qcle_trans; [exact P1|]; apply pow2_le; lia).
    cbn [big FG flt_range]. replace (emax - 1)%Z with (emax - 4 + 1 + 1 + 1)%Z by lia. rewrite !pow2_S.
    assert (P3 : pow2q (-1) <= pow2q (emax - 4)) by (apply pow2_le; lia).
    assert (P4 : (1 + 1) * pow2q (-1) = 1) by (rewrite <- pow2_S; reflexivity). 
    assert (P5 : 1 <= (1 + 1) * pow2q (emax - 4)) by (apply (Qcle_trans _ ((1 + 1) * pow2q (-1))); [rewrite P4; apply Qcle_refl|apply qmul_le; [discriminate|exact P3]]).
    pose proof (pow2_pos (emax - 4)) as P6. set (X := pow2q (emax - 4)) in *. clearbody X. clear - P2 P5 P6. qlra. }
  split.
  - intros i Hi. apply (Hc i Hi). apply G; auto.
  - intros i Hi. apply (Hc i Hi). apply G; auto.
Qed.
End Fmt.
