(** Rounding errors of products computed through the transforms: the bound. *)
From Verif Require Export Spec_FastProd P_Round9.
From Coq Require Import QArith Lqa Lia.
Local Open Scope Qc_scope.

Lemma sum_blocks n s (f : N -> Qc) : sumI s (fun w => sumI n (blk_of n f w)) = sumI (n + s) f.
Proof.
  revert f. induction s as [|s IH]; intros f.
  - rewrite sumI_O, Nat.add_0_r. apply sumI_ext. intros i _. unfold blk_of. f_equal. lia.
  - rewrite Nat.add_succ_r, !sumI_S, IH. f_equal. rewrite <- (IH (fun i => f (pow2 (n + s) + i)%N)). apply sumI_ext. intros w _. apply sumI_ext. intros i _. unfold blk_of. f_equal. rewrite pow2_add. lia.
Qed.
Lemma zq_mul a b : zq (a * b) = zq a * zq b.
Proof. apply Qc_is_canon. unfold zq, Qcmult. cbn [this Q2Qc]. rewrite !Qred_correct. rewrite inject_Z_mult. reflexivity. Qed.
Lemma zq_pow2 m : zq (Z.of_nat (2 ^ m)) = (1 + 1) ^ m.
Proof.
  induction m as [|m IH]; [reflexivity|]. change (2 ^ S m)%nat with (2 * 2 ^ m)%nat. rewrite Nat2Z.inj_mul, zq_mul, IH. cbn [Qcpower]. f_equal.
Qed.
Lemma qle_diff (a b : Qc) : 0 <= b - a -> a <= b.
Proof. intros H. qlra. Qed.

Section Tr.
Context {F : Type} {RF : RingOps F} {DF : DivOps F} {V : RoundOps F} {RL : RoundLaws F} {W : NumLaws F}.
Local Notation C := (cplx F).
Local Notation CQ := (cplx Qc).
Local Notation gph g := ((1 + ulp) * (1 + ulp) * (1 + g) - 1).
Local Notation eph e := ((1 + ulp) * (1 + ulp) * e + ((1 + ulp) + 1) * eta).
Local Notation g2 := (gph (gph 0)).
Local Notation e2 := (eph (eph 0)).
Local Notation five := (1 + 1 + 1 + 1 + 1).

(** ** The accumulated bound *)
Lemma ea_le m : ecl m e2 <= (1 + ulp) ^ (m + 3) * (five * (1 + 1) ^ m * eta).
Proof.
  pose proof ro_u as Hu. pose proof ro_eta as Ht. unfold ecl. rewrite qpow_add. cbn [Qcpower].
  pose proof (qpow_ge ulp m Hu) as HG. assert (HK : 1 <= (1 + 1) ^ m) by (apply qpow_ge; discriminate). set (G := (1 + ulp) ^ m) in *. set (K := (1 + 1) ^ m) in *. clearbody G K. set (u := ulp) in *. clearbody u.
  assert (A : 0 <= K * G * eta) by (repeat (apply qmul_pos; try qlra)). assert (A1 : 0 <= u * (K * G * eta)) by (apply qmul_pos; auto). assert (A2 : 0 <= u * (u * (K * G * eta))) by (apply qmul_pos; auto). assert (A3 : 0 <= u * (u * (u * (K * G * eta)))) by (apply qmul_pos; auto).
  apply qle_diff. match goal with |- 0 <= ?x => replace x with ((1 + 1 + 1 + 1) * (u * (u * (u * (K * G * eta)))) + (five + five + 1) * (u * (u * (K * G * eta))) + (five + 1 + 1 + 1 + 1) * (u * (K * G * eta)) + eta) by ring end.
  set (a3 := u * (u * (u * _))) in *. set (a2 := u * (u * _)) in *. set (a1 := u * _) in *. clearbody a1 a2 a3. qlra.
Qed.
Lemma eterm_le (t c ea P Q : Qc) : 1 <= t -> 0 <= c -> 0 <= ea -> ea <= t * c -> 0 <= P -> 0 <= Q ->
  eterm ((1 + ulp) * t - 1) ea ((1 + ulp) * t - 1) ea P Q <= (1 + ulp) * (1 + ulp) * (1 + ulp) * (t * t) * ((1 + 1) * (c * (P + Q + c)) + (1 + 1 + 1) * eta).
Proof.
  intros H1 Hc He Hec HP HQ. pose proof ro_u as Hu. pose proof ro_eta as Ht. unfold eterm. set (u := ulp) in *. clearbody u.
  assert (Hw : 0 <= (1 + u) * t) by (apply qmul_pos; qlra).
  replace (1 + ((1 + u) * t - 1)) with ((1 + u) * t) by ring. set (w := (1 + u) * t) in *.
  assert (Htc : 0 <= t * c) by (apply qmul_pos; qlra).
  assert (B1 : ea * (w * Q) + ea * (w * P + ea) <= (t * c) * (w * Q) + (t * c) * (w * P + t * c)).
  { assert (0 <= w * Q) by (apply qmul_pos; auto). assert (0 <= w * P) by (apply qmul_pos; auto). apply Qcplus_le_compat; [apply Qcmult_le_compat_r; auto|].
    eapply Qcle_trans; [apply (Qcmult_le_compat_r _ _ (w * P + ea) Hec); set (x := w * P) in *; clearbody x; qlra|]. apply qmul_le; auto. apply Qcplus_le_compat; [apply Qcle_refl|exact Hec]. }
  assert (U : 0 <= 1 + u) by qlra. assert (B2 := qmul_le _ _ (1 + u) U B1).
  eapply Qcle_trans; [apply Qcplus_le_compat; [apply qmul_le; [exact U|apply qmul_le; [discriminate|apply Qcplus_le_compat; [exact B2|apply Qcle_refl]]]|apply Qcle_refl]|].
  unfold w. apply qle_diff.
  assert (A1 : 0 <= u * ((1 + u) * (1 + u) * (t * c * (t * c)))) by (repeat (apply qmul_pos; try qlra)).
  assert (A2 : 0 <= eta * ((1 + u) * ((1 + u) * (1 + u) * (t * t) - 1))).
  { repeat (apply qmul_pos; try qlra). assert (0 <= (t - 1) * (t + 1)) by (apply qmul_pos; qlra). assert (0 <= u * (t * t)) by (repeat (apply qmul_pos; try qlra)). assert (0 <= u * (u * (t * t))) by (repeat (apply qmul_pos; try qlra)).
    replace ((1 + u) * (1 + u) * (t * t) - 1) with ((t - 1) * (t + 1) + (u * (t * t) + u * (t * t)) + u * (u * (t * t))) by ring. set (x := (t - 1) * _) in *. set (y := u * (t * t)) in *. set (z := u * y) in *. clearbody x y z. qlra. }
  assert (A3 : 0 <= eta * ((1 + u) * (1 + u) * (1 + u) * (t * t) - 1)).
  { apply qmul_pos; auto. assert (X : 1 <= (1 + u) * (1 + u) * (1 + u)). { assert (0 <= u * u) by (apply qmul_pos; auto). assert (0 <= u * (u * u)) by (apply qmul_pos; auto). replace ((1 + u) * (1 + u) * (1 + u)) with (1 + (1 + 1 + 1) * u + (1 + 1 + 1) * (u * u) + u * (u * u)) by ring. set (y := u * u) in *. set (z := u * y) in *. clearbody y z. qlra. }
    assert (Y : 1 <= t * t). { assert (0 <= (t - 1) * (t + 1)) by (apply qmul_pos; qlra). replace (t * t) with ((t - 1) * (t + 1) + 1) by ring. set (y := _ * (t + 1)) in *. clearbody y. qlra. }
    set (x := (1 + u) * (1 + u) * (1 + u)) in *. set (y := t * t) in *. clearbody x y. assert (0 <= (x - 1) * y) by (apply qmul_pos; qlra). replace (x * y - 1) with ((x - 1) * y + (y - 1)) by ring. set (z := _ * y) in *. clearbody z. qlra. }
  match goal with |- 0 <= ?x => replace x with ((1 + 1) * (u * ((1 + u) * (1 + u) * (t * c * (t * c)))) + (1 + 1) * (eta * ((1 + u) * ((1 + u) * (1 + u) * (t * t) - 1))) + eta * ((1 + u) * (1 + u) * (1 + u) * (t * t) - 1)) by ring end.
  set (x := u * _) in *. set (y := eta * ((1 + u) * _)) in *. set (z := eta * _) in *. clearbody x y z. qlra.
Qed.

Lemma fp_bound m s P Q : 0 <= P -> 0 <= Q ->
  gph (gph (igain m (gcl s (gsum (2 ^ m) (gterm (gcl m g2) (gcl m g2)))))) * (P * Q)
  + eph (eph (ieta m (ecl s (esum (2 ^ m) (eterm (gcl m g2) (ecl m e2) (gcl m g2) (ecl m e2) P Q))))) <= fast_product_error m s P Q.
Proof.
  intros HP HQ. pose proof ro_u as Hu. pose proof ro_eta as Ht.
  set (c := five * (1 + 1) ^ m * eta). set (K := (1 + 1) ^ m) in *. assert (HK : 1 <= K) by (apply qpow_ge; discriminate).
  assert (Hc : 0 <= c) by (unfold c; repeat (apply qmul_pos; try qlra)).
  set (t := (1 + ulp) ^ (m + 3)). assert (H1 : 1 <= t) by (apply qpow_ge; auto).
  assert (EG : gcl m g2 = (1 + ulp) * t - 1) by (unfold gcl, t; rewrite qpow_add; cbn [Qcpower]; ring).
  assert (ET := eterm_le t c (ecl m e2) P Q H1 Hc (ecl_pos m _ e2_pos) (ea_le m) HP HQ). rewrite <- EG in ET.
  set (E0 := eterm _ _ _ _ P Q) in *. set (S1 := (1 + 1) * (c * (P + Q + c)) + (1 + 1 + 1) * eta) in *.
  assert (HS1 : 0 <= S1). { unfold S1. assert (0 <= c * (P + Q + c)) by (apply qmul_pos; qlra). set (x := c * _) in *. clearbody x. qlra. }
  set (v := 1 + ulp) in *. assert (Hv : 1 <= v) by (unfold v; qlra).
  set (N := (2 ^ m)%nat) in *. set (G := v ^ N). assert (HG : 1 <= G) by (apply qpow_ge; auto). set (Gs := v ^ s). assert (HGs : 1 <= Gs) by (apply qpow_ge; auto). set (G3 := v ^ (3 * m)). assert (HG3 : 1 <= G3) by (apply qpow_ge; auto).
  set (Ks := (1 + 1) ^ s). assert (HKs : 1 <= Ks) by (apply qpow_ge; discriminate).
  set (v9 := v * v * v * (t * t)) in *.
  assert (H9 : 1 <= v9). { assert (X : v9 = v ^ (3 + ((m + 3) + (m + 3)))) by (unfold v9, t; rewrite !qpow_add; cbn [Qcpower]; ring). rewrite X. apply qpow_ge; auto. }
  assert (EV : v ^ (N + 5 * m + s + 14) = G * G3 * Gs * (v9 * (v * v * v * v * v))).
  { unfold G, G3, Gs, v9, t. replace (N + 5 * m + s + 14)%nat with (N + 3 * m + s + (m + 3) + (m + 3) + 8)%nat by lia. rewrite !qpow_add. cbn [Qcpower]. ring. }
  unfold fast_product_error. fold K N v. rewrite (qpow_add (1 + 1) m s). fold K Ks. rewrite EV.
  change (Q2Qc (inject_Z 10)) with (zq 10). change (Q2Qc (inject_Z 5)) with (zq 5). change (Q2Qc (inject_Z (3 * Z.of_nat m + 4))) with (zq (3 * Z.of_nat m + 4)). rewrite zq_add. replace (zq 4) with (1 + 1 + 1 + 1) by (apply Qc_is_canon; reflexivity).
  replace (zq 10) with (five + five) by (apply Qc_is_canon; reflexivity). replace (zq 5) with five by (apply Qc_is_canon; reflexivity). change (five * K * eta) with c.
  apply Qcplus_le_compat.
  - unfold igain, gcl at 1, gsum, gterm. fold v G G3 Gs. rewrite EG. match goal with |- ?a <= ?b => replace b with a; [apply Qcle_refl|] end. unfold v9. ring.
  - unfold ieta, ecl at 1, esum. fold v G G3 Gs Ks. assert (EK : zq (Z.of_nat N) = K) by apply zq_pow2. rewrite EK. clear EK. assert (HM : 0 <= zq (3 * Z.of_nat m)) by (apply zq_pos; lia). set (M := zq (3 * Z.of_nat m)) in *.
    clear EG EV. clearbody M G G3 Gs Ks. clearbody E0.
    (* esum *)
    assert (Hv9 : 0 <= v9 - 1) by qlra.
    assert (L1 : K * (G * (E0 + eta)) <= K * G * v9 * (S1 + eta)).
    { apply qle_diff. assert (X : 0 <= K * G * (v9 * S1 - E0)) by (repeat (apply qmul_pos; try qlra)). assert (Y : 0 <= K * G * ((v9 - 1) * eta)) by (repeat (apply qmul_pos; try qlra)).
      replace (K * G * v9 * (S1 + eta) - K * (G * (E0 + eta))) with (K * G * (v9 * S1 - E0) + K * G * ((v9 - 1) * eta)) by ring. set (x := _ * (v9 * S1 - E0)) in *. set (y := _ * ((v9 - 1) * eta)) in *. clearbody x y. qlra. }
    set (E1 := K * (G * (E0 + eta))) in *. clearbody E1.
    assert (HKG : 1 <= K * G * v9).
    { assert (X : 1 <= K * G). { assert (0 <= (K - 1) * G) by (apply qmul_pos; qlra). replace (K * G) with ((K - 1) * G + G) by ring. set (x := _ * G) in *. clearbody x. qlra. }
      set (y := K * G) in *. clearbody y. assert (0 <= (y - 1) * v9) by (apply qmul_pos; qlra). replace (y * v9) with ((y - 1) * v9 + v9) by ring. set (x := _ * v9) in *. clearbody x. qlra. }
    set (B := K * G * v9) in *.
    assert (L2 : Ks * Gs * (E1 + eta) - eta <= Ks * Gs * (B * (S1 + (1 + 1) * eta))).
    { apply qle_diff. assert (X : 0 <= Ks * Gs * (B * (S1 + eta) - E1)) by (repeat (apply qmul_pos; try qlra)). assert (Y : 0 <= Ks * Gs * ((B - 1) * eta)) by (repeat (apply qmul_pos; try qlra)).
      replace (Ks * Gs * (B * (S1 + (1 + 1) * eta)) - (Ks * Gs * (E1 + eta) - eta)) with (Ks * Gs * (B * (S1 + eta) - E1) + Ks * Gs * ((B - 1) * eta) + eta) by ring. set (x := _ * (B * _ - E1)) in *. set (y := _ * ((B - 1) * eta)) in *. clearbody x y. qlra. }
    set (E2 := Ks * Gs * (E1 + eta) - eta) in *. clearbody E2.
    (* transform back and phases *)
    assert (HB2 : 1 <= Gs * (G * v9)).
    { assert (X : 1 <= G * v9). { assert (0 <= (G - 1) * v9) by (apply qmul_pos; qlra). replace (G * v9) with ((G - 1) * v9 + v9) by ring. set (x := _ * v9) in *. clearbody x. qlra. }
      set (y := G * v9) in *. clearbody y. assert (0 <= (Gs - 1) * y) by (apply qmul_pos; qlra). replace (Gs * y) with ((Gs - 1) * y + y) by ring. set (x := _ * y) in *. clearbody x. qlra. }
    set (A := Gs * (G * v9)) in *.
    assert (HA3 : 1 <= G3 * A). { assert (0 <= (G3 - 1) * A) by (apply qmul_pos; qlra). replace (G3 * A) with ((G3 - 1) * A + A) by ring. set (x := _ * A) in *. clearbody x. qlra. }
    set (S2 := Ks * K * (S1 + (1 + 1) * eta)).
    assert (HS2 : 0 <= S2) by (unfold S2; repeat (apply qmul_pos; try qlra)).
    assert (L3 : G3 * (E2 + M * eta) <= G3 * A * (S2 + M * eta)).
    { apply qle_diff. assert (EA : A * S2 = Ks * Gs * (B * (S1 + (1 + 1) * eta))) by (unfold A, B, S2; ring). rewrite <- EA in L2.
      assert (X : 0 <= G3 * (A * S2 - E2)) by (apply qmul_pos; [qlra|]; set (x := A * S2) in *; clearbody x; qlra). assert (Y : 0 <= G3 * ((A - 1) * (M * eta))) by (repeat (apply qmul_pos; try qlra)).
      replace (G3 * A * (S2 + M * eta) - G3 * (E2 + M * eta)) with (G3 * (A * S2 - E2) + G3 * ((A - 1) * (M * eta))) by ring. set (x := _ * (A * S2 - E2)) in *. set (y := _ * (_ * (M * eta))) in *. clearbody x y. qlra. }
    set (E3 := G3 * (E2 + M * eta)) in *. clearbody E3. set (D := G3 * A) in *.
    assert (HMe : 0 <= M * eta) by (apply qmul_pos; auto).
    assert (L4 : v * v * (v * v * E3 + (v + 1) * eta) + (v + 1) * eta <= v * v * v * v * v * D * (S2 + M * eta + (1 + 1 + 1 + 1) * eta)).
    { set (S3 := S2 + M * eta) in *. assert (HS3 : 0 <= S3) by (unfold S3; set (x := M * eta) in *; clearbody x; qlra). clearbody S3. clear - Hu Ht HA3 L3 HS3. subst v. set (u := ulp) in *. clearbody u D. set (w := 1 + u).
      assert (Hw : 1 <= w) by (unfold w; qlra). 
      assert (P1 : 1 <= w * w). { assert (0 <= (w - 1) * w) by (apply qmul_pos; qlra). replace (w * w) with ((w - 1) * w + w) by ring. set (x := _ * w) in *. clearbody x. qlra. }
      assert (P2 : w * w <= w * w * w). { apply qle_diff. replace (w * w * w - w * w) with (w * w * (w - 1)) by ring. apply qmul_pos; qlra. }
      assert (P2' : w <= w * w). { apply qle_diff. replace (w * w - w) with (w * (w - 1)) by ring. apply qmul_pos; qlra. }
      assert (P4 : w * w * w <= w * w * w * w). { apply qle_diff. replace (w * w * w * w - w * w * w) with (w * w * w * (w - 1)) by ring. apply qmul_pos; qlra. }
      assert (P5 : w * w * w * w <= w * w * w * w * w). { apply qle_diff. replace (w * w * w * w * w - w * w * w * w) with (w * w * w * w * (w - 1)) by ring. apply qmul_pos; qlra. }
      assert (Q1 : 0 <= w * w * w * w * (D * S3 - E3)) by (apply qmul_pos; qlra).
      assert (Q2 : 0 <= (w * w * w * w * w - w * w * w * w) * (D * S3)) by (apply qmul_pos; [qlra|apply qmul_pos; qlra]).
      assert (Q3 : 0 <= w * w * w * w * w * ((D - 1) * ((1 + 1 + 1 + 1) * eta))) by (apply qmul_pos; [qlra|apply qmul_pos; qlra]).
      assert (Q4 : 0 <= eta * ((1 + 1 + 1 + 1) * (w * w * w * w * w) - w * w * w - w * w - w - 1)) by (apply qmul_pos; qlra).
      apply qle_diff. match goal with |- 0 <= ?x => replace x with (w * w * w * w * (D * S3 - E3) + (w * w * w * w * w - w * w * w * w) * (D * S3) + w * w * w * w * w * ((D - 1) * ((1 + 1 + 1 + 1) * eta)) + eta * ((1 + 1 + 1 + 1) * (w * w * w * w * w) - w * w * w - w * w - w - 1)) by ring end.
      set (x1 := w * w * w * w * (D * S3 - E3)) in *. set (x2 := _ * (D * S3)) in *. set (x3 := _ * ((D - 1) * _)) in *. set (x4 := eta * _) in *. clearbody x1 x2 x3 x4. qlra. }
    eapply Qcle_trans; [exact L4|]. match goal with |- ?a <= ?b => replace b with a; [apply Qcle_refl|] end.
    unfold D, A, S2, S1, v9, c. ring.
Qed.
End Tr.
