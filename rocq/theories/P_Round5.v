(** Rounding errors of the transforms. *)
From Verif Require Export Spec_FRound P_Round3 P_FTotal.
From Coq Require Import QArith Lqa Lia.
Local Open Scope Qc_scope.

(** ** Inequalities *)

(** One rounded sum of two approximate terms. *)
Lemma sum_step (u e g k A D Wa Wd a d s : Qc) : 0 <= u -> 0 <= g -> 0 <= k ->
  Qcabs (a - A) <= g * Wa + k -> Qcabs A <= Wa -> Qcabs (d - D) <= g * Wd + k -> Qcabs D <= Wd ->
  Qcabs (s - (a + d)) <= u * Qcabs (a + d) + e ->
  Qcabs (s - (A + D)) <= ((1 + u) * (1 + g) - 1) * (Wa + Wd) + (1 + u) * ((1 + 1) * k) + e.
Proof.
  intros Hu Hg Hk H1 H2 H3 H4 H5.
  assert (A1 : Qcabs (a + d) <= Wa + Wd + (g * Wa + k) + (g * Wd + k)).
  { replace (a + d) with ((A + D) + ((a - A) + (d - D))) by ring.
    eapply Qcle_trans; [apply Qcabs_triangle|]. pose proof (Qcabs_triangle A D). pose proof (Qcabs_triangle (a - A) (d - D)). qlra. }
  assert (A2 := qmul_le _ _ u Hu A1).
  assert (A3 : Qcabs (s - (A + D)) <= Qcabs (s - (a + d)) + (Qcabs (a - A) + Qcabs (d - D))).
  { replace (s - (A + D)) with ((s - (a + d)) + ((a - A) + (d - D))) by ring.
    eapply Qcle_trans; [apply Qcabs_triangle|]. pose proof (Qcabs_triangle (a - A) (d - D)). qlra. }
  replace (((1 + u) * (1 + g) - 1) * (Wa + Wd) + (1 + u) * ((1 + 1) * k) + e)
    with (u * (Wa + Wd + (g * Wa + k) + (g * Wd + k)) + e + (g * Wa + k) + (g * Wd + k)) by ring.
  clear A1 Hu Hg Hk H2 H4. set (X := u * (_ + _)) in *. set (Y := u * Qcabs (a + d)) in *. set (P := g * Wa) in *. set (Q := g * Wd) in *.
  clearbody X Y P Q. qlra.
Qed.

(** A second rounding on top of an approximation. *)
Lemma twice_step (u e p q r : Qc) : 0 <= u -> Qcabs (p - q) <= u * Qcabs q + e -> Qcabs (r - p) <= u * Qcabs p + e ->
  Qcabs (r - q) <= ((1 + u) * (1 + u) - 1) * Qcabs q + ((1 + u) + 1) * e.
Proof.
  intros Hu H1 H2.
  assert (A1 : Qcabs p <= Qcabs q + (u * Qcabs q + e)).
  { replace p with (q + (p - q)) by ring. eapply Qcle_trans; [apply Qcabs_triangle|]. replace (q + (p - q) - q) with (p - q) by ring. set (Y := u * Qcabs q) in *. clearbody Y. qlra. }
  assert (A2 := qmul_le _ _ u Hu A1).
  assert (A3 : Qcabs (r - q) <= Qcabs (r - p) + Qcabs (p - q)).
  { replace (r - q) with ((r - p) + (p - q)) by ring. apply Qcabs_triangle. }
  replace (((1 + u) * (1 + u) - 1) * Qcabs q + ((1 + u) + 1) * e) with (u * (Qcabs q + (u * Qcabs q + e)) + e + (u * Qcabs q + e)) by ring.
  clear A1 Hu. set (X := u * (_ + _)) in *. set (Y := u * Qcabs p) in *. set (Z := u * Qcabs q) in *. clearbody X Y Z. qlra.
Qed.

(** Doubling and division by four. *)
Lemma half_step (u e a p q : Qc) : 0 <= u -> 0 <= e -> Qcabs (p - a * (1 + 1)) <= u * Qcabs (a * (1 + 1)) + e ->
  Qcabs (q - p / ((1 + 1) * (1 + 1))) <= u * Qcabs (p / ((1 + 1) * (1 + 1))) + e ->
  Qcabs (q - a / (1 + 1)) <= ((1 + u) * (1 + u) - 1) * Qcabs (a / (1 + 1)) + ((1 + u) + 1) * e.
Proof.
  intros Hu He H1 H2. set (f := (1 + 1) * (1 + 1)) in *.
  assert (Hf : a * (1 + 1) / f = a / (1 + 1)) by (unfold f; field; repeat split; intros E; discriminate E).
  assert (Af : Qcabs (/ f) <= 1) by (unfold f; intros E; vm_compute in E; discriminate E).
  assert (Af0 : 0 <= Qcabs (/ f)) by apply Qcabs_nonneg.
  apply (twice_step u e (p / f) (a / (1 + 1)) q Hu); [|exact H2].
  rewrite <- Hf. unfold Qcdiv. replace (p * / f - a * (1 + 1) * / f) with ((p - a * (1 + 1)) * / f) by ring.
  rewrite Qcabs_Qcmult, (Qcabs_Qcmult (a * (1 + 1))).
  eapply Qcle_trans; [apply (Qcmult_le_compat_r _ _ _ H1 Af0)|].
  assert (A1 := qmul_le _ _ e He Af). set (X := Qcabs (/ f)) in *. set (Y := Qcabs (a * (1 + 1))) in *.
  replace ((u * Y + e) * X) with (u * (Y * X) + e * X) by ring. set (Z := u * (Y * X)). set (P := e * X) in *. clearbody Z P. qlra.
Qed.

Definition zq (z : Z) : Qc := Q2Qc (inject_Z z).
Lemma zq_add a b : zq (a + b) = zq a + zq b.
Proof. apply Qc_is_canon. unfold zq, Qcplus. cbn [this Q2Qc]. rewrite !Qred_correct. rewrite inject_Z_plus. reflexivity. Qed.
Lemma zq_pos a : (0 <= a)%Z -> 0 <= zq a.
Proof. intros H. unfold Qcle, zq, Q2Qc. cbn [this]. rewrite !Qred_correct. change (inject_Z 0 <= inject_Z a)%Q. rewrite <- Zle_Qle. exact H. Qed.
Lemma zq_step m : zq (3 * Z.of_nat (S m)) = zq (3 * Z.of_nat m) + (1 + 1 + 1).
Proof. replace (3 * Z.of_nat (S m))%Z with (3 * Z.of_nat m + 3)%Z by lia. rewrite zq_add. reflexivity. Qed.

Lemma eta_step (u e G : Qc) : 0 <= u -> 0 <= e -> 1 <= G ->
  (1 + u) * (1 + u) * (e / (1 + 1)) + ((1 + u) + 1) * e <= (1 + u) * (1 + u) * (1 + u) * G * ((1 + 1 + 1) * e).
Proof.
  intros Hu He HG.
  assert (U1 : 0 <= (1 + u) * (1 + u) * (1 + u) * ((G - 1) * ((1 + 1 + 1) * e))) by (repeat (apply qmul_pos; try qlra)).
  assert (U2 : 0 <= u * e) by (apply qmul_pos; auto).
  assert (U3 : 0 <= u * (u * e)) by (apply qmul_pos; auto).
  assert (U4 : 0 <= u * (u * (u * e))) by (apply qmul_pos; auto).
  set (Z := (1 + u) * (1 + u) * (1 + u) * ((G - 1) * ((1 + 1 + 1) * e))) in *.
  assert (U5 : (1 + u) * (1 + u) * (1 + u) * G * ((1 + 1 + 1) * e) = Z + (1 + 1 + 1) * (e + (1 + 1 + 1) * (u * e) + (1 + 1 + 1) * (u * (u * e)) + u * (u * (u * e)))) by (unfold Z; ring).
  rewrite U5. set (e2 := e / (1 + 1)). assert (U6 : e = e2 + e2) by (unfold e2; field; discriminate).
  set (v1 := u * e) in *. set (v2 := u * v1) in *. set (v3 := u * v2) in *.
  assert (U7 : (1 + u) * (1 + u) * e2 + ((1 + u) + 1) * e = e2 + (u * (e2 + e2)) + u * (u * e2) + (1 + 1) * e + v1) by (unfold v1; ring).
  rewrite U7, <- U6. fold v1. assert (U8 : u * (u * e2) + u * (u * e2) = v2) by (unfold v2, v1; rewrite U6; ring).
  assert (P2 : 0 <= e2) by (apply qmul_pos; [exact He|discriminate]).
  assert (P4 : 0 <= u * (u * e2)) by (repeat (apply qmul_pos; auto)). set (v4 := u * (u * e2)) in *.
  assert (L1 : e2 <= e) by (rewrite U6; clear - P2; clearbody e2; qlra).
  assert (L2 : v4 <= v2) by (rewrite <- U8; clear - P4; clearbody v4; qlra).
  clear U5 U6 U7 U8. clearbody Z v1 v2 v3 v4 e2. qlra.
Qed.

Section Tr.
Context {F : Type} {RF : RingOps F} {DF : DivOps F} {V : RoundOps F} {RL : RoundLaws F} {W : NumLaws F}.
Local Notation C := (cplx F).
Local Notation CQ := (cplx Qc).
Implicit Types (z : C) (w : CQ).

(** ** Forward transform of real coefficients *)

Lemma sgb_val b (a : F) : val (sgb b a) = sgb b (val a) /\ finite (sgb b a) = finite a.
Proof. destruct b; [apply ro_neg|auto]. Qed.
Lemma sgb_abs b (a c : Qc) : Qcabs (sgb b a - sgb b c) = Qcabs (a - c).
Proof. destruct b; [|reflexivity]. cbn [sgb]. change (@rneg Qc QcOps) with Qcopp. replace (- a - - c) with (- (a - c)) by ring. apply Qcabs_opp. Qed.
Lemma sgb_abs1 b (a : Qc) : Qcabs (sgb b a) = Qcabs a.
Proof. destruct b; [|reflexivity]. apply Qcabs_opp. Qed.

Lemma cl_parts m (x : N -> F) : (forall i j, (i < pow2 (S m))%N -> (j < pow2 (S m))%N -> finite (cl (S m) x i j) = true) ->
  forall i j, (i < pow2 m)%N -> (j < pow2 m)%N ->
  finite (cl m x i j) = true /\ finite (cl m (up (2 * m) x) i j) = true /\
  finite (cl m (up (S (2 * m)) x) i j) = true /\ finite (cl m (up (2 * m) (up (S (2 * m)) x)) i j) = true.
Proof.
  intros H i j Hi Hj.
  assert (H0 := H i j (low_lt m i Hi) (low_lt m j Hj)). assert (H1 := H (pow2 m + i)%N j (high_lt m i Hi) (low_lt m j Hj)).
  cbn [cl] in H0, H1. rewrite blk_00 in H0 by auto. rewrite blk_10 in H1 by auto. unfold madd, msub in *.
  apply ro_add in H0. apply ro_sub in H1. tauto.
Qed.
Lemma cl_finite m : forall x : N -> F, (forall i j, (i < pow2 m)%N -> (j < pow2 m)%N -> finite (cl m x i j) = true) ->
  forall t, (t < pow2 (2 * m))%N -> finite (x t) = true.
Proof.
  induction m as [|m IH]; intros x H t Ht.
  - cbn in Ht. assert (t = 0%N) as -> by lia. apply (H 0%N 0%N); reflexivity.
  - pose proof (cl_parts m x H) as P. rewrite two_S in Ht. apply split_4 in Ht as (s & Hs & [-> | [-> | [-> | -> ]]]).
    + apply (IH x); auto. intros. apply P; auto.
    + apply (IH (up (2 * m) x)); auto. intros. apply P; auto.
    + apply (IH (up (S (2 * m)) x)); auto. intros. apply P; auto.
    + apply (IH (up (2 * m) (up (S (2 * m)) x))); auto. intros. apply P; auto.
Qed.

Lemma cl_near g e : 0 <= g -> 0 <= e -> forall m (x : N -> F) (y w : N -> Qc),
  (forall t, (t < pow2 (2 * m))%N -> Qcabs (y t) <= w t /\ Qcabs (val (x t) - y t) <= g * w t + e) ->
  (forall i j, (i < pow2 m)%N -> (j < pow2 m)%N -> finite (cl m x i j) = true) ->
  forall i j, (i < pow2 m)%N -> (j < pow2 m)%N ->
  Qcabs (cl m y i j) <= sumI (2 * m) w /\
  Qcabs (val (cl m x i j) - cl m y i j) <= ((1 + ulp) ^ m * (1 + g) - 1) * sumI (2 * m) w + ((1 + 1) ^ m * (1 + ulp) ^ m * (e + eta) - eta).
Proof.
  intros Hg He. pose proof ro_u as Hu. pose proof ro_eta as Ht. induction m as [|m IH]; intros x y w H HF i j Hi Hj.
  - cbn [cl]. change (2 * 0)%nat with 0%nat. rewrite sumI_O. destruct (H 0%N eq_refl) as [H1 H2]. split; [exact H1|].
    eapply Qcle_trans; [exact H2|]. cbn [Qcpower]. replace ((1 * (1 + g) - 1) * w 0%N + (1 * 1 * (e + eta) - eta)) with (g * w 0%N + e) by ring. apply Qcle_refl.
  - pose proof (cl_parts m x HF) as P.
    rewrite two_S in *. set (n := (2 * m)%nat) in *.
    assert (Q0 : forall t, (t < pow2 n)%N -> Qcabs (y t) <= w t /\ Qcabs (val (x t) - y t) <= g * w t + e) by (intros; apply H, low_lt, low_lt; auto).
    assert (Q1 : forall t, (t < pow2 n)%N -> Qcabs (up n y t) <= up n w t /\ Qcabs (val (up n x t) - up n y t) <= g * up n w t + e) by (intros; apply H, low_lt, high_lt; auto).
    assert (Q2 : forall t, (t < pow2 n)%N -> Qcabs (up (S n) y t) <= up (S n) w t /\ Qcabs (val (up (S n) x t) - up (S n) y t) <= g * up (S n) w t + e) by (intros; apply H, high_lt, low_lt; auto).
    assert (Q3 : forall t, (t < pow2 n)%N -> Qcabs (up n (up (S n) y) t) <= up n (up (S n) w) t /\ Qcabs (val (up n (up (S n) x) t) - up n (up (S n) y) t) <= g * up n (up (S n) w) t + e) by (intros; apply H, high_lt, high_lt; auto).
    assert (I0 := IH x y w Q0 ltac:(intros; apply P; auto)).
    assert (I1 := IH _ _ _ Q1 ltac:(intros; apply P; auto)).
    assert (I2 := IH _ _ _ Q2 ltac:(intros; apply P; auto)).
    assert (I3 := IH _ _ _ Q3 ltac:(intros; apply P; auto)).
    clear IH Q0 Q1 Q2 Q3 H.
    rewrite !sumI_S. change (@radd Qc QcOps) with Qcplus.
    change (sumI n (fun i => w (pow2 n + i)%N)) with (sumI n (up n w)). change (sumI n (fun i => w (pow2 (S n) + i)%N)) with (sumI n (up (S n) w)).
    change (sumI n (fun i => w (pow2 (S n) + (pow2 n + i))%N)) with (sumI n (up n (up (S n) w))).
    set (w0 := sumI n w) in *. set (w1 := sumI n (up n w)) in *. set (w2 := sumI n (up (S n) w)) in *. set (w3 := sumI n (up n (up (S n) w))) in *. clearbody w0 w1 w2 w3.
    pose proof (qpow_ge ulp m Hu) as HG. set (G := (1 + ulp) ^ m) in *.
    assert (HH : 1 <= (1 + 1) ^ m) by (apply qpow_ge; discriminate). set (K := (1 + 1) ^ m) in *.
    assert (EK : (1 + 1) ^ S m = (1 + 1) * K) by reflexivity. assert (EG : (1 + ulp) ^ S m = (1 + ulp) * G) by reflexivity. rewrite EK, EG. clear EK EG.
    clearbody G K.
    assert (Hge : 0 <= G * (1 + g) - 1).
    { assert (0 <= (G - 1) * (1 + g)) by (apply qmul_pos; qlra). set (X := (G - 1) * (1 + g)) in *. assert (G * (1 + g) - 1 = X + g) by (unfold X; ring). rewrite H0. clearbody X. qlra. }
    assert (Hk : 0 <= K * G * (e + eta) - eta).
    { assert (0 <= (K * G - 1) * (e + eta)).
      { apply qmul_pos; [|qlra]. assert (0 <= (K - 1) * G) by (apply qmul_pos; qlra). replace (K * G - 1) with ((K - 1) * G + (G - 1)) by ring. set (X := (K - 1) * G) in *. clearbody X. qlra. }
      replace (K * G * (e + eta) - eta) with ((K * G - 1) * (e + eta) + e) by ring. set (X := (K * G - 1) * _) in *. clearbody X. qlra. }
    assert (STEP : forall (a d s : F) (A D wa wd wr : Qc), Qcabs A <= wa /\ Qcabs (val a - A) <= (G * (1 + g) - 1) * wa + (K * G * (e + eta) - eta) ->
      Qcabs D <= wd /\ Qcabs (val d - D) <= (G * (1 + g) - 1) * wd + (K * G * (e + eta) - eta) -> 0 <= wr ->
      (rounds (val s) (val a + val d) -> Qcabs (A + D) <= wa + wd + wr /\ Qcabs (val s - (A + D)) <= ((1 + ulp) * G * (1 + g) - 1) * (wa + wd + wr) + ((1 + 1) * K * ((1 + ulp) * G) * (e + eta) - eta)) /\
      (rounds (val s) (val a - val d) -> Qcabs (A - D) <= wa + wd + wr /\ Qcabs (val s - (A - D)) <= ((1 + ulp) * G * (1 + g) - 1) * (wa + wd + wr) + ((1 + 1) * K * ((1 + ulp) * G) * (e + eta) - eta))).
    { intros a d s A D wa wd wr [A1 A2] [D1 D2] Hr.
      assert (Hmono : 0 <= ((1 + ulp) * G * (1 + g) - 1) * wr).
      { apply qmul_pos; auto. assert (0 <= ulp * (G * (1 + g))) by (apply qmul_pos; auto; qlra).
        replace ((1 + ulp) * G * (1 + g) - 1) with (ulp * (G * (1 + g)) + (G * (1 + g) - 1)) by ring. set (X := ulp * _) in *. set (Y := G * (1 + g) - 1) in *. clearbody X Y. qlra. }
      assert (Hfin : ((1 + ulp) * (1 + (G * (1 + g) - 1)) - 1) * (wa + wd) + (1 + ulp) * ((1 + 1) * (K * G * (e + eta) - eta)) + eta
        <= ((1 + ulp) * G * (1 + g) - 1) * (wa + wd + wr) + ((1 + 1) * K * ((1 + ulp) * G) * (e + eta) - eta)).
      { assert (0 <= ulp * eta) by (apply qmul_pos; auto).
        set (X := ((1 + ulp) * G * (1 + g) - 1) * wr) in *.
        replace (((1 + ulp) * G * (1 + g) - 1) * (wa + wd + wr) + ((1 + 1) * K * ((1 + ulp) * G) * (e + eta) - eta))
          with (((1 + ulp) * (1 + (G * (1 + g) - 1)) - 1) * (wa + wd) + (1 + ulp) * ((1 + 1) * (K * G * (e + eta) - eta)) + eta + X + (1 + 1) * (ulp * eta)) by (unfold X; ring).
        set (Y := ulp * eta) in *. set (Z := ((1 + ulp) * (1 + (G * (1 + g) - 1)) - 1) * (wa + wd) + (1 + ulp) * ((1 + 1) * (K * G * (e + eta) - eta)) + eta). clearbody X Y Z. qlra. }
      split; intros R.
      - split; [pose proof (Qcabs_triangle A D); qlra|]. eapply Qcle_trans; [|exact Hfin].
        exact (sum_step ulp eta _ _ A D wa wd (val a) (val d) (val s) Hu Hge Hk A2 A1 D2 D1 R).
      - assert (D2' : Qcabs (- val d - - D) <= (G * (1 + g) - 1) * wd + (K * G * (e + eta) - eta)).
        { replace (- val d - - D) with (- (val d - D)) by ring. rewrite Qcabs_opp. exact D2. }
        assert (D1' : Qcabs (- D) <= wd) by (rewrite Qcabs_opp; exact D1).
        split; [pose proof (Qcabs_triangle A (- D)) as T1; unfold Qcminus; qlra|]. eapply Qcle_trans; [|exact Hfin].
        exact (sum_step ulp eta _ _ A (- D) wa wd (val a) (- val d) (val s) Hu Hge Hk A2 A1 D2' D1' R). }
    assert (Pw : 0 <= w0 /\ 0 <= w1 /\ 0 <= w2 /\ 0 <= w3).
    { pose proof (pow2_pos m) as Z. destruct (I0 0%N 0%N) as [Z0 _]; auto. destruct (I1 0%N 0%N) as [Z1 _]; auto. destruct (I2 0%N 0%N) as [Z2 _]; auto. destruct (I3 0%N 0%N) as [Z3 _]; auto.
      repeat split; (eapply Qcle_trans; [apply Qcabs_nonneg|eassumption]). }
    destruct Pw as (P0 & P1 & P2 & P3).
    assert (HFij := HF i j Hi Hj). cbn [cl] in *. fold n in HFij |- *.
    spl i Hi; spl j Hj; repeat first [rewrite blk_11 in * by auto | rewrite blk_10 in * by auto | rewrite blk_01 in * by auto | rewrite blk_00 in * by auto]; unfold malpha, madd, msub in *.
    + specialize (I0 i j Hi Hj). specialize (I3 i j Hi Hj). apply ro_add in HFij as (_ & _ & R).
      replace (w0 + w1 + (w2 + w3)) with (w0 + w3 + (w1 + w2)) by ring. apply (STEP _ _ _ _ _ w0 w3 (w1 + w2) I0 I3); auto. clear - P1 P2. qlra.
    + specialize (I1 i j0 Hi Hj). specialize (I2 i j0 Hi Hj). destruct (sgb_val (par (N.lxor i j0)) (radd (cl m (up n x) i j0) (cl m (up (S n) x) i j0))) as [E1 E2].
      rewrite E2 in HFij. rewrite E1. apply ro_add in HFij as (_ & _ & R). rewrite sgb_abs, sgb_abs1.
      replace (w0 + w1 + (w2 + w3)) with (w1 + w2 + (w0 + w3)) by ring. apply (STEP _ _ _ _ _ w1 w2 (w0 + w3) I1 I2); auto. clear - P0 P3. qlra.
    + specialize (I1 i0 j Hi Hj). specialize (I2 i0 j Hi Hj). apply ro_sub in HFij as (_ & _ & R).
      replace (w0 + w1 + (w2 + w3)) with (w1 + w2 + (w0 + w3)) by ring. apply (STEP _ _ _ _ _ w1 w2 (w0 + w3) I1 I2); auto. clear - P0 P3. qlra.
    + specialize (I0 i0 j0 Hi Hj). specialize (I3 i0 j0 Hi Hj). destruct (sgb_val (par (N.lxor i0 j0)) (rsub (cl m x i0 j0) (cl m (up n (up (S n) x)) i0 j0))) as [E1 E2].
      rewrite E2 in HFij. rewrite E1. apply ro_sub in HFij as (_ & _ & R). rewrite sgb_abs, sgb_abs1.
      replace (w0 + w1 + (w2 + w3)) with (w0 + w3 + (w1 + w2)) by ring. apply (STEP _ _ _ _ _ w0 w3 (w1 + w2) I0 I3); auto. clear - P1 P2. qlra.
Qed.

(** ** Complex numbers *)

Lemma cl_re {G} {RG : RingOps G} m : forall (x : N -> cplx G) i j, c_re (cl m x i j) = cl m (fun t => c_re (x t)) i j /\ c_im (cl m x i j) = cl m (fun t => c_im (x t)) i j.
Proof.
  induction m as [|m IH]; intros x i j; cbn [cl]; auto.
  unfold blk, malpha, madd, msub, up in *. destruct (i <? pow2 m)%N, (j <? pow2 m)%N; unfold sgb; try destruct (par _); cbn [radd rsub rneg c_re c_im CplxOps]; rewrite ?(proj1 (IH _ _ _)), ?(proj2 (IH _ _ _)); auto.
Qed.

Local Notation two := (radd r1 r1).
Local Notation eq1 := ((1 + ulp) * (1 + ulp) - 1).
Local Notation ee := (((1 + ulp) + 1) * eta).

Lemma add_r0 (a : F) : radd a r0 = a.
Proof. rewrite n_add_comm. apply n_add_0_l. Qed.
Lemma sub_r0 (a : F) : rsub a r0 = a.
Proof. rewrite n_sub_def, n_neg_0. apply add_r0. Qed.

(** Halving. *)
Lemma chalf z : cfinite (rdiv z two) = true ->
  cfinite z = true /\
  Qcabs (val (c_re (rdiv z two)) - val (c_re z) / (1 + 1)) <= eq1 * Qcabs (val (c_re z) / (1 + 1)) + ee /\
  Qcabs (val (c_im (rdiv z two)) - val (c_im z) / (1 + 1)) <= eq1 * Qcabs (val (c_im z) / (1 + 1)) + ee.
Proof.
  destruct z as [a b]. unfold cfinite. cbn [rdiv CplxDiv radd CplxOps c_re c_im r1 r0]. rewrite n_add_0_l.
  destruct ro_0 as [_ F0]. destruct (ro_mul_0 r0 F0) as [-> _]. rewrite add_r0.
  destruct ro_1 as (_ & E2 & E4). pose proof ro_4 as F4. set (t := radd r1 r1) in *. set (f := rmul t t) in *.
  assert (N4 : val f <> 0) by (rewrite E4; discriminate).
  intros H. apply Bool.andb_true_iff in H as [H1 H2].
  apply (ro_div _ _ F4 N4) in H1 as G1. apply (ro_div _ _ F4 N4) in H2 as G2. destruct G1 as [G1 R1], G2 as [G2 R2].
  apply ro_add in G1 as K1. destruct K1 as (K1 & K2 & _). apply ro_mul in K1 as (K1 & _ & _). apply ro_mul in K2 as (K2 & _ & _).
  assert (Za := proj1 (ro_mul_0 a K1)). assert (Zb := proj1 (ro_mul_0 b K2)). rewrite Za, Zb, ?add_r0, ?sub_r0 in *.
  split; [rewrite K1, K2; reflexivity|]. apply ro_mul in G1 as (_ & _ & M1). apply ro_mul in G2 as (_ & _ & M2). rewrite E4 in *. rewrite E2 in *.
  split; eapply half_step; eauto using ro_u, ro_eta.
Qed.
Lemma chalf_q (w : CQ) : rdiv w two = mkC (c_re w / (1 + 1)) (c_im w / (1 + 1)).
Proof.
  destruct w as [a b]. apply cplx_ext; cbn [rdiv CplxDiv radd rsub rmul CplxOps c_re c_im r1 r0 QcOps QcDiv]; field; repeat split; intros E; discriminate E.
Qed.

(** ** Transform back *)

Lemma cfin_add z z' : cfinite (radd z z') = true -> cfinite z = true /\ cfinite z' = true.
Proof.
  destruct z as [p1 p2], z' as [q1 q2]. unfold cfinite. cbn [radd CplxOps c_re c_im]. rewrite !Bool.andb_true_iff. intros [R1 R2]. apply ro_add in R1. apply ro_add in R2. tauto.
Qed.
Lemma cfin_sgb b z : cfinite (sgb b z) = cfinite z.
Proof. destruct b, z as [p1 p2]; unfold cfinite; cbn [sgb rneg CplxOps c_re c_im]; [rewrite (proj2 (ro_neg p1)), (proj2 (ro_neg p2))|]; reflexivity. Qed.

(** Finiteness of the first half is enough for that of everything before the last step. *)
Lemma icl_parts m (X : N -> N -> C) : (forall t, (t < pow2 (S (2 * m)))%N -> cfinite (icl (S m) X t) = true) ->
  forall t, (t < pow2 (2 * m))%N -> cfinite (icl m X t) = true /\ cfinite (icl m (fun i j => X i (pow2 m + j)%N) t) = true /\
    cfinite (icl m (fun i j => X (pow2 m + i)%N j) t) = true /\ cfinite (icl m (fun i j => X (pow2 m + i)%N (pow2 m + j)%N) t) = true.
Proof.
  intros HF s Hs. cbn [icl] in HF. set (n := (2 * m)%nat) in *.
  assert (H0 := HF s (low_lt _ _ Hs)). rewrite qsel_0 in H0 by auto. apply chalf, proj1, cfin_add in H0. unfold alpha in H0. rewrite cfin_sgb in H0.
  assert (H1 := HF _ (high_lt _ _ Hs)). rewrite qsel_1 in H1 by auto. apply chalf, proj1, cfin_add in H1. unfold alpha in H1. rewrite cfin_sgb in H1. tauto.
Qed.
Lemma icl_finite m : forall X : N -> N -> C, (forall t, (t < pow2 (2 * m))%N -> cfinite (icl m X t) = true) ->
  forall i j, (i < pow2 m)%N -> (j < pow2 m)%N -> cfinite (X i j) = true.
Proof.
  induction m as [|m IH]; intros X H i j Hi Hj.
  - cbn in Hi, Hj. assert (i = 0%N) as -> by lia. assert (j = 0%N) as -> by lia. apply (H 0%N). reflexivity.
  - rewrite two_S in H. assert (P := icl_parts m X ltac:(intros; apply H, low_lt; auto)).
    spl i Hi; spl j Hj.
    + apply (IH X); auto. intros; apply P; auto.
    + apply (IH (fun i j => X i (pow2 m + j)%N)); auto. intros; apply P; auto.
    + apply (IH (fun i j => X (pow2 m + i)%N j)); auto. intros; apply P; auto.
    + apply (IH (fun i j => X (pow2 m + i)%N (pow2 m + j)%N)); auto. intros; apply P; auto.
Qed.

(** z is w up to g B + e, and w is at most B. *)
Definition napp (g B e : Qc) (z : C) (w : CQ) : Prop := Qcabs (c_re w) <= B /\ Qcabs (c_im w) <= B /\ cwithin (g * B + e) z w.
Definition igain (m : nat) (g : Qc) : Qc := (1 + ulp) ^ (3 * m) * (1 + g) - 1.
Definition ieta (m : nat) (e : Qc) : Qc := (1 + ulp) ^ (3 * m) * (e + zq (3 * Z.of_nat m) * eta).

Lemma icl_step g e m (X : N -> N -> C) (Y : N -> N -> CQ) B : 0 <= g -> 0 <= e -> 0 <= B ->
  (forall t, (t < pow2 (2 * m))%N -> napp (igain m g) B (ieta m e) (icl m X t) (icl m Y t)) ->
  (forall t, (t < pow2 (2 * m))%N -> napp (igain m g) B (ieta m e) (icl m (fun i j => X i (pow2 m + j)%N) t) (icl m (fun i j => Y i (pow2 m + j)%N) t)) ->
  (forall t, (t < pow2 (2 * m))%N -> napp (igain m g) B (ieta m e) (icl m (fun i j => X (pow2 m + i)%N j) t) (icl m (fun i j => Y (pow2 m + i)%N j) t)) ->
  (forall t, (t < pow2 (2 * m))%N -> napp (igain m g) B (ieta m e) (icl m (fun i j => X (pow2 m + i)%N (pow2 m + j)%N) t) (icl m (fun i j => Y (pow2 m + i)%N (pow2 m + j)%N) t)) ->
  forall t, (t < pow2 (2 * S m))%N -> cfinite (icl (S m) X t) = true ->
  napp (igain (S m) g) B (ieta (S m) e) (icl (S m) X t) (icl (S m) Y t).
Proof.
  intros Hg He HB A B' C' D' t Htt HF. pose proof ro_u as Hu. pose proof ro_eta as Ht.
  rewrite two_S in *. set (n := (2 * m)%nat) in *. cbn [icl] in *. fold n in HF |- *.
    set (xa := icl m X) in *. set (xb := icl m (fun i j => X i (pow2 m + j)%N)) in *. set (xc := icl m (fun i j => X (pow2 m + i)%N j)) in *. set (xd := icl m (fun i j => X (pow2 m + i)%N (pow2 m + j)%N)) in *.
    set (ya := icl m Y) in *. set (yb := icl m (fun i j => Y i (pow2 m + j)%N)) in *. set (yc := icl m (fun i j => Y (pow2 m + i)%N j)) in *. set (yd := icl m (fun i j => Y (pow2 m + i)%N (pow2 m + j)%N)) in *.
    unfold napp, igain, ieta in *.
    pose proof (qpow_ge ulp (3 * m) Hu) as HG. set (G := (1 + ulp) ^ (3 * m)) in *.
    assert (EG : (1 + ulp) ^ (3 * S m) = (1 + ulp) * (1 + ulp) * (1 + ulp) * G).
    { replace (3 * S m)%nat with (S (S (S (3 * m)))) by lia. cbn [Qcpower]. fold G. ring. }
    rewrite EG, zq_step. clear EG. clearbody G. assert (HN : 0 <= zq (3 * Z.of_nat m)) by (apply zq_pos; lia). set (K := zq (3 * Z.of_nat m)) in *. clearbody K.
    set (E1 := (G * (1 + g) - 1)) in *. set (k := G * (e + K * eta)) in *.
    assert (HE1 : 0 <= E1).
    { unfold E1. assert (0 <= (G - 1) * (1 + g)) by (apply qmul_pos; qlra). replace (G * (1 + g) - 1) with ((G - 1) * (1 + g) + g) by ring. set (Z := (G - 1) * _) in *. clearbody Z. qlra. }
    assert (Hk : 0 <= k). { unfold k. apply qmul_pos; [qlra|]. assert (0 <= K * eta) by (apply qmul_pos; auto). set (Z := K * eta) in *. clearbody Z. qlra. }
    (* one component *)
    assert (HN1 : 0 <= ulp * B) by (apply qmul_pos; auto).
    assert (STEP : forall a d s q P Q : Qc, Qcabs P <= B -> Qcabs Q <= B -> Qcabs (a - P) <= E1 * B + k -> Qcabs (d - Q) <= E1 * B + k ->
      rounds s (a + d) -> Qcabs (q - s / (1 + 1)) <= eq1 * Qcabs (s / (1 + 1)) + ee ->
      Qcabs ((P + Q) / (1 + 1)) <= B /\
      Qcabs (q - (P + Q) / (1 + 1)) <= ((1 + ulp) * (1 + ulp) * (1 + ulp) * G * (1 + g) - 1) * B + (1 + ulp) * (1 + ulp) * (1 + ulp) * G * (e + (K + (1 + 1 + 1)) * eta)).
    { intros a d s q P Q HP HQ Ha Hd Hs Hq.
      pose proof (sum_step ulp eta E1 k P Q B B a d s Hu HE1 Hk Ha HP Hd HQ Hs) as S1.
      assert (Hh : Qcabs (/ (1 + 1)) = / (1 + 1)) by (apply Qc_is_canon; reflexivity).
      assert (Hh0 : 0 <= / (1 + 1)) by discriminate.
      assert (T1 : Qcabs (P + Q) <= B + B) by (pose proof (Qcabs_triangle P Q); qlra).
      assert (HPQ : Qcabs ((P + Q) / (1 + 1)) <= B).
      { unfold Qcdiv. rewrite Qcabs_Qcmult, Hh. replace B with ((B + B) * / (1 + 1)) by (field; discriminate). apply Qcmult_le_compat_r; auto. }
      split; [exact HPQ|].
      (* s/2 close to (P+Q)/2 *)
      assert (S2 : Qcabs (s / (1 + 1) - (P + Q) / (1 + 1)) <= ((1 + ulp) * (1 + E1) - 1) * B + (1 + ulp) * k + eta / (1 + 1)).
      { replace (s / (1 + 1) - (P + Q) / (1 + 1)) with ((s - (P + Q)) * / (1 + 1)) by (field; discriminate). rewrite Qcabs_Qcmult, Hh.
        eapply Qcle_trans; [apply (Qcmult_le_compat_r _ _ _ S1 Hh0)|]. match goal with |- ?x <= ?y => replace x with y; [apply Qcle_refl|] end. field. discriminate. }
      assert (T2 : Qcabs (s / (1 + 1)) <= B + (((1 + ulp) * (1 + E1) - 1) * B + (1 + ulp) * k + eta / (1 + 1))).
      { replace (s / (1 + 1)) with ((P + Q) / (1 + 1) + (s / (1 + 1) - (P + Q) / (1 + 1))) by ring. eapply Qcle_trans; [apply Qcabs_triangle|].
        replace ((P + Q) / (1 + 1) + (s / (1 + 1) - (P + Q) / (1 + 1)) - (P + Q) / (1 + 1)) with (s / (1 + 1) - (P + Q) / (1 + 1)) by ring.
        set (Z := ((1 + ulp) * (1 + E1) - 1) * B + (1 + ulp) * k + eta / (1 + 1)) in *. clearbody Z. clear - HPQ S2. set (x := (P + Q) / (1 + 1)) in *. set (y := s / (1 + 1)) in *. clearbody x y. qlra. }
      assert (Hq1 : 0 <= eq1) by (assert (0 <= ulp * ulp) by (apply qmul_pos; auto); replace eq1 with (ulp * ulp + ulp + ulp) by ring; set (Z := ulp * ulp) in *; clearbody Z; qlra).
      assert (T3 := qmul_le _ _ eq1 Hq1 T2).
      assert (T4 : Qcabs (q - (P + Q) / (1 + 1)) <= Qcabs (q - s / (1 + 1)) + Qcabs (s / (1 + 1) - (P + Q) / (1 + 1))).
      { replace (q - (P + Q) / (1 + 1)) with ((q - s / (1 + 1)) + (s / (1 + 1) - (P + Q) / (1 + 1))) by ring. apply Qcabs_triangle. }
      assert (FIN : eq1 * (B + (((1 + ulp) * (1 + E1) - 1) * B + (1 + ulp) * k + eta / (1 + 1))) + ee + (((1 + ulp) * (1 + E1) - 1) * B + (1 + ulp) * k + eta / (1 + 1))
        <= ((1 + ulp) * (1 + ulp) * (1 + ulp) * G * (1 + g) - 1) * B + (1 + ulp) * (1 + ulp) * (1 + ulp) * G * (e + (K + (1 + 1 + 1)) * eta)).
      { pose proof (eta_step ulp eta G Hu Ht HG) as X1.
        match goal with |- ?x <= ?y => 
          replace x with (((1 + ulp) * (1 + ulp) * (1 + ulp) * G * (1 + g) - 1) * B + (1 + ulp) * (1 + ulp) * (1 + ulp) * G * (e + K * eta) + ((1 + ulp) * (1 + ulp) * (eta / (1 + 1)) + ee)) by (unfold E1, k; ring);
          replace y with (((1 + ulp) * (1 + ulp) * (1 + ulp) * G * (1 + g) - 1) * B + (1 + ulp) * (1 + ulp) * (1 + ulp) * G * (e + K * eta) + (1 + ulp) * (1 + ulp) * (1 + ulp) * G * ((1 + 1 + 1) * eta)) by ring end.
        apply Qcplus_le_compat; [apply Qcle_refl|exact X1]. }
      eapply Qcle_trans; [exact T4|]. eapply Qcle_trans; [|exact FIN].
      apply Qcplus_le_compat; [|exact S2]. eapply Qcle_trans; [exact Hq|]. apply Qcplus_le_compat; [exact T3|apply Qcle_refl]. }
    assert (AL : forall (x : N -> C) (y : N -> CQ) s, alpha x s = sgb (par s) (x s) /\ alpha y s = sgb (par s) (y s)) by (intros; split; reflexivity).
    assert (SG : forall b (x : C) (y : CQ), Qcabs (c_re y) <= B /\ Qcabs (c_im y) <= B /\ cwithin (E1 * B + k) x y ->
      Qcabs (c_re (sgb b y)) <= B /\ Qcabs (c_im (sgb b y)) <= B /\ cwithin (E1 * B + k) (sgb b x) (sgb b y)).
    { intros [|] [x1 x2] [y1 y2] (G1 & G2 & G3 & G4); [|split; [exact G1|]; split; [exact G2|split; assumption]].
      unfold cwithin in *. cbn [sgb rneg CplxOps c_re c_im QcOps] in *. rewrite !Qcabs_opp, (proj1 (ro_neg x1)), (proj1 (ro_neg x2)).
      replace (- val x1 - - y1) with (- (val x1 - y1)) by ring. replace (- val x2 - - y2) with (- (val x2 - y2)) by ring. rewrite !Qcabs_opp. auto. }
    assert (CADD : forall (x x' : C) (y y' : CQ), Qcabs (c_re y) <= B /\ Qcabs (c_im y) <= B /\ cwithin (E1 * B + k) x y ->
      Qcabs (c_re y') <= B /\ Qcabs (c_im y') <= B /\ cwithin (E1 * B + k) x' y' -> cfinite (rdiv (radd x x') two) = true ->
      Qcabs (c_re (rdiv (radd y y') two)) <= B /\ Qcabs (c_im (rdiv (radd y y') two)) <= B /\
      cwithin (((1 + ulp) * (1 + ulp) * (1 + ulp) * G * (1 + g) - 1) * B + (1 + ulp) * (1 + ulp) * (1 + ulp) * G * (e + (K + (1 + 1 + 1)) * eta)) (rdiv (radd x x') two) (rdiv (radd y y') two)).
    { intros x x' y y' (G1 & G2 & G3 & G4) (G1' & G2' & G3' & G4') Hf. destruct (chalf _ Hf) as (Hf' & R1 & R2).
      unfold cfinite in Hf'. apply Bool.andb_true_iff in Hf' as [K1 K2]. rewrite chalf_q. unfold cwithin. cbn [c_re c_im].
      destruct x as [x1 x2], x' as [x1' x2'], y as [y1 y2], y' as [y1' y2']. cbn [radd CplxOps c_re c_im QcOps] in *.
      apply ro_add in K1 as (_ & _ & K1). apply ro_add in K2 as (_ & _ & K2).
      destruct (STEP _ _ _ _ _ _ G1 G1' G3 G3' K1 R1) as [Z1 Z2]. destruct (STEP _ _ _ _ _ _ G2 G2' G4 G4' K2 R2) as [Z3 Z4].
      split; [exact Z1|]. split; [exact Z3|]. split; [exact Z2|exact Z4]. }
    assert (CSUB : forall (x x' : C) (y y' : CQ), Qcabs (c_re y) <= B /\ Qcabs (c_im y) <= B /\ cwithin (E1 * B + k) x y ->
      Qcabs (c_re y') <= B /\ Qcabs (c_im y') <= B /\ cwithin (E1 * B + k) x' y' -> cfinite (rdiv (rsub x x') two) = true ->
      Qcabs (c_re (rdiv (rsub y y') two)) <= B /\ Qcabs (c_im (rdiv (rsub y y') two)) <= B /\
      cwithin (((1 + ulp) * (1 + ulp) * (1 + ulp) * G * (1 + g) - 1) * B + (1 + ulp) * (1 + ulp) * (1 + ulp) * G * (e + (K + (1 + 1 + 1)) * eta)) (rdiv (rsub x x') two) (rdiv (rsub y y') two)).
    { intros x x' y y' G1 G2 Hf. assert (EX : rsub x x' = radd x (sgb true x')) by (destruct x as [x1 x2], x' as [x3 x4]; cbn [rsub radd sgb rneg CplxOps c_re c_im]; rewrite !n_sub_def; reflexivity).
      assert (EY : rsub y y' = radd y (sgb true y')) by apply sub_def. rewrite EX in *. rewrite EY. apply CADD; auto. }
    apply split_4 in Htt as (s & Hs & [-> | [-> | [-> | -> ]]]); rewrite ?qsel_0, ?qsel_1, ?qsel_2, ?qsel_3 in * by auto.
    + apply CADD; [apply A; auto|apply SG, D'; auto|auto].
    + apply CADD; [apply SG, B'; auto|apply C'; auto|auto].
    + apply CSUB; [apply SG, B'; auto|apply C'; auto|auto].
    + apply CSUB; [apply A; auto|apply SG, D'; auto|auto].
Qed.

(** All 2^(2m) coefficients, or (for an odd number of generators) only the first half. *)
Lemma icl_near g e : 0 <= g -> 0 <= e -> forall m (X : N -> N -> C) (Y : N -> N -> CQ) B, 0 <= B ->
  (forall i j, (i < pow2 m)%N -> (j < pow2 m)%N -> cfinite (X i j) = true -> napp g B e (X i j) (Y i j)) ->
  (forall t, (t < pow2 (2 * m))%N -> cfinite (icl m X t) = true) ->
  forall t, (t < pow2 (2 * m))%N -> napp (igain m g) B (ieta m e) (icl m X t) (icl m Y t).
Proof.
  intros Hg He. induction m as [|m IH]; intros X Y B HB H HF t Htt.
  - cbn [icl] in *. assert (H1 := H 0%N 0%N eq_refl eq_refl (HF 0%N eq_refl)). 
    replace (igain 0 g) with g by (unfold igain; change (3 * 0)%nat with 0%nat; cbn [Qcpower]; ring).
    replace (ieta 0 e) with e; [exact H1|]. unfold ieta. change (zq (3 * Z.of_nat 0)) with 0. change (3 * 0)%nat with 0%nat. cbn [Qcpower]. ring.
  - assert (P := icl_parts m X ltac:(intros; apply HF; rewrite two_S; apply low_lt; auto)).
    apply icl_step; auto; (apply IH; [exact HB|intros; apply H; auto using low_lt, high_lt|intros; apply P; auto]).
Qed.
Lemma icl_near_n g e n : 0 <= g -> 0 <= e -> forall (X : N -> N -> C) (Y : N -> N -> CQ) B, 0 <= B ->
  (forall i j, (i < pow2 (half n))%N -> (j < pow2 (half n))%N -> cfinite (X i j) = true -> napp g B e (X i j) (Y i j)) ->
  (forall t, (t < pow2 n)%N -> cfinite (icl (half n) X t) = true) ->
  forall t, (t < pow2 n)%N -> napp (igain (half n) g) B (ieta (half n) e) (icl (half n) X t) (icl (half n) Y t).
Proof.
  intros Hg He X Y B HB H HF t Htt. destruct (half_cases n) as [(E & Hh)|(E & Hh)].
  - apply icl_near; rewrite ?Hh; auto.
  - destruct (half n) as [|m] eqn:Em; [lia|]. assert (n = S (2 * m)) as -> by lia.
    assert (P := icl_parts m X HF).
    apply icl_step; auto; try (rewrite two_S; apply low_lt; auto); (apply icl_near; [exact Hg|exact He|exact HB|intros; apply H; auto using low_lt, high_lt|intros; apply P; auto]).
Qed.
Lemma icl_finite_n n (X : N -> N -> C) : (forall t, (t < pow2 n)%N -> cfinite (icl (half n) X t) = true) ->
  forall i j, (i < pow2 (half n))%N -> (j < pow2 (half n))%N -> cfinite (X i j) = true.
Proof.
  intros HF. destruct (half_cases n) as [(E & Hh)|(E & Hh)].
  - apply icl_finite. rewrite Hh. exact HF.
  - destruct (half n) as [|m] eqn:Em; [lia|]. assert (n = S (2 * m)) as -> by lia.
    assert (P := icl_parts m X HF). intros i j Hi Hj. spl i Hi; spl j Hj.
    + apply (icl_finite m X); auto. intros; apply P; auto.
    + apply (icl_finite m (fun i j => X i (pow2 m + j)%N)); auto. intros; apply P; auto.
    + apply (icl_finite m (fun i j => X (pow2 m + i)%N j)); auto. intros; apply P; auto.
    + apply (icl_finite m (fun i j => X (pow2 m + i)%N (pow2 m + j)%N)); auto. intros; apply P; auto.
Qed.

(** ** Multiplication by powers of i *)

Definition unit4 (p : C) (q : CQ) : Prop :=
  exists s, finite s = true /\ Qcabs (val s) = 1 /\ (p = mkC s r0 /\ q = mkC (val s) 0 \/ p = mkC r0 s /\ q = mkC 0 (val s)).
Lemma one_unit : finite (r1 : F) = true /\ Qcabs (val (r1 : F)) = 1 /\ finite (rneg r1 : F) = true /\ Qcabs (val (rneg r1 : F)) = 1 /\ val (r1 : F) = 1 /\ val (rneg r1 : F) = - (1).
Proof.
  destruct (ro_neg (r1 : F)) as [E1 E2]. destruct ro_1 as (E3 & _ & _). rewrite E1, E2, E3, Qcabs_opp.
  assert (finite (r1 : F) = true). { pose proof ro_4 as H. apply ro_mul in H as (H & _). apply ro_add in H as (H & _). exact H. }
  assert (Qcabs 1 = 1) by (apply Qc_is_canon; reflexivity). tauto.
Qed.
Ltac ur := split; [assumption|]; split; [first [reflexivity|apply Qc_is_canon; reflexivity]|]; first [left; split; reflexivity|right; split; reflexivity].
Lemma ipw_unit k : unit4 (ipw k) (ipw k).
Proof.
  destruct one_unit as (E1 & E2 & E3 & E4 & E5 & E6). unfold ipw, unit4. destruct (mod4_cases k) as [-> | [-> | [-> | -> ]]]; cbn [nth i_powers].
  - exists r1. rewrite E5. ur.
  - exists r1. rewrite E5. ur.
  - exists (rneg r1). rewrite E6. ur.
  - exists (rneg r1). rewrite E6. ur.
Qed.
Lemma ipn_unit k : unit4 (ipn k) (ipn k).
Proof.
  destruct one_unit as (E1 & E2 & E3 & E4 & E5 & E6). unfold ipn, unit4. destruct (mod4_cases k) as [-> | [-> | [-> | -> ]]]; cbn [nth i_neg_powers].
  - exists r1. rewrite E5. ur.
  - exists (rneg r1). rewrite E6. ur.
  - exists (rneg r1). rewrite E6. ur.
  - exists r1. rewrite E5. ur.
Qed.

Lemma eq1_pos : 0 <= eq1.
Proof. pose proof ro_u as Hu. assert (0 <= ulp * ulp) by (apply qmul_pos; auto). replace eq1 with (ulp * ulp + ulp + ulp) by ring. set (Z := ulp * ulp) in *. clearbody Z. qlra. Qed.
Lemma ee_pos : 0 <= ee.
Proof. pose proof ro_u. apply qmul_pos; [qlra|apply ro_eta]. Qed.

(** At most two roundings, from an approximation. *)
Lemma near2 (g B e p P r : Qc) : Qcabs P <= B -> Qcabs (p - P) <= g * B + e -> Qcabs (r - p) <= eq1 * Qcabs p + ee ->
  Qcabs (r - P) <= ((1 + ulp) * (1 + ulp) * (1 + g) - 1) * B + ((1 + ulp) * (1 + ulp) * e + ee).
Proof.
  intros HP H1 H2. pose proof eq1_pos as Hq.
  assert (A1 : Qcabs p <= B + (g * B + e)).
  { replace p with (P + (p - P)) by ring. eapply Qcle_trans; [apply Qcabs_triangle|]. apply Qcplus_le_compat; auto. }
  assert (A2 := qmul_le _ _ _ Hq A1).
  assert (A3 : Qcabs (r - P) <= Qcabs (r - p) + Qcabs (p - P)) by (replace (r - P) with ((r - p) + (p - P)) by ring; apply Qcabs_triangle).
  eapply Qcle_trans; [exact A3|].
  replace (((1 + ulp) * (1 + ulp) * (1 + g) - 1) * B + ((1 + ulp) * (1 + ulp) * e + ee)) with ((eq1 * (B + (g * B + e)) + ee) + (g * B + e)) by ring.
  apply Qcplus_le_compat; auto. eapply Qcle_trans; [exact H2|]. apply Qcplus_le_compat; auto. apply Qcle_refl.
Qed.
(** One rounding is at most two. *)
Lemma once2 (p r : Qc) : rounds r p -> Qcabs (r - p) <= eq1 * Qcabs p + ee.
Proof.
  intros H. pose proof ro_u as Hu. pose proof ro_eta as He. eapply Qcle_trans; [exact H|]. 
  assert (0 <= (ulp + ulp * ulp) * Qcabs p) by (apply qmul_pos; [|apply Qcabs_nonneg]; assert (0 <= ulp * ulp) by (apply qmul_pos; auto); set (Z := ulp * ulp) in *; clearbody Z; qlra).
  assert (0 <= (ulp + 1) * eta) by (apply qmul_pos; qlra).
  replace (eq1 * Qcabs p + ee) with (ulp * Qcabs p + eta + ((ulp + ulp * ulp) * Qcabs p + (ulp + 1) * eta)) by ring.
  set (Z := (ulp + ulp * ulp) * Qcabs p) in *. set (Z2 := (ulp + 1) * eta) in *. set (Z3 := ulp * Qcabs p). clearbody Z Z2 Z3. qlra.
Qed.

Lemma unit_abs (a s : Qc) : Qcabs s = 1 -> Qcabs (a * s) = Qcabs a.
Proof. intros H. rewrite Qcabs_Qcmult, H. apply Qcmult_1_r. Qed.

Lemma phase_one (g B e : Qc) (a r : F) (s w1 : Qc) : Qcabs s = 1 -> Qcabs w1 <= B -> Qcabs (val a - w1) <= g * B + e -> rounds (val r) (val a * s) ->
  Qcabs (val r - w1 * s) <= ((1 + ulp) * (1 + ulp) * (1 + g) - 1) * B + ((1 + ulp) * (1 + ulp) * e + ee).
Proof.
  intros As B1 W1 R. apply (near2 g B e (val a * s)); [rewrite unit_abs by auto; exact B1| |apply once2; exact R].
  replace (val a * s - w1 * s) with ((val a - w1) * s) by ring. rewrite unit_abs by auto. exact W1.
Qed.
Lemma phase_r z p q : unit4 p q -> cfinite (rmul z p) = true -> cfinite z = true /\
  forall g B e w, napp g B e z w -> napp ((1 + ulp) * (1 + ulp) * (1 + g) - 1) B ((1 + ulp) * (1 + ulp) * e + ee) (rmul z p) (rmul w q).
Proof.
  intros (s & Fs & As & Hs) Hf. destruct z as [a b]. unfold cfinite in Hf.
  destruct Hs as [(-> & ->)|(-> & ->)]; cbn [rmul CplxOps c_re c_im] in Hf; apply Bool.andb_true_iff in Hf as [F1 F2].
  - pose proof F1 as K. apply ro_sub in K as (K1 & K2 & _). apply ro_mul in K1 as (Fa & _ & Ra). apply ro_mul in K2 as (Fb & _ & _).
    pose proof F2 as K. apply ro_add in K as (_ & K2 & _). apply ro_mul in K2 as (_ & _ & Rb).
    split; [unfold cfinite; cbn [c_re c_im]; rewrite Fa, Fb; reflexivity|].
    intros g B e [w1 w2] (B1 & B2 & W1 & W2). unfold napp, cwithin in *. cbn [rmul CplxOps c_re c_im QcOps radd rsub] in *.
    rewrite (proj1 (ro_mul_0 _ Fa)), (proj1 (ro_mul_0 _ Fb)), sub_r0, n_add_0_l.
    replace (w1 * val s - w2 * 0) with (w1 * val s) by ring. replace (w1 * 0 + w2 * val s) with (w2 * val s) by ring.
    rewrite !unit_abs by auto. split; [exact B1|]. split; [exact B2|].
    split; eapply phase_one; eassumption.
  - pose proof F1 as K. apply ro_sub in K as (K1 & K2 & _). apply ro_mul in K1 as (Fa & _ & _). apply ro_mul in K2 as (Fb & _ & Rb).
    pose proof F2 as K. apply ro_add in K as (K1 & _ & _). apply ro_mul in K1 as (_ & _ & Ra).
    split; [unfold cfinite; cbn [c_re c_im]; rewrite Fa, Fb; reflexivity|].
    intros g B e [w1 w2] (B1 & B2 & W1 & W2). unfold napp, cwithin in *. cbn [rmul CplxOps c_re c_im QcOps radd rsub] in *.
    rewrite (proj1 (ro_mul_0 _ Fa)), (proj1 (ro_mul_0 _ Fb)), add_r0, n_sub_def, n_add_0_l, (proj1 (ro_neg _)).
    replace (w1 * 0 - w2 * val s) with (- (w2 * val s)) by ring. replace (w1 * val s + w2 * 0) with (w1 * val s) by ring.
    rewrite Qcabs_opp, !unit_abs by auto. split; [exact B2|]. split; [exact B1|].
    replace (- val (rmul b s) - - (w2 * val s)) with (- (val (rmul b s) - w2 * val s)) by ring. rewrite Qcabs_opp.
    split; eapply phase_one; eassumption.
Qed.
Lemma phase_l z p q : unit4 p q -> cfinite (rmul p z) = true -> cfinite z = true /\
  forall g B e w, napp g B e z w -> napp ((1 + ulp) * (1 + ulp) * (1 + g) - 1) B ((1 + ulp) * (1 + ulp) * e + ee) (rmul p z) (rmul q w).
Proof.
  intros (s & Fs & As & Hs) Hf. destruct z as [a b]. unfold cfinite in Hf.
  destruct Hs as [(-> & ->)|(-> & ->)]; cbn [rmul CplxOps c_re c_im] in Hf; apply Bool.andb_true_iff in Hf as [F1 F2].
  - pose proof F1 as K. apply ro_sub in K as (K1 & K2 & _). apply ro_mul in K1 as (_ & Fa & Ra). apply ro_mul in K2 as (_ & Fb & _).
    pose proof F2 as K. apply ro_add in K as (K1 & _ & _). apply ro_mul in K1 as (_ & _ & Rb).
    split; [unfold cfinite; cbn [c_re c_im]; rewrite Fa, Fb; reflexivity|].
    intros g B e [w1 w2] (B1 & B2 & W1 & W2). unfold napp, cwithin in *. cbn [rmul CplxOps c_re c_im QcOps radd rsub] in *.
    rewrite (proj2 (ro_mul_0 _ Fa)), (proj2 (ro_mul_0 _ Fb)), sub_r0, add_r0.
    rewrite Qcmult_comm in Ra, Rb.
    replace (val s * w1 - 0 * w2) with (w1 * val s) by ring. replace (val s * w2 + 0 * w1) with (w2 * val s) by ring.
    rewrite !unit_abs by auto. split; [exact B1|]. split; [exact B2|].
    split; eapply phase_one; eassumption.
  - pose proof F1 as K. apply ro_sub in K as (K1 & K2 & _). apply ro_mul in K1 as (_ & Fa & _). apply ro_mul in K2 as (_ & Fb & Rb).
    pose proof F2 as K. apply ro_add in K as (_ & K2 & _). apply ro_mul in K2 as (_ & _ & Ra).
    split; [unfold cfinite; cbn [c_re c_im]; rewrite Fa, Fb; reflexivity|].
    intros g B e [w1 w2] (B1 & B2 & W1 & W2). unfold napp, cwithin in *. cbn [rmul CplxOps c_re c_im QcOps radd rsub] in *.
    rewrite (proj2 (ro_mul_0 _ Fa)), (proj2 (ro_mul_0 _ Fb)), n_sub_def, !n_add_0_l, (proj1 (ro_neg _)).
    rewrite Qcmult_comm in Ra, Rb.
    replace (0 * w1 - val s * w2) with (- (w2 * val s)) by ring. replace (0 * w2 + val s * w1) with (w1 * val s) by ring.
    rewrite Qcabs_opp, !unit_abs by auto. split; [exact B2|]. split; [exact B1|].
    replace (- val (rmul s b) - - (w2 * val s)) with (- (val (rmul s b) - w2 * val s)) by ring. rewrite Qcabs_opp.
    split; eapply phase_one; eassumption.
Qed.
End Tr.
