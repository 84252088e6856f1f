(** Rounding errors of products computed through the transforms: sums of products, matrices. *)
From Verif Require Export P_Round7.
From Coq Require Import QArith Lqa Lia.
Local Open Scope Qc_scope.

(** ** The product of representations, without ring laws *)

Section WmulF.
Context {T : Type} {RO : RingOps T} {W : NumLaws T}.
Local Notation mx := (N -> N -> T).
Local Open Scope nat_scope.

Lemma a3_alpha_f m s l (X : N -> mx) : wrep m s l X -> wrep m s (a3_alpha l) (wal mneg malpha X).
Proof.
  intros H. unfold a3_alpha. refine (wrep_map m s l X (fun k M => m_build (m_nr M) (m_nc M) (fun i j =>
    if Nat.odd (popcount k + popcount (N.lxor (N.of_nat i) (N.of_nat j))) then rneg (m_at M i j) else m_at M i j)) (fun w Y => xsgb mneg (par w) (malpha Y)) _ H).
  intros w M Hw (R & C & K & E). rewrite R, C. eapply mis_ext; [apply mis_build|]. intros i j Hi Hj. cbn beta. rewrite E, odd_par by auto.
  unfold nn, xsgb, mneg, malpha, sgb. destruct (par w), (par (N.lxor (N.of_nat i) (N.of_nat j))); cbn [xorb]; rewrite ?n_neg_neg; reflexivity.
Qed.
Lemma wal_wal_f m (X : N -> mx) w : meq m (wal mneg malpha (wal mneg malpha X) w) (X w).
Proof.
  intros i j _ _. unfold wal, xsgb, mneg, malpha, sgb. destruct (par w), (par (N.lxor i j)); rewrite ?n_neg_neg; reflexivity.
Qed.
Lemma wmul_impl_f m s : forall fuel a b dest (X Y Z : N -> mx), s < fuel -> wrep m s a X -> wrep m s b Y -> wrep m s dest Z ->
  exists a' d, wmul_impl fuel a b dest = Ok (a', d) /\ wrep m s a' X /\ wrep m s d (wm (mmulf m) madd mneg malpha s X Y).
Proof.
  induction s as [|s IH]; intros [|fuel] a b dest X Y Z Hf Ha Hb Hd; try lia; cbn [wmul_impl]; assert (El : length a = 2 ^ _) by apply Ha; rewrite El.
  - cbn [Nat.pow Nat.eqb].
    destruct (wrep_nthr _ _ _ _ 0 Ha ltac:(cbn; lia)) as (a0 & -> & Ha0). destruct (wrep_nthr _ _ _ _ 0 Hb ltac:(cbn; lia)) as (b0 & -> & Hb0). destruct (wrep_nthr _ _ _ _ 0 Hd ltac:(cbn; lia)) as (d0 & -> & Hd0).
    cbn [bind]. destruct (mrep_dotf _ _ _ _ _ Ha0 Hb0) as (P & -> & HP). cbn [bind]. unfold m_assign. destruct Hd0 as (R & C & _). pose proof HP as (R' & C' & _). rewrite R, C, R', C', !Nat.eqb_refl. cbn [andb bind].
    destruct (wrep_upd0 m dest Z P (wm (mmulf m) madd mneg malpha 0 X Y) Hd HP) as (-> & HH). cbn [bind]. eauto.
  - destruct (Nat.eqb_spec (2 ^ S s) 1) as [E|_]; [pose proof (P_CliFFT.pow_pos s); cbn in E; lia|]. rewrite half_pow.
    destruct (wrep_split _ _ _ _ Ha) as (a0 & a1 & -> & Ha0 & Ha1). destruct (wrep_split _ _ _ _ Hb) as (b0 & b1 & -> & Hb0 & Hb1). destruct (wrep_split _ _ _ _ Hd) as (d0 & d1 & -> & Hd0 & Hd1). cbn [bind].
    destruct (IH fuel a1 b0 d1 _ _ _ ltac:(lia) Ha1 Hb0 Hd1) as (a1' & top & -> & Ha1' & Htop). cbn [bind].
    destruct (IH fuel (a3_alpha a0) b1 d0 _ _ _ ltac:(lia) (a3_alpha_f _ _ _ _ Ha0) Hb1 Hd0) as (a0' & tmp & -> & Ha0' & Htmp). cbn [bind].
    destruct (a3_add_into_ok _ _ _ _ _ _ Htop Htmp) as (top' & -> & Htop'). cbn [bind].
    assert (Ha0'' : wrep m s (a3_alpha a0') X) by (eapply wrep_ext; [apply a3_alpha_f; exact Ha0'|]; intros; apply wal_wal_f).
    destruct (IH fuel (a3_alpha a0') b0 tmp _ _ _ ltac:(lia) Ha0'' Hb0 Htmp) as (a0''' & bot & -> & Ha0''' & Hbot). cbn [bind].
    eexists _, _. split; [reflexivity|]. split; [apply wrep_app; auto|]. apply wrep_app.
    + eapply wrep_ext; [exact Hbot|]. intros w Hw. rewrite wm_low by auto. intros i j _ _. reflexivity.
    + eapply wrep_ext; [exact Htop'|]. intros w Hw. rewrite wm_high. intros i j _ _. reflexivity.
Qed.
Lemma wmul_f m s a b (X Y : N -> mx) : arep m s a X -> arep m s b Y -> exists p, wmul a b = Ok p /\ arep m s p (wm (mmulf m) madd mneg malpha s X Y).
Proof.
  intros (R & C & Ha) (R' & C' & Hb). unfold wmul. assert (El : length (t_mats a) = 2 ^ s) by apply Ha. rewrite El.
  destruct (Nat.eqb_spec (2 ^ s) 1) as [E|E].
  - assert (s = 0) as -> by (destruct s; auto; pose proof (P_CliFFT.pow_pos s); cbn in E; lia).
    destruct (wrep_nthr _ _ _ _ 0 Ha ltac:(cbn; lia)) as (a0 & -> & Ha0). destruct (wrep_nthr _ _ _ _ 0 Hb ltac:(cbn; lia)) as (b0 & -> & Hb0).
    cbn [bind]. destruct (mrep_dotf _ _ _ _ _ Ha0 Hb0) as (P & -> & HP). cbn [bind]. pose proof HP as (RP & CP & _). rewrite RP, CP, R, C, Nat.eqb_refl.
    eexists. split; [reflexivity|]. split; [reflexivity|]. split; [reflexivity|]. split; [reflexivity|]. cbn [t_mats]. intros w Hw. cbn in Hw. destruct w; [|lia]. cbn [nth wm].
    replace (mkMat (2 ^ m) (2 ^ m) (m_data P)) with P by (destruct P as [? ? ?]; cbn in *; congruence). exact HP.
  - destruct (wmul_impl_f m s (S (2 ^ s)) (t_mats a) (t_mats b) (t_mats (a3_zeros (2 ^ s) (t_nr a) (t_nc a))) X Y (fun _ _ _ => r0)) as (a' & d & -> & _ & Hd); auto.
    + pose proof (Nat.pow_gt_lin_r 2 s). lia.
    + rewrite R, C. destruct (arep_zeros (T := T) m s) as (_ & _ & Z). exact Z.
    + cbn [bind]. eexists. split; [reflexivity|]. split; [exact R|]. split; [exact C|]. exact Hd.
Qed.
End WmulF.

(** ** Inequalities *)

Lemma sum_step2 (u e g k k' A D Wa Wd a d s : Qc) : 0 <= u -> 0 <= g ->
  Qcabs (a - A) <= g * Wa + k -> Qcabs A <= Wa -> Qcabs (d - D) <= g * Wd + k' -> Qcabs D <= Wd ->
  Qcabs (s - (a + d)) <= u * Qcabs (a + d) + e ->
  Qcabs (s - (A + D)) <= ((1 + u) * (1 + g) - 1) * (Wa + Wd) + (1 + u) * (k + k') + e.
Proof.
  intros Hu Hg H1 H2 H3 H4 H5.
  assert (A1 : Qcabs (a + d) <= Wa + Wd + (g * Wa + k) + (g * Wd + k')).
  { replace (a + d) with ((A + D) + ((a - A) + (d - D))) by ring.
    eapply Qcle_trans; [apply Qcabs_triangle|]. pose proof (Qcabs_triangle A D). pose proof (Qcabs_triangle (a - A) (d - D)). qlra. }
  assert (A2 := qmul_le _ _ u Hu A1).
  assert (A3 : Qcabs (s - (A + D)) <= Qcabs (s - (a + d)) + (Qcabs (a - A) + Qcabs (d - D))).
  { replace (s - (A + D)) with ((s - (a + d)) + ((a - A) + (d - D))) by ring.
    eapply Qcle_trans; [apply Qcabs_triangle|]. pose proof (Qcabs_triangle (a - A) (d - D)). qlra. }
  replace (((1 + u) * (1 + g) - 1) * (Wa + Wd) + (1 + u) * (k + k') + e)
    with (u * (Wa + Wd + (g * Wa + k) + (g * Wd + k')) + e + (g * Wa + k) + (g * Wd + k')) by ring.
  clear A1 Hu Hg H2 H4. set (X := u * (_ + _)) in *. set (Y := u * Qcabs (a + d)) in *. set (P := g * Wa) in *. set (Q := g * Wd) in *.
  clearbody X Y P Q. qlra.
Qed.

(** One rounded product of two approximate factors. *)
Lemma mul_step (u e ga ea gb eb A B Wa Wb a b p : Qc) : 0 <= u -> 0 <= ga -> 0 <= ea -> 0 <= gb -> 0 <= eb ->
  Qcabs A <= Wa -> Qcabs (a - A) <= ga * Wa + ea -> Qcabs B <= Wb -> Qcabs (b - B) <= gb * Wb + eb ->
  Qcabs (p - a * b) <= u * Qcabs (a * b) + e ->
  Qcabs (p - A * B) <= ((1 + u) * (1 + ga) * (1 + gb) - 1) * (Wa * Wb) + ((1 + u) * (ea * ((1 + gb) * Wb) + eb * ((1 + ga) * Wa + ea)) + e).
Proof.
  intros Hu Hga Hea Hgb Heb HA Ha HB Hb Hp.
  assert (WA : 0 <= Wa) by (eapply Qcle_trans; [apply Qcabs_nonneg|exact HA]). assert (WB : 0 <= Wb) by (eapply Qcle_trans; [apply Qcabs_nonneg|exact HB]).
  assert (A1 : Qcabs a <= (1 + ga) * Wa + ea).
  { replace a with (A + (a - A)) by ring. eapply Qcle_trans; [apply Qcabs_triangle|]. replace (A + (a - A) - A) with (a - A) by ring. replace ((1 + ga) * Wa + ea) with (Wa + (ga * Wa + ea)) by ring. set (X := ga * Wa + ea) in *. clearbody X. qlra. }
  assert (E1 : Qcabs (a * b - A * B) <= ((1 + ga) * Wa + ea) * (gb * Wb + eb) + (ga * Wa + ea) * Wb).
  { replace (a * b - A * B) with (a * (b - B) + (a - A) * B) by ring. eapply Qcle_trans; [apply Qcabs_triangle|]. rewrite !Qcabs_Qcmult. apply Qcplus_le_compat.
    - eapply Qcle_trans; [apply (Qcmult_le_compat_r _ _ _ A1 (Qcabs_nonneg _))|]. apply qmul_le; auto.
      assert (0 <= ga * Wa) by (apply qmul_pos; auto). replace ((1 + ga) * Wa + ea) with (Wa + ga * Wa + ea) by ring. set (X := ga * Wa) in *. clearbody X. qlra.
    - eapply Qcle_trans; [apply (Qcmult_le_compat_r _ _ _ Ha (Qcabs_nonneg _))|]. apply qmul_le; auto.
      assert (0 <= ga * Wa) by (apply qmul_pos; auto). set (X := ga * Wa) in *. clearbody X. qlra. }
  assert (E2 : Qcabs (a * b) <= Wa * Wb + (((1 + ga) * Wa + ea) * (gb * Wb + eb) + (ga * Wa + ea) * Wb)).
  { replace (a * b) with (A * B + (a * b - A * B)) by ring. eapply Qcle_trans; [apply Qcabs_triangle|]. replace (A * B + (a * b - A * B) - A * B) with (a * b - A * B) by ring.
    apply Qcplus_le_compat; [|exact E1]. rewrite Qcabs_Qcmult. eapply Qcle_trans; [apply (Qcmult_le_compat_r _ _ _ HA (Qcabs_nonneg _))|]. apply qmul_le; auto. }
  assert (E3 := qmul_le _ _ u Hu E2).
  assert (E4 : Qcabs (p - A * B) <= Qcabs (p - a * b) + Qcabs (a * b - A * B)).
  { replace (p - A * B) with ((p - a * b) + (a * b - A * B)) by ring. apply Qcabs_triangle. }
  match goal with |- _ <= ?r => replace r with (u * (Wa * Wb + (((1 + ga) * Wa + ea) * (gb * Wb + eb) + (ga * Wa + ea) * Wb)) + e + (((1 + ga) * Wa + ea) * (gb * Wb + eb) + (ga * Wa + ea) * Wb)) by ring end.
  clear E2. set (X := u * (Wa * Wb + _)) in *. set (Y := _ + (ga * Wa + ea) * Wb) in *. set (Z := u * Qcabs (a * b)) in *. clearbody X Y Z. qlra.
Qed.

Section Tr.
Context {F : Type} {RF : RingOps F} {DF : DivOps F} {V : RoundOps F} {RL : RoundLaws F} {W : NumLaws F}.
Local Notation C := (cplx F).
Local Notation CQ := (cplx Qc).

(** a is A up to g B + e, and A is at most B. *)
Definition near (g B e : Qc) (a : F) (A : Qc) : Prop := Qcabs A <= B /\ Qcabs (val a - A) <= g * B + e.

(** *** One term of a complex product *)
Definition gterm (ga gb : Qc) : Qc := (1 + ulp) * ((1 + ulp) * (1 + ga) * (1 + gb)) - 1.
Definition eterm (ga ea gb eb P Q : Qc) : Qc :=
  (1 + ulp) * ((1 + 1) * ((1 + ulp) * (ea * ((1 + gb) * Q) + eb * ((1 + ga) * P + ea)) + eta)) + eta.

Lemma term_near ga ea gb eb P Q pr pi (ar ai br bi r : F) (Ar Ai Br Bi : Qc) : 0 <= ga -> 0 <= ea -> 0 <= gb -> 0 <= eb -> pr <= P -> pi <= P ->
  near ga pr ea ar Ar -> near ga pi ea ai Ai -> near gb Q eb br Br -> near gb Q eb bi Bi ->
  rounds (val (rmul ar br)) (val ar * val br) -> rounds (val (rmul ai bi)) (val ai * val bi) ->
  (rounds (val r) (val (rmul ar br) - val (rmul ai bi)) -> near (gterm ga gb) ((pr + pi) * Q) (eterm ga ea gb eb P Q) r (Ar * Br - Ai * Bi)) /\
  (rounds (val r) (val (rmul ar br) + val (rmul ai bi)) -> near (gterm ga gb) ((pr + pi) * Q) (eterm ga ea gb eb P Q) r (Ar * Br + Ai * Bi)).
Proof.
  intros Hga Hea Hgb Heb HP1 HP2 [N1 N2] [N3 N4] [N5 N6] [N7 N8] R1 R2. pose proof ro_u as Hu. pose proof ro_eta as Ht.
  assert (M1 := mul_step _ _ _ _ _ _ _ _ _ _ _ _ _ Hu Hga Hea Hgb Heb N1 N2 N5 N6 R1).
  assert (M2 := mul_step _ _ _ _ _ _ _ _ _ _ _ _ _ Hu Hga Hea Hgb Heb N3 N4 N7 N8 R2).
  set (g1 := (1 + ulp) * (1 + ga) * (1 + gb) - 1) in *.
  set (et := (1 + ulp) * (ea * ((1 + gb) * Q) + eb * ((1 + ga) * P + ea)) + eta).
  assert (LE : forall p, p <= P -> (1 + ulp) * (ea * ((1 + gb) * Q) + eb * ((1 + ga) * p + ea)) + eta <= et).
  { intros p Hp. unfold et. apply Qcplus_le_compat; [|apply Qcle_refl]. apply qmul_le; [qlra|]. apply Qcplus_le_compat; [apply Qcle_refl|]. apply qmul_le; auto. apply Qcplus_le_compat; [|apply Qcle_refl]. apply qmul_le; auto. qlra. }
  assert (M1' : Qcabs (val (rmul ar br) - Ar * Br) <= g1 * (pr * Q) + et) by (eapply Qcle_trans; [exact M1|]; apply Qcplus_le_compat; [apply Qcle_refl|apply LE; auto]).
  assert (M2' : Qcabs (val (rmul ai bi) - Ai * Bi) <= g1 * (pi * Q) + et) by (eapply Qcle_trans; [exact M2|]; apply Qcplus_le_compat; [apply Qcle_refl|apply LE; auto]).
  assert (B1 : Qcabs (Ar * Br) <= pr * Q).
  { rewrite Qcabs_Qcmult. eapply Qcle_trans; [apply (Qcmult_le_compat_r _ _ _ N1 (Qcabs_nonneg _))|]. apply qmul_le; auto. eapply Qcle_trans; [apply Qcabs_nonneg|exact N1]. }
  assert (B2 : Qcabs (Ai * Bi) <= pi * Q).
  { rewrite Qcabs_Qcmult. eapply Qcle_trans; [apply (Qcmult_le_compat_r _ _ _ N3 (Qcabs_nonneg _))|]. apply qmul_le; auto. eapply Qcle_trans; [apply Qcabs_nonneg|exact N3]. }
  assert (G1 : 0 <= g1).
  { unfold g1. assert (U1 : 0 <= ulp * ((1 + ga) * (1 + gb))) by (repeat (apply qmul_pos; try qlra)). assert (U2 : 0 <= ga * gb) by (apply qmul_pos; auto).
    replace ((1 + ulp) * (1 + ga) * (1 + gb) - 1) with (ulp * ((1 + ga) * (1 + gb)) + ga + gb + ga * gb) by ring. set (X := ulp * _) in *. set (Y := ga * gb) in *. clearbody X Y. qlra. }
  assert (EQ : forall r1 R, Qcabs (r1 - R) <= ((1 + ulp) * (1 + g1) - 1) * (pr * Q + pi * Q) + (1 + ulp) * (et + et) + eta ->
    Qcabs (r1 - R) <= gterm ga gb * ((pr + pi) * Q) + eterm ga ea gb eb P Q).
  { intros r1 R HH. eapply Qcle_trans; [exact HH|]. unfold gterm, eterm. fold et. unfold g1. match goal with |- ?x <= ?y => replace x with y; [apply Qcle_refl|ring] end. }
  split; intros R.
  - split.
    + replace ((pr + pi) * Q) with (pr * Q + pi * Q) by ring. unfold Qcminus. eapply Qcle_trans; [apply Qcabs_triangle|]. rewrite Qcabs_opp. apply Qcplus_le_compat; auto.
    + apply EQ. replace (Ar * Br - Ai * Bi) with (Ar * Br + - (Ai * Bi)) by ring.
      apply (sum_step2 ulp eta g1 et et (Ar * Br) (- (Ai * Bi)) (pr * Q) (pi * Q) (val (rmul ar br)) (- val (rmul ai bi)) (val r)); auto.
      * replace (- val (rmul ai bi) - - (Ai * Bi)) with (- (val (rmul ai bi) - Ai * Bi)) by ring. rewrite Qcabs_opp. exact M2'.
      * rewrite Qcabs_opp. exact B2.
  - split.
    + replace ((pr + pi) * Q) with (pr * Q + pi * Q) by ring. eapply Qcle_trans; [apply Qcabs_triangle|]. apply Qcplus_le_compat; auto.
    + apply EQ. apply (sum_step2 ulp eta g1 et et (Ar * Br) (Ai * Bi) (pr * Q) (pi * Q) (val (rmul ar br)) (val (rmul ai bi)) (val r)); auto.
Qed.

(** *** A sum, accumulated term by term *)
Definition gsum (k : nat) (g : Qc) : Qc := (1 + ulp) ^ k * (1 + g) - 1.
Definition esum (k : nat) (e : Qc) : Qc := zq (Z.of_nat k) * ((1 + ulp) ^ k * (e + eta)).

Lemma fold_finite {Y} (f : Y -> F) l : forall a, finite (fold_left (fun acc y => radd acc (f y)) l a) = true -> finite a = true /\ forall y, In y l -> finite (f y) = true.
Proof.
  induction l as [|y l IH]; intros a H; cbn [fold_left] in H; [split; [exact H|intros ? []]|]. apply IH in H as [H1 H2]. apply ro_add in H1 as (H1 & H3 & _).
  split; auto. intros z [<-|Hz]; auto.
Qed.
Lemma zq_S k : zq (Z.of_nat (S k)) = zq (Z.of_nat k) + 1.
Proof. replace (Z.of_nat (S k)) with (Z.of_nat k + 1)%Z by lia. rewrite zq_add. f_equal. Qed.
Lemma fold_near {Y} (g e : Qc) (f : Y -> F) (h w : Y -> Qc) l : 0 <= g -> 0 <= e ->
  (forall y, In y l -> near g (w y) e (f y) (h y)) ->
  forall k a A B, near (gsum k g) B (esum k e) a A -> finite (fold_left (fun acc y => radd acc (f y)) l a) = true ->
  near (gsum (length l + k) g) (B + suml w l) (esum (length l + k) e) (fold_left (fun acc y => radd acc (f y)) l a) (A + suml h l).
Proof.
  intros Hg He. pose proof ro_u as Hu. pose proof ro_eta as Ht. induction l as [|y l IH]; intros Hn k a A B Ha HF; cbn [fold_left suml length Nat.add] in *; change (@radd Qc QcOps) with Qcplus; change (@r0 Qc QcOps) with 0 in *.
  - rewrite !Qcplus_0_r. exact Ha.
  - assert (HFa := proj1 (fold_finite f l _ HF)). apply ro_add in HFa as (_ & _ & R).
    assert (Hy := Hn y (or_introl eq_refl)).
    assert (Hs : near (gsum (S k) g) (B + w y) (esum (S k) e) (radd a (f y)) (A + h y)).
    { destruct Ha as [Ha1 Ha2], Hy as [Hy1 Hy2].
      assert (Hw : 0 <= w y) by (eapply Qcle_trans; [apply Qcabs_nonneg|exact Hy1]).
      split; [eapply Qcle_trans; [apply Qcabs_triangle|]; apply Qcplus_le_compat; auto|].
      unfold gsum, esum in *. rewrite zq_S. assert (HZ : 0 <= zq (Z.of_nat k)) by (apply zq_pos; lia). set (K := zq (Z.of_nat k)) in *. clearbody K.
      cbn [Qcpower]. pose proof (qpow_ge ulp k Hu) as HG. set (G := (1 + ulp) ^ k) in *. clearbody G.
      assert (G1 : g <= G * (1 + g) - 1). { assert (0 <= (G - 1) * (1 + g)) by (apply qmul_pos; qlra). replace (G * (1 + g) - 1) with ((G - 1) * (1 + g) + g) by ring. set (X := (G - 1) * _) in *. clearbody X. qlra. }
      assert (Hy3 : Qcabs (val (f y) - h y) <= (G * (1 + g) - 1) * w y + e).
      { eapply Qcle_trans; [exact Hy2|]. apply Qcplus_le_compat; [|apply Qcle_refl]. apply Qcmult_le_compat_r; auto. }
      assert (S1 := sum_step2 ulp eta _ _ _ A (h y) B (w y) (val a) (val (f y)) (val (radd a (f y))) Hu ltac:(eapply Qcle_trans; [exact Hg|exact G1]) Ha2 Ha1 Hy3 Hy1 R).
      eapply Qcle_trans; [exact S1|]. set (u := ulp) in *. clearbody u.
      assert (D1 : 0 <= (1 + u) * (G - 1) * (e + eta)) by (repeat (apply qmul_pos; try qlra)). assert (D2 : 0 <= u * eta) by (apply qmul_pos; auto).
      match goal with |- ?x <= ?y => assert (HE : y = x + (1 + u) * (G - 1) * (e + eta) + u * eta) by ring end. rewrite HE.
      set (X := (1 + u) * (G - 1) * (e + eta)) in *. set (Y1 := u * eta) in *. match goal with |- ?x <= _ => set (Z := x) end. clearbody X Y1 Z. qlra. }
    specialize (IH (fun z Hz => Hn z (or_intror Hz)) (S k) _ _ _ Hs HF). rewrite Nat.add_succ_r in IH.
    rewrite !Qcplus_assoc. exact IH.
Qed.

(** *** The rows of a matrix product *)

Lemma fold_re {G} {RG : RingOps G} {Y} (f : Y -> cplx G) l : forall a,
  c_re (fold_left (fun acc y => radd acc (f y)) l a) = fold_left (fun acc y => radd acc (c_re (f y))) l (c_re a) /\
  c_im (fold_left (fun acc y => radd acc (f y)) l a) = fold_left (fun acc y => radd acc (c_im (f y))) l (c_im a).
Proof. induction l as [|y l IH]; intros a; cbn [fold_left]; [auto|]. exact (IH (radd a (f y))). Qed.
Lemma suml_re {Y} (f : Y -> CQ) l : c_re (suml f l) = suml (fun y => c_re (f y)) l /\ c_im (suml f l) = suml (fun y => c_im (f y)) l.
Proof. induction l as [|y l [IH1 IH2]]; cbn [suml]; auto. cbn [radd CplxOps c_re c_im]. rewrite IH1, IH2. auto. Qed.

(** Parts bounded and approximated one by one. *)
Definition cnear (g Br Bi e : Qc) (z : C) (w : CQ) : Prop := near g Br e (c_re z) (c_re w) /\ near g Bi e (c_im z) (c_im w).

Lemma mulc_fin (z z' : C) : cfinite (rmul z z') = true -> cfinite z = true /\ cfinite z' = true.
Proof.
  destruct z as [a b], z' as [a' b']. unfold cfinite. cbn [rmul CplxOps c_re c_im]. rewrite !Bool.andb_true_iff. intros [H1 H2].
  apply ro_sub in H1 as (H1 & H3 & _). apply ro_mul in H1 as (H1 & H1' & _). apply ro_mul in H3 as (H3 & H3' & _). auto.
Qed.
Lemma mulc_near ga ea gb eb P Q pr pi (z z' : C) (w w' : CQ) : 0 <= ga -> 0 <= ea -> 0 <= gb -> 0 <= eb -> pr <= P -> pi <= P ->
  cnear ga pr pi ea z w -> cnear gb Q Q eb z' w' -> cfinite (rmul z z') = true ->
  cnear (gterm ga gb) ((pr + pi) * Q) ((pr + pi) * Q) (eterm ga ea gb eb P Q) (rmul z z') (rmul w w').
Proof.
  intros Hga Hea Hgb Heb H1 H2 [N1 N2] [N3 N4] HF. destruct z as [a b], z' as [a' b'], w as [A B], w' as [A' B']. unfold cfinite in HF. cbn [rmul CplxOps c_re c_im QcOps radd rsub] in *.
  apply Bool.andb_true_iff in HF as [F1 F2]. apply ro_sub in F1 as (G1 & G2 & R1). apply ro_add in F2 as (G3 & G4 & R2).
  apply ro_mul in G1 as (_ & _ & M1). apply ro_mul in G2 as (_ & _ & M2). apply ro_mul in G3 as (_ & _ & M3). apply ro_mul in G4 as (_ & _ & M4).
  split; cbn [c_re c_im].
  - destruct (term_near ga ea gb eb P Q pr pi a b a' b' (rsub (rmul a a') (rmul b b')) A B A' B' Hga Hea Hgb Heb H1 H2 N1 N2 N3 N4 M1 M2) as [T _]. apply T, R1.
  - destruct (term_near ga ea gb eb P Q pr pi a b b' a' (radd (rmul a b') (rmul b a')) A B B' A' Hga Hea Hgb Heb H1 H2 N1 N2 N4 N3 M3 M4) as [_ T]. apply T, R2.
Qed.

Lemma fold_cfinite {Y} (f : Y -> C) l a : cfinite (fold_left (fun acc y => radd acc (f y)) l a) = true -> forall y, In y l -> cfinite (f y) = true.
Proof.
  unfold cfinite. destruct (fold_re f l a) as [-> ->]. rewrite Bool.andb_true_iff. intros [H1 H2] y Hy. apply fold_finite in H1 as [_ H1]. apply fold_finite in H2 as [_ H2].
  rewrite (H1 y Hy), (H2 y Hy). reflexivity.
Qed.
End Tr.
