(** Products with null generators on top: the recursion of src/fftrepr/wmul.rs. *)
From Verif Require Export P_Transform M_FFTRepr.
Local Open Scope nat_scope.

Section WM.
Context {X : Type}.
Variables (mul add : X -> X -> X) (neg al : X -> X).
Definition xsgb (b : bool) (x : X) : X := if b then neg x else x.
Definition wal (a : N -> X) (w : N) : X := xsgb (par w) (al (a w)).
Fixpoint wm (s : nat) (a b : N -> X) (w : N) : X :=
  match s with
  | O => mul (a w) (b w)
  | S s => if (w <? pow2 s)%N then wm s a b w
           else add (wm s (fun v => a (pow2 s + v)%N) b (w - pow2 s)%N)
                    (wm s (wal a) (fun v => b (pow2 s + v)%N) (w - pow2 s)%N)
  end.
Lemma wm_low s a b w : (w < pow2 s)%N -> wm (S s) a b w = wm s a b w.
Proof. intros H. cbn [wm]. apply N.ltb_lt in H. rewrite H. reflexivity. Qed.
Lemma wm_high s a b w : wm (S s) a b (pow2 s + w)%N =
  add (wm s (fun v => a (pow2 s + v)%N) b w) (wm s (wal a) (fun v => b (pow2 s + v)%N) w).
Proof. cbn [wm]. destruct (N.ltb_spec (pow2 s + w) (pow2 s)); [lia|]. rewrite N.add_comm, N.add_sub. reflexivity. Qed.

(** Equality of elements. *)
Variable eqX : X -> X -> Prop.
Hypothesis eq_r : forall x, eqX x x.
Hypothesis mul_e : forall x x' y y', eqX x x' -> eqX y y' -> eqX (mul x y) (mul x' y').
Hypothesis add_e : forall x x' y y', eqX x x' -> eqX y y' -> eqX (add x y) (add x' y').
Hypothesis neg_e : forall x x', eqX x x' -> eqX (neg x) (neg x').
Hypothesis al_e : forall x x', eqX x x' -> eqX (al x) (al x').
Lemma wal_e a a' w : eqX (a w) (a' w) -> eqX (wal a w) (wal a' w).
Proof. intros H. unfold wal, xsgb. destruct (par w); auto. Qed.
Lemma wm_e s : forall a a' b b' w, (forall v, (v < pow2 s)%N -> eqX (a v) (a' v)) -> (forall v, (v < pow2 s)%N -> eqX (b v) (b' v)) -> (w < pow2 s)%N ->
  eqX (wm s a b w) (wm s a' b' w).
Proof.
  induction s as [|s IH]; intros a a' b b' w Ha Hb Hw.
  - apply mul_e; auto.
  - assert (Ha0 : forall v, (v < pow2 s)%N -> eqX (a v) (a' v)) by (intros; apply Ha, low_lt; auto).
    assert (Hb0 : forall v, (v < pow2 s)%N -> eqX (b v) (b' v)) by (intros; apply Hb, low_lt; auto).
    apply split_lt in Hw as [Hw|(w' & -> & Hw)].
    + rewrite !wm_low by auto. auto.
    + rewrite !wm_high. apply add_e; apply IH; auto; intros v Hv; [apply Ha, high_lt; auto|apply wal_e; auto|apply Hb, high_lt; auto].
Qed.
End WM.

(** A homomorphism carries one recursion to another. *)
Section Hom.
Context {X Y : Type}.
Variables (mul add : X -> X -> X) (neg al : X -> X) (mul' add' : Y -> Y -> Y) (neg' al' : Y -> Y).
Variable eqY : Y -> Y -> Prop.
Hypothesis eq_r : forall x, eqY x x.
Hypothesis eq_t : forall x y z, eqY x y -> eqY y z -> eqY x z.
Hypothesis mul_e : forall x x' y y', eqY x x' -> eqY y y' -> eqY (mul' x y) (mul' x' y').
Hypothesis add_e : forall x x' y y', eqY x x' -> eqY y y' -> eqY (add' x y) (add' x' y').
Hypothesis neg_e : forall x x', eqY x x' -> eqY (neg' x) (neg' x').
Hypothesis al_e : forall x x', eqY x x' -> eqY (al' x) (al' x').
Variable h : X -> Y.
Hypothesis h_mul : forall x y, eqY (h (mul x y)) (mul' (h x) (h y)).
Hypothesis h_add : forall x y, eqY (h (add x y)) (add' (h x) (h y)).
Hypothesis h_neg : forall x, eqY (h (neg x)) (neg' (h x)).
Hypothesis h_al : forall x, eqY (h (al x)) (al' (h x)).
Lemma wm_hom s : forall a b w, (w < pow2 s)%N -> eqY (h (wm mul add neg al s a b w)) (wm mul' add' neg' al' s (fun v => h (a v)) (fun v => h (b v)) w).
Proof.
  induction s as [|s IH]; intros a b w Hw.
  - apply h_mul.
  - apply split_lt in Hw as [Hw|(w' & -> & Hw)].
    + rewrite !wm_low by auto. auto.
    + rewrite !wm_high. eapply eq_t; [apply h_add|]. apply add_e; [apply (IH (fun v => a (pow2 s + v)%N)); auto|].
      eapply eq_t; [apply IH; auto|]. apply wm_e with (eqX := eqY); auto.
      intros v Hv. unfold wal, xsgb. destruct (par v); [eapply eq_t; [apply h_neg|auto]|auto].
Qed.
End Hom.

(** Blocks of a coefficient function: w numbers the products of null generators. *)
Section Blocks.
Context {T : Type} {RO : RingOps T} {L : RingLaws T}.
Definition blk_of (n : nat) (x : N -> T) (w i : N) : T := x (pow2 n * w + i)%N.

Lemma par_double a : par (2 * a) = par a.
Proof. destruct a as [|p]; reflexivity. Qed.
Lemma par_block n w i : (i < pow2 n)%N -> par (pow2 n * w + i) = xorb (par w) (par i).
Proof.
  intros Hi. replace (pow2 n * w + i)%N with (N.lxor (pow2 n * w) i).
  - rewrite par_lxor. f_equal. clear. induction n as [|n IH]; [rewrite pow2_0, N.mul_1_l; auto|]. rewrite pow2_S, <- N.mul_assoc, par_double. auto.
  - symmetry. apply N.bits_inj. intros k. rewrite N.lxor_spec.
    destruct (N.lt_ge_cases k (N.of_nat n)) as [Hk|Hk].
    + unfold pow2. rewrite (N.mul_comm (2 ^ N.of_nat n)), <- N.shiftl_mul_pow2, N.shiftl_spec_low by auto. cbn [xorb].
      rewrite <- (N.mod_pow2_bits_low (N.shiftl w (N.of_nat n) + i) (N.of_nat n)) by auto.
      rewrite N.shiftl_mul_pow2, N.add_comm, N.mod_add by (apply N.pow_nonzero; lia). rewrite N.mod_small by auto. destruct (N.testbit i k); reflexivity.
    + rewrite (testbit_high i n) by auto. unfold pow2. rewrite N.mul_comm, <- N.shiftl_mul_pow2, N.shiftl_spec_high' by auto. rewrite Bool.xorb_false_r.
      replace k with ((k - N.of_nat n) + N.of_nat n)%N at 1 by lia. rewrite <- N.div_pow2_bits.
      rewrite N.shiftl_mul_pow2, N.div_add_l by (apply N.pow_nonzero; lia). rewrite N.div_small, N.add_0_r by auto. reflexivity.
Qed.

Lemma block_lt n s w i : (w < pow2 s)%N -> (i < pow2 n)%N -> (pow2 n * w + i < pow2 (n + s))%N.
Proof. intros Hw Hi. rewrite pow2_add. nia. Qed.
Lemma block_split n s k : (k < pow2 (n + s))%N -> exists w i, k = (pow2 n * w + i)%N /\ (w < pow2 s)%N /\ (i < pow2 n)%N.
Proof.
  intros Hk. pose proof (pow2_pos n). exists (k / pow2 n)%N, (k mod pow2 n)%N. split; [apply N.div_mod; lia|]. split; [|apply N.mod_lt; lia].
  apply N.div_lt_upper_bound; [lia|]. rewrite <- pow2_add. auto.
Qed.

(** Product of coefficient functions in which generators n .. n+s-1 are null. *)
Lemma gp_blocks n Q P s : (forall j, j < s -> N.testbit P (N.of_nat (n + j)) = true) ->
  forall (x y : N -> T) w i, (w < pow2 s)%N -> (i < pow2 n)%N ->
  gp (n + s) Q P x y (pow2 n * w + i) = wm (gp n Q P) fadd fneg alpha s (blk_of n x) (blk_of n y) w i.
Proof.
  induction s as [|s IH]; intros HP x y w i Hw Hi.
  - assert (w = 0%N) by (rewrite pow2_0 in Hw; lia). subst w. rewrite Nat.add_0_r, N.mul_0_r. cbn [wm N.add].
    apply gp_ext; auto; intros j Hj; unfold blk_of; rewrite N.mul_0_r; reflexivity.
  - rewrite Nat.add_succ_r.
    assert (IH' := fun x y w i => IH (fun j Hj => HP j (Nat.lt_lt_succ_r _ _ Hj)) x y w i). clear IH.
    apply split_lt in Hw as [Hw|(w' & -> & Hw)].
    + rewrite wm_low, gp_S_low by (auto; apply block_lt; auto). unfold gen_sq. rewrite HP by lia. cbn [act]. rewrite add_0_r. auto.
    + replace (pow2 n * (pow2 s + w') + i)%N with (pow2 (n + s) + (pow2 n * w' + i))%N by (rewrite pow2_add; lia).
      rewrite wm_high, gp_S_high by (apply block_lt; auto). unfold fadd at 1.
      assert (Hup : forall (z : N -> T) v j, blk_of n (up (n + s) z) v j = blk_of n z (pow2 s + v)%N j).
      { intros z v j. unfold blk_of, up. f_equal. rewrite pow2_add. lia. }
      assert (GE : forall (a a' b b' : N -> N -> T), (forall v, (v < pow2 s)%N -> feq n (a v) (a' v)) -> (forall v, (v < pow2 s)%N -> feq n (b v) (b' v)) ->
        wm (gp n Q P) fadd fneg alpha s a b w' i = wm (gp n Q P) fadd fneg alpha s a' b' w' i).
      { intros a a' b b' Ha Hb. refine (wm_e (gp n Q P) fadd fneg alpha (feq n) _ _ _ _ s a a' b b' w' Ha Hb Hw i Hi).
        - intros. apply gp_feq; auto.
        - intros ? ? ? ? E1 E2 t Ht. unfold fadd. rewrite E1, E2; auto.
        - intros ? ? E t Ht. unfold fneg. rewrite E; auto.
        - intros ? ? E t Ht. unfold alpha. rewrite E; auto. }
      f_equal; rewrite IH' by auto; apply GE; intros v Hv j Hj; auto.
      unfold wal, xsgb. unfold blk_of, alpha at 1. rewrite par_block by auto. destruct (par v); cbn [xorb]; unfold fneg, alpha, sgb; destruct (par j); cbn [negb]; rewrite ?neg_neg; auto.
Qed.
End Blocks.

(** ** The model of wmul *)
Section Wmul.
Context {T : Type} {RO : RingOps T} {L : RingLaws T}.
Local Notation mx := (N -> N -> T).
Definition mneg (X : mx) : mx := fun i j => rneg (X i j).
Definition wrep (m s : nat) (l : list (mat T)) (X : N -> mx) : Prop :=
  length l = 2 ^ s /\ forall w, w < 2 ^ s -> mrep m (nth w l (m_zeros 0 0)) (X (N.of_nat w)).

Lemma wrep_ext m s l X Y : wrep m s l X -> (forall w, (w < pow2 s)%N -> meq m (X w) (Y w)) -> wrep m s l Y.
Proof. intros (H1 & H2) E. split; auto. intros w Hw. eapply mrep_ext; [apply H2; auto|]. apply E, of_nat_lt; auto. Qed.
Lemma wrep_eq m s l l' X : wrep m s l X -> wrep m s l' X -> l = l'.
Proof.
  intros (H1 & H2) (H3 & H4). apply (nth_ext _ _ (m_zeros 0 0) (m_zeros 0 0)); [congruence|]. intros w Hw. rewrite H1 in Hw. eapply mrep_eq; eauto.
Qed.
Lemma wrep_fun m s l X Y : wrep m s l X -> wrep m s l Y -> forall w, (w < pow2 s)%N -> meq m (X w) (Y w).
Proof.
  intros (H1 & H2) (H3 & H4) w Hw. pose proof (proj2 (to_nat_lt_pow2 _ _) Hw) as Hn. specialize (H2 _ Hn). specialize (H4 _ Hn). rewrite N2Nat.id in *. eapply mrep_fun; eauto.
Qed.
Lemma wrep_app m s l l' X : wrep m s l X -> wrep m s l' (fun w => X (pow2 s + w)%N) -> wrep m (S s) (l ++ l') X.
Proof.
  intros (H1 & H2) (H3 & H4). split; [rewrite app_length; cbn; lia|]. intros w Hw. cbn in Hw. destruct (Nat.lt_ge_cases w (2 ^ s)) as [H|H].
  - rewrite app_nth1 by lia. auto.
  - rewrite app_nth2 by lia. rewrite H1. specialize (H4 (w - 2 ^ s) ltac:(lia)). cbn beta in H4. rewrite <- of_nat_pow2 in H4. replace (N.of_nat (2 ^ s) + N.of_nat (w - 2 ^ s))%N with (N.of_nat w) in H4 by lia. exact H4.
Qed.
Lemma wrep_split m s l X : wrep m (S s) l X -> exists a b, split_at l (2 ^ s) = Ok (a, b) /\ wrep m s a X /\ wrep m s b (fun w => X (pow2 s + w)%N).
Proof.
  intros (H1 & H2). cbn in H1. exists (firstn (2 ^ s) l), (skipn (2 ^ s) l). split.
  - unfold split_at. destruct (Nat.ltb_spec (length l) (2 ^ s)); [lia|reflexivity].
  - split; split.
    + rewrite firstn_length. lia.
    + intros w Hw. specialize (H2 w ltac:(cbn; lia)). rewrite <- (firstn_skipn (2 ^ s) l), app_nth1 in H2 by (rewrite firstn_length; lia). exact H2.
    + rewrite skipn_length. lia.
    + intros w Hw. specialize (H2 (2 ^ s + w) ltac:(cbn; lia)). rewrite <- (firstn_skipn (2 ^ s) l), app_nth2 in H2 by (rewrite firstn_length; lia).
      rewrite firstn_length in H2. replace (2 ^ s + w - Nat.min (2 ^ s) (length l)) with w in H2 by lia. rewrite Nat2N.inj_add, of_nat_pow2 in H2. exact H2.
Qed.
Lemma wrep_nthr m s l X w : wrep m s l X -> w < 2 ^ s -> exists M, nthr l w = Ok M /\ mrep m M (X (N.of_nat w)).
Proof. intros (H1 & H2) Hw. exists (nth w l (m_zeros 0 0)). split; auto. apply nthr_nth. lia. Qed.
Lemma wrep_map m s l X (f : N -> mat T -> mat T) (g : N -> mx -> mx) :
  (forall w M, (w < pow2 s)%N -> mrep m M (X w) -> mrep m (f w M) (g w (X w))) -> wrep m s l X ->
  wrep m s (map (fun km => f (fst km) (snd km)) (enumerate l)) (fun w => g w (X w)).
Proof.
  intros H (H1 & H2). split; [rewrite map_length, length_enumerate; auto|]. intros w Hw.
  rewrite (nth_indep _ _ ((fun km => f (fst km) (snd km)) (N0, m_zeros 0 0))) by (rewrite map_length, length_enumerate; lia).
  rewrite (map_nth (fun km => f (fst km) (snd km))), nth_enumerate by lia. cbn [fst snd]. apply H; auto using of_nat_lt.
Qed.
Lemma odd_par a b : Nat.odd (popcount a + popcount b) = xorb (par a) (par b).
Proof. unfold par. rewrite Nat.odd_add. reflexivity. Qed.
Lemma a3_alpha_ok m s l X : wrep m s l X -> wrep m s (a3_alpha l) (wal mneg malpha X).
Proof.
  intros H. unfold a3_alpha. refine (wrep_map m s l X (fun k M => m_build (m_nr M) (m_nc M) (fun i j =>
    if Nat.odd (popcount k + popcount (N.lxor (N.of_nat i) (N.of_nat j))) then rneg (m_at M i j) else m_at M i j)) (fun w Y => xsgb mneg (par w) (malpha Y)) _ H).
  intros w M Hw (R & C & K & E). rewrite R, C. eapply mis_ext; [apply mis_build|]. intros i j Hi Hj. cbn beta. rewrite E, odd_par by auto.
  unfold nn, xsgb, mneg, malpha, sgb. destruct (par w), (par (N.lxor (N.of_nat i) (N.of_nat j))); cbn [xorb]; rewrite ?neg_neg; reflexivity.
Qed.
Lemma wal_wal m (X : N -> mx) w : meq m (wal mneg malpha (wal mneg malpha X) w) (X w).
Proof.
  intros i j _ _. unfold wal, xsgb, mneg, malpha, sgb. destruct (par w), (par (N.lxor i j)); rewrite ?neg_neg; reflexivity.
Qed.
Lemma a3_add_into_ok m s l l' X Y : wrep m s l X -> wrep m s l' Y -> exists t, a3_add_into l l' = Ok t /\ wrep m s t (fun w => madd (X w) (Y w)).
Proof.
  intros H H'. unfold a3_add_into.
  rewrite (mapM_Ok _ (fun km => (fun k c => m_build (m_nr c) (m_nc c) (fun i j => radd (m_at c i j) (m_at (nth (N.to_nat k) l' (m_zeros 0 0)) i j))) (fst km) (snd km))).
  - eexists. split; [reflexivity|].
    refine (wrep_map m s l X (fun k c => m_build (m_nr c) (m_nc c) (fun i j => radd (m_at c i j) (m_at (nth (N.to_nat k) l' (m_zeros 0 0)) i j))) (fun w M => madd M (Y w)) _ H).
    intros w M Hw (R & C & K & E). rewrite R, C. eapply mis_ext; [apply mis_build|]. intros i j Hi Hj. cbn beta. rewrite E by auto.
    destruct H' as (_ & H'). specialize (H' (N.to_nat w) (proj2 (to_nat_lt_pow2 _ _) Hw)). rewrite N2Nat.id in H'. rewrite (mis_at _ _ _ _ _ _ H') by auto. reflexivity.
  - intros [k M] Hin. cbn [fst snd]. pose proof H as (Hl & HX). apply (in_enumerate _ _ _ (m_zeros 0 0)) in Hin as (Hk & HM). rewrite Hl in Hk.
    destruct H' as (Hl' & HY). rewrite (nthr_nth _ _ (m_zeros 0 0)) by lia. cbn [bind]. specialize (HX _ Hk). specialize (HY _ Hk). rewrite <- HM in HX.
    destruct HX as (R & C & _), HY as (R' & C' & _). rewrite R, C, R', C', Nat.leb_refl. reflexivity.
Qed.

Lemma wrep_upd0 m dest Z P X : wrep m 0 dest Z -> mrep m P (X 0%N) -> updr dest 0 P = Ok (upd dest 0 P) /\ wrep m 0 (upd dest 0 P) X.
Proof.
  intros (Hl & HZ) HP. cbn in Hl. destruct dest as [|d [|? ?]]; try discriminate. split; [reflexivity|]. split; [reflexivity|]. intros w Hw. cbn in Hw. destruct w; [exact HP|lia].
Qed.
Lemma wmul_impl_ok m s : forall fuel a b dest X Y Z, s < fuel -> wrep m s a X -> wrep m s b Y -> wrep m s dest Z ->
  exists a' d, wmul_impl fuel a b dest = Ok (a', d) /\ wrep m s a' X /\ wrep m s d (wm (mmul m) madd mneg malpha s X Y).
Proof.
  induction s as [|s IH]; intros [|fuel] a b dest X Y Z Hf Ha Hb Hd; try lia; cbn [wmul_impl]; assert (El : length a = 2 ^ _) by apply Ha; rewrite El.
  - cbn [Nat.pow Nat.eqb].
    destruct (wrep_nthr _ _ _ _ 0 Ha ltac:(cbn; lia)) as (a0 & -> & Ha0). destruct (wrep_nthr _ _ _ _ 0 Hb ltac:(cbn; lia)) as (b0 & -> & Hb0). destruct (wrep_nthr _ _ _ _ 0 Hd ltac:(cbn; lia)) as (d0 & -> & Hd0).
    cbn [bind]. destruct (mrep_dot _ _ _ _ _ Ha0 Hb0) as (P & -> & HP). cbn [bind]. unfold m_assign. destruct Hd0 as (R & C & _). pose proof HP as (R' & C' & _). rewrite R, C, R', C', !Nat.eqb_refl. cbn [andb bind].
    destruct (wrep_upd0 m dest Z P (wm (mmul m) madd mneg malpha 0 X Y) Hd HP) as (-> & HH). cbn [bind]. eauto.
  - destruct (Nat.eqb_spec (2 ^ S s) 1) as [E|_]; [pose proof (P_CliFFT.pow_pos s); cbn in E; lia|]. rewrite half_pow.
    destruct (wrep_split _ _ _ _ Ha) as (a0 & a1 & -> & Ha0 & Ha1). destruct (wrep_split _ _ _ _ Hb) as (b0 & b1 & -> & Hb0 & Hb1). destruct (wrep_split _ _ _ _ Hd) as (d0 & d1 & -> & Hd0 & Hd1). cbn [bind].
    destruct (IH fuel a1 b0 d1 _ _ _ ltac:(lia) Ha1 Hb0 Hd1) as (a1' & top & -> & Ha1' & Htop). cbn [bind].
    destruct (IH fuel (a3_alpha a0) b1 d0 _ _ _ ltac:(lia) (a3_alpha_ok _ _ _ _ Ha0) Hb1 Hd0) as (a0' & tmp & -> & Ha0' & Htmp). cbn [bind].
    destruct (a3_add_into_ok _ _ _ _ _ _ Htop Htmp) as (top' & -> & Htop'). cbn [bind].
    assert (Ha0'' : wrep m s (a3_alpha a0') X) by (eapply wrep_ext; [apply a3_alpha_ok; exact Ha0'|]; intros; apply wal_wal).
    destruct (IH fuel (a3_alpha a0') b0 tmp _ _ _ ltac:(lia) Ha0'' Hb0 Htmp) as (a0''' & bot & -> & Ha0''' & Hbot). cbn [bind].
    eexists _, _. split; [reflexivity|]. split; [apply wrep_app; auto|]. apply wrep_app.
    + eapply wrep_ext; [exact Hbot|]. intros w Hw. rewrite wm_low by auto. intros i j _ _. reflexivity.
    + eapply wrep_ext; [exact Htop'|]. intros w Hw. rewrite wm_high. intros i j _ _. reflexivity.
Qed.

(** A representation: the matrices, and their common shape. *)
Definition arep (m s : nat) (a : arr3 T) (X : N -> mx) : Prop := t_nr a = 2 ^ m /\ t_nc a = 2 ^ m /\ wrep m s (t_mats a) X.
Lemma wmul_ok m s a b X Y : arep m s a X -> arep m s b Y -> exists p, wmul a b = Ok p /\ arep m s p (wm (mmul m) madd mneg malpha s X Y).
Proof.
  intros (R & C & Ha) (R' & C' & Hb). unfold wmul. assert (El : length (t_mats a) = 2 ^ s) by apply Ha. rewrite El.
  destruct (Nat.eqb_spec (2 ^ s) 1) as [E|E].
  - assert (s = 0) as -> by (destruct s; auto; pose proof (P_CliFFT.pow_pos s); cbn in E; lia).
    destruct (wrep_nthr _ _ _ _ 0 Ha ltac:(cbn; lia)) as (a0 & -> & Ha0). destruct (wrep_nthr _ _ _ _ 0 Hb ltac:(cbn; lia)) as (b0 & -> & Hb0).
    cbn [bind]. destruct (mrep_dot _ _ _ _ _ Ha0 Hb0) as (P & -> & HP). cbn [bind]. pose proof HP as (RP & CP & _). rewrite RP, CP, R, C, Nat.eqb_refl.
    eexists. split; [reflexivity|]. split; [reflexivity|]. split; [reflexivity|]. split; [reflexivity|]. cbn [t_mats]. intros w Hw. cbn in Hw. destruct w; [|lia]. cbn [nth wm].
    replace (mkMat (2 ^ m) (2 ^ m) (m_data P)) with P by (destruct P as [? ? ?]; cbn in *; congruence). exact HP.
  - destruct (wmul_impl_ok m s (S (2 ^ s)) (t_mats a) (t_mats b) (t_mats (a3_zeros (2 ^ s) (t_nr a) (t_nc a))) X Y (fun _ _ _ => r0)) as (a' & d & -> & _ & Hd); auto.
    + pose proof (Nat.pow_gt_lin_r 2 s). lia.
    + cbn [a3_zeros t_mats]. split; [apply repeat_length|]. intros w Hw. rewrite R, C.
      rewrite (nth_indep _ _ (m_zeros (2 ^ m) (2 ^ m))) by (rewrite repeat_length; auto). rewrite nth_repeat. apply mis_zeros.
    + cbn [bind]. eexists. split; [reflexivity|]. split; [exact R|]. split; [exact C|]. exact Hd.
Qed.
Lemma arep_eq m s a b X : arep m s a X -> arep m s b X -> a = b.
Proof. intros (R & C & H) (R' & C' & H'). destruct a, b; cbn in *. f_equal; try congruence. eapply wrep_eq; eauto. Qed.
Lemma arep_ext m s a X Y : arep m s a X -> (forall w, (w < pow2 s)%N -> meq m (X w) (Y w)) -> arep m s a Y.
Proof. intros (R & C & H) E. do 2 (split; [assumption|]). eapply wrep_ext; eauto. Qed.
Lemma arep_fun m s a X Y : arep m s a X -> arep m s a Y -> forall w, (w < pow2 s)%N -> meq m (X w) (Y w).
Proof. intros (_ & _ & H) (_ & _ & H'). eapply wrep_fun; eauto. Qed.
End Wmul.
