(** Rounding errors of the wedge and meet products: the recursive algorithm of dense storage
    and the loops. *)
From Verif Require Export P_Round3.
From Coq Require Import QArith Lqa Lia.
Local Open Scope Qc_scope.

Lemma qsum_le {X} (f g : X -> Qc) l : (forall i, In i l -> f i <= g i) -> suml f l <= suml g l.
Proof.
  induction l as [|a l IH]; intros Hl; cbn [suml]; [apply Qcle_refl|]. change (@radd Qc QcOps) with Qcplus.
  apply Qcplus_le_compat; [apply Hl; cbn; auto|]. apply IH. intros; apply Hl; cbn; auto.
Qed.
Lemma qsum_abs {X} (f : X -> Qc) l : Qcabs (suml f l) <= suml (fun i => Qcabs (f i)) l.
Proof.
  induction l as [|a l IH]; cbn [suml]; [change (@r0 Qc QcOps) with 0; rewrite qabs0; apply Qcle_refl|]. change (@radd Qc QcOps) with Qcplus.
  eapply Qcle_trans; [apply Qcabs_triangle|]. apply Qcplus_le_compat; [apply Qcle_refl|exact IH].
Qed.
Lemma qsum_sub {X} (f g : X -> Qc) l : suml f l - suml g l = suml (fun i => f i - g i) l.
Proof.
  induction l as [|a l IH]; cbn [suml]; [change (@r0 Qc QcOps) with 0; ring|]. change (@radd Qc QcOps) with Qcplus. rewrite <- IH. ring.
Qed.
Lemma qsum_pos {X} (f : X -> Qc) l : (forall i, In i l -> 0 <= f i) -> 0 <= suml f l.
Proof.
  intros Hl. replace 0 with (suml (fun _ : X => 0) l); [apply qsum_le; auto|].
  clear Hl. induction l as [|a l IH]; [reflexivity|]. cbn [suml]. rewrite IH. change (@radd Qc QcOps) with Qcplus. ring.
Qed.
Lemma qI_le n (f g : N -> Qc) : (forall i, (i < pow2 n)%N -> f i <= g i) -> sumI n f <= sumI n g.
Proof. intros Hl. apply qsum_le. intros i Hi. apply Hl. apply in_idxs. auto. Qed.
Lemma qI_pos n (f : N -> Qc) : (forall i, (i < pow2 n)%N -> 0 <= f i) -> 0 <= sumI n f.
Proof. intros Hl. apply qsum_pos. intros i Hi. apply Hl. apply in_idxs. auto. Qed.
Lemma qmul_le2 (a b c d : Qc) : 0 <= a -> 0 <= c -> a <= b -> c <= d -> a * c <= b * d.
Proof.
  intros Ha Hc Hb Hd. assert (A1 : 0 <= (b - a) * d) by (apply qmul_pos; qlra). assert (A2 : 0 <= a * (d - c)) by (apply qmul_pos; qlra). qlra.
Qed.
Lemma qabs_zact s (a : Qc) : Qcabs (zact s a) <= Qcabs a.
Proof.
  unfold zact. destruct (s =? 1)%Z; [apply Qcle_refl|]. destruct (s =? -1)%Z; change (@rneg Qc QcOps a) with (- a); [rewrite Qcabs_opp; apply Qcle_refl|].
  change (@r0 Qc QcOps) with 0. rewrite qabs0. apply Qcabs_nonneg.
Qed.
Lemma zact_qsub s (a b : Qc) : zact s a - zact s b = zact s (a - b).
Proof. unfold zact. destruct (s =? 1)%Z; [reflexivity|]. destruct (s =? -1)%Z; cbn [rneg r0 QcOps]; ring. Qed.

(** One rounded operation on inexact arguments. *)
Lemma op_error (u e r v w E : Qc) : 0 <= u -> Qcabs (v - w) <= E -> Qcabs (r - v) <= u * Qcabs v + e ->
  Qcabs (r - w) <= (1 + u) * E + u * Qcabs w + e.
Proof.
  intros Hu H1 H2. assert (A1 : Qcabs v <= Qcabs w + E).
  { replace v with (w + (v - w)) by ring. eapply Qcle_trans; [apply Qcabs_triangle|]. qlra. }
  apply (qmul_le _ _ u Hu) in A1. replace (r - w) with ((r - v) + (v - w)) by ring. eapply Qcle_trans; [apply Qcabs_triangle|].
  qlra.
Qed.

Section Mono.
Context {F : Type} {RF : RingOps F} {DF : DivOps F} {V : RoundOps F} {RL : RoundLaws F}.
Lemma product_error_mono t t' P P' : (t <= t')%nat -> 0 <= P -> P <= P' -> product_error t P <= product_error t' P'.
Proof.
  intros Ht HP HPP. pose proof ro_u as Hu. pose proof ro_eta as He.
  apply (Qcle_trans _ (product_error t P')).
  { unfold product_error. pose proof (qpow_ge ulp (S t) Hu) as HG. set (G := (1 + ulp) ^ (S t)) in *. clearbody G.
    assert (A1 : 0 <= (G - 1) * (P' - P)) by (apply qmul_pos; qlra). set (B := Q2Qc (inject_Z (2 * Z.of_nat t)) * (1 + ulp) ^ t * eta). clearbody B. qlra. }
  assert (HP' : 0 <= P') by (apply (Qcle_trans _ P); assumption). clear HP HPP P. induction Ht as [|t' Ht IH]; [apply Qcle_refl|].
  eapply Qcle_trans; [exact IH|]. 
  assert (G : near t' r0 0 P' -> near (S t') r0 0 P') by (apply near_grow; apply Qcle_refl).
  clear G IH. unfold product_error. rewrite nat_step. cbn [Qcpower]. pose proof (qpow_ge ulp t' Hu) as HG. set (G := (1 + ulp) ^ t') in *. clearbody G.
  pose proof (nat_pos t') as HB. set (B := Q2Qc (inject_Z (2 * Z.of_nat t'))) in *. clearbody B.
  assert (G0 : 0 <= G) by (clear - HG; qlra).
  assert (A0 : 0 <= ulp * G) by (apply qmul_pos; auto).
  assert (A2 : 0 <= ulp * ((1 + ulp) * G) * P') by (apply qmul_pos; [apply qmul_pos; [auto|clear - A0 G0; qlra]|auto]).
  assert (A3 : 0 <= B * (ulp * G) * eta) by (apply qmul_pos; auto; apply qmul_pos; auto).
  assert (A4 : 0 <= (1 + 1) * ((1 + ulp) * G) * eta) by (apply qmul_pos; auto; apply qmul_pos; [qlra|clear - A0 G0; qlra]).
  clear HB HG. qlra.
Qed.

Lemma val_sgb b c : val (sgb b c) = sgb b (val c).
Proof. destruct b; cbn; [apply ro_neg|reflexivity]. Qed.
Lemma abs_sgb b (x y : Qc) : Qcabs (sgb b x - sgb b y) = Qcabs (x - y).
Proof. destruct b; cbn; [|reflexivity]. replace (- x - - y) with (- (x - y)) by ring. apply Qcabs_opp. Qed.
Lemma abs_same x : Qcabs (x - x) = 0.
Proof. replace (x - x) with 0 by ring. apply qabs0. Qed.
Lemma val_r0 : val r0 = 0. Proof. apply ro_0. Qed.
Lemma val_r1 : val r1 = 1. Proof. apply ro_1. Qed.
Lemma val_del j c i : val (del j c i) = del j (val c) i.
Proof. unfold del. destruct (_ =? _)%N; auto. apply val_r0. Qed.
Lemma val_if (b : bool) c : val (if b then c else r0) = if b then val c else 0.
Proof. destruct b; auto. apply val_r0. Qed.
End Mono.

Section Cpl.
Variable A : algebra.
Local Notation d := (a_dim A).
Lemma cpl_eq i : (i < pow2 d)%N -> cpl A i = (2 ^ N.of_nat d - 1 - i)%N.
Proof.
  intros Hi. unfold cpl, ones. rewrite <- N.sub_nocarry_ldiff.
  - rewrite N.ones_equiv, <- N.sub_1_r. reflexivity.
  - destruct (N.eq_dec i 0) as [->|Hn]; [apply N.ldiff_0_l|]. apply N.ldiff_ones_r_low. apply N.log2_lt_pow2; [lia|exact Hi].
Qed.

End Cpl.

(** ** The recursion on coefficient functions *)
Section Fwp.
Context {F : Type} {RF : RingOps F}.
Fixpoint fwp (n : nat) (x y : N -> F) (k : N) : F :=
  match n with
  | O => rmul (x 0%N) (y 0%N)
  | S n => if (k <? pow2 n)%N then fwp n x y k
           else radd (fwp n (up n x) y (k - pow2 n)%N) (fwp n (alpha x) (up n y) (k - pow2 n)%N)
  end.
Lemma fwp_low n x y k : (k < pow2 n)%N -> fwp (S n) x y k = fwp n x y k.
Proof. intros Hk. cbn [fwp]. apply N.ltb_lt in Hk. rewrite Hk. reflexivity. Qed.
Lemma fwp_high n x y k : fwp (S n) x y (pow2 n + k)%N = radd (fwp n (up n x) y k) (fwp n (alpha x) (up n y) k).
Proof.
  cbn [fwp]. replace (pow2 n + k <? pow2 n)%N with false by (symmetry; apply N.ltb_ge; lia).
  replace (pow2 n + k - pow2 n)%N with k by lia. reflexivity.
Qed.
Lemma fwp_ext n : forall x x' y y' k, feq n x x' -> feq n y y' -> (k < pow2 n)%N -> fwp n x y k = fwp n x' y' k.
Proof.
  induction n as [|n IH]; intros x x' y y' k Hx Hy Hk.
  - cbn [fwp]. rewrite Hx, Hy by (unfold pow2; cbn; lia). reflexivity.
  - assert (HL : forall i, (i < pow2 n)%N -> (i < pow2 (S n))%N) by (intros i Hi; rewrite pow2_S; lia).
    assert (HH : forall i, (i < pow2 n)%N -> (pow2 n + i < pow2 (S n))%N) by (intros i Hi; rewrite pow2_S; lia).
    destruct (index_split n k Hk) as [Hk'|(k' & Hk' & ->)].
    + rewrite !fwp_low by auto. apply IH; auto; intros i Hi; auto.
    + rewrite !fwp_high. f_equal; apply IH; auto; intros i Hi; unfold up, alpha; rewrite ?Hx, ?Hy by auto; reflexivity.
Qed.
Context {W : NumLaws F} {m : Mode}.
Lemma wedge_impl_fwp n : forall fuel (a b dest : list F), (n < fuel)%nat ->
  length a = (2 ^ n)%nat -> length b = (2 ^ n)%nat -> length dest = (2 ^ n)%nat ->
  exists r, wedge_impl fuel a b dest = Ok (a, r) /\ length r = (2 ^ n)%nat /\ feq n (lc r) (fwp n (lc a) (lc b)).
Proof.
  induction n as [|n IH]; intros fuel a b dest Hf Ha Hb Hd; (destruct fuel as [|fuel]; [lia|]).
  - destruct a as [|a0 [|]]; cbn in Ha; try lia. destruct b as [|b0 [|]]; cbn in Hb; try lia.
    destruct dest as [|d0 [|]]; cbn in Hd; try lia. cbn. exists (rmul a0 b0 :: nil)%list. split; [reflexivity|].
    split; [reflexivity|]. intros k Hk. unfold pow2 in Hk. assert (k = 0%N) as -> by (cbn in Hk; lia). reflexivity.
  - cbn [wedge_impl]. assert (P1 := Npow2_pos_nat n).
    assert (H2 : length a = (2 * 2 ^ n)%nat) by (rewrite Ha; reflexivity).
    destruct (Nat.eqb_spec (length a) 1); [lia|]. rewrite H2, Nat.div2_double.
    destruct (halves a n Ha) as (a0 & a1 & -> & La0 & La1).
    destruct (halves b n Hb) as (b0 & b1 & -> & Lb0 & Lb1).
    destruct (halves dest n Hd) as (d0 & d1 & -> & Ld0 & Ld1).
    rewrite !split_at_app by auto. cbn [bind fst snd].
    destruct (IH fuel a1 b0 d1) as (r1 & -> & Lr1 & C1); auto; [lia|]. cbn [bind fst snd].
    destruct (IH fuel (flip_array a0) b1 d0) as (t & -> & Lt & Ct); auto; [lia|rewrite flip_array_length; auto|].
    cbn [bind fst snd]. rewrite acc_loop0 by (rewrite ?flip_array_length; congruence). cbn [bind fst snd].
    assert (FF : flip_array (flip_array a0) = a0).
    { apply (list_lc _ _ n); rewrite ?flip_array_length; auto. intros i Hi. rewrite flip_array_lc.
      unfold alpha. rewrite flip_array_lc. apply alpha_invol. }
    rewrite FF. destruct (IH fuel a0 b0 t) as (r0' & -> & Lr0 & C0); auto; [lia|]. cbn [bind fst snd].
    exists (r0' ++ map2 radd r1 t)%list. split; [reflexivity|].
    split; [rewrite app_length, length_map2; cbn [Nat.pow]; lia|].
    intros k Hk. destruct (index_split n k Hk) as [Hk'|(k' & Hk' & ->)].
    + rewrite (lc_app_low n), fwp_low, C0 by auto. apply fwp_ext; auto; intros i Hi; symmetry; apply (lc_app_low n); auto.
    + rewrite (lc_app_high n), (map2_lc _ _ _ n), fwp_high, C1, Ct by auto. f_equal; apply fwp_ext; auto; intros i Hi.
      * symmetry. unfold up. apply lc_app_high; auto.
      * symmetry. apply (lc_app_low n); auto.
      * rewrite flip_array_lc. unfold alpha. rewrite (lc_app_low n) by auto. reflexivity.
      * symmetry. unfold up. apply lc_app_high; auto.
Qed.
End Fwp.

(** ** Its error *)
Section Near.
Context {F : Type} {RF : RingOps F} {DF : DivOps F} {V : RoundOps F} {RL : RoundLaws F} {W : NumLaws F}.
Local Notation wpn n := (gp n 0 (ones n)).
Local Notation psum n x y k := (sumI n (fun j => Qcabs (val (x j)) * Qcabs (val (y (N.lxor j k))))).

Lemma act_abs s (a : Qc) : Qcabs (act s a) <= Qcabs a.
Proof.
  destruct s; cbn [act]; change (@r0 Qc QcOps) with 0; change (@rneg Qc QcOps) with Qcopp; rewrite ?Qcabs_opp, ?qabs0; try apply Qcle_refl. apply Qcabs_nonneg.
Qed.
Lemma gp_abs n Q P (x y : N -> Qc) k : Qcabs (gp n Q P x y k) <= sumI n (fun j => Qcabs (x j) * Qcabs (y (N.lxor j k))).
Proof.
  unfold gp. eapply Qcle_trans; [apply qsum_abs|]. apply qI_le. intros j Hj. eapply Qcle_trans; [apply act_abs|].
  change (@rmul Qc QcOps) with Qcmult. rewrite Qcabs_Qcmult. apply Qcle_refl.
Qed.
Lemma psum_pos n x y k : 0 <= psum n x y k.
Proof. apply qI_pos. intros. apply qmul_pos; apply Qcabs_nonneg. Qed.
Lemma psum_low n x y k : (k < pow2 n)%N -> psum n x y k <= psum (S n) x y k.
Proof.
  intros Hk. rewrite (sumI_S (T := Qc)). change (@radd Qc QcOps) with Qcplus.
  assert (0 <= sumI n (fun j => Qcabs (val (x (pow2 n + j)%N)) * Qcabs (val (y (N.lxor (pow2 n + j) k))))) by (apply qI_pos; intros; apply qmul_pos; apply Qcabs_nonneg).
  set (a := sumI _ _) in *. set (b := sumI _ _) in *. clearbody a b. qlra.
Qed.
Lemma abs_val_alpha x j : Qcabs (val (alpha x j)) = Qcabs (val (x j)).
Proof. unfold alpha. rewrite val_sgb. destruct (par j); cbn; [apply Qcabs_opp|reflexivity]. Qed.
Lemma psum_high n x y k : (k < pow2 n)%N -> psum (S n) x y (pow2 n + k)%N = psum n (up n x) y k + psum n (alpha x) (up n y) k.
Proof.
  intros Hk. rewrite (sumI_S (T := Qc)). change (@radd Qc QcOps) with Qcplus. rewrite Qcplus_comm. f_equal; apply sumI_ext; intros j Hj.
  - rewrite lxor_top_top by auto. reflexivity.
  - rewrite lxor_top_r, abs_val_alpha by auto. reflexivity.
Qed.

Lemma two_step n : Q2Qc (inject_Z (2 ^ Z.of_nat (S n))) = (1 + 1) * Q2Qc (inject_Z (2 ^ Z.of_nat n)).
Proof.
  apply Qc_is_canon. unfold Qcplus, Qcmult. cbn [this Q2Qc]. rewrite !Qred_correct. rewrite Nat2Z.inj_succ, Z.pow_succ_r by lia. rewrite inject_Z_mult. reflexivity.
Qed.
Lemma two_ge n : 1 <= Q2Qc (inject_Z (2 ^ Z.of_nat n)).
Proof.
  unfold Qcle, Q2Qc. cbn [this]. rewrite !Qred_correct. change (inject_Z 1 <= inject_Z (2 ^ Z.of_nat n))%Q. rewrite <- Zle_Qle.
  pose proof (Z.pow_pos_nonneg 2 (Z.of_nat n)). lia.
Qed.
Lemma tree_error_mono n P P' : 0 <= P -> P <= P' -> tree_error n P <= tree_error (S n) P'.
Proof.
  intros HP HPP. pose proof ro_u as Hu. pose proof ro_eta as He. unfold tree_error. rewrite (two_step (S n)). cbn [Qcpower].
  pose proof (qpow_ge ulp n Hu) as HG. set (g := (1 + ulp) ^ n) in *. clearbody g.
  pose proof (two_ge (S n)) as HB. set (B := Q2Qc (inject_Z (2 ^ Z.of_nat (S n)))) in *. clearbody B.
  assert (G0 : 0 <= ulp * g) by (apply qmul_pos; auto; clear - HG; qlra).
  assert (A1 : 0 <= ((1 + ulp) * g - 1) * (P' - P)) by (apply qmul_pos; clear - HG HPP G0; qlra).
  assert (A2 : 0 <= ulp * ((1 + ulp) * g) * P') by (apply qmul_pos; [apply qmul_pos; auto; clear - HG G0; qlra|clear - HP HPP; qlra]).
  assert (A3 : 0 <= B * g * eta) by (apply qmul_pos; auto; apply qmul_pos; clear - HG HB; qlra).
  assert (A4 : 0 <= ((1 + 1) * B - 1) * (ulp * g) * eta) by (apply qmul_pos; auto; apply qmul_pos; auto; clear - HB; qlra).
  clear - A1 A2 A3 A4. qlra.
Qed.
Lemma tree_error_step n P Q : (1 + ulp) * (tree_error n P + tree_error n Q) + ulp * (P + Q) + eta <= tree_error (S n) (P + Q).
Proof.
  pose proof ro_u as Hu. pose proof ro_eta as He. unfold tree_error. rewrite (two_step (S n)). cbn [Qcpower].
  pose proof (qpow_ge ulp n Hu) as HG. set (g := (1 + ulp) ^ n) in *. clearbody g. set (B := Q2Qc (inject_Z (2 ^ Z.of_nat (S n)))) in *. clearbody B.
  assert (G0 : 0 <= ulp * g) by (apply qmul_pos; auto; clear - HG; qlra).
  assert (A1 : 0 <= ((1 + ulp) * g - 1) * eta) by (apply qmul_pos; auto; clear - HG G0; qlra).
  clear - A1. qlra.
Qed.
Lemma tree_error_pos n P : 0 <= P -> 0 <= tree_error n P.
Proof.
  intros HP. pose proof ro_u as Hu. pose proof ro_eta as He. unfold tree_error. pose proof (qpow_ge ulp n Hu) as HG. pose proof (qpow_ge ulp (S n) Hu) as HG'.
  set (g' := (1 + ulp) ^ S n) in *. clearbody g'. set (g := (1 + ulp) ^ n) in *. clearbody g. 
  pose proof (two_ge (S n)) as HB. set (B := Q2Qc (inject_Z (2 ^ Z.of_nat (S n)))) in *. clearbody B.
  assert (A1 : 0 <= (g' - 1) * P) by (apply qmul_pos; auto; clear - HG'; qlra).
  assert (A2 : 0 <= (B - 1) * g * eta) by (apply qmul_pos; auto; apply qmul_pos; clear - HG HB; qlra).
  clear - A1 A2. qlra.
Qed.
Lemma qpow_mono (u : Qc) a b : 0 <= u -> (a <= b)%nat -> (1 + u) ^ a <= (1 + u) ^ b.
Proof.
  intros Hu Hab. induction Hab as [|b Hab IH]; [apply Qcle_refl|]. eapply Qcle_trans; [exact IH|]. cbn [Qcpower].
  pose proof (qpow_ge u b Hu) as HG. set (g := (1 + u) ^ b) in *. clearbody g. assert (0 <= u * g) by (apply qmul_pos; auto; clear - HG; qlra). clear - H. qlra.
Qed.
(** It is below the bound for the loop. *)
Lemma tree_error_le n P : 0 <= P -> tree_error n P <= product_error (2 ^ n) P.
Proof.
  intros HP. pose proof ro_u as Hu. pose proof ro_eta as He. unfold tree_error, product_error.
  assert (Hn : (n < 2 ^ n)%nat) by (apply Nat.pow_gt_lin_r; lia).
  pose proof (qpow_mono ulp (S n) (S (2 ^ n)) Hu ltac:(lia)) as H1. pose proof (qpow_mono ulp n (2 ^ n) Hu ltac:(lia)) as H2.
  replace (2 * Z.of_nat (2 ^ n))%Z with (2 ^ Z.of_nat (S n))%Z.
  2:{ rewrite Nat2Z.inj_succ, Z.pow_succ_r by lia. f_equal. rewrite Nat2Z.inj_pow. reflexivity. }
  pose proof (qpow_ge ulp n Hu) as HG. 
  set (g1 := (1 + ulp) ^ S n) in *. set (g2 := (1 + ulp) ^ S (2 ^ n)) in *. set (g3 := (1 + ulp) ^ n) in *. set (g4 := (1 + ulp) ^ (2 ^ n)) in *.
  clearbody g1 g2 g3 g4. pose proof (two_ge (S n)) as HB. set (B := Q2Qc (inject_Z (2 ^ Z.of_nat (S n)))) in *. clearbody B.
  assert (A1 : 0 <= (g2 - g1) * P) by (apply qmul_pos; auto; clear - H1; qlra).
  assert (A2 : 0 <= B * (g4 - g3) * eta) by (apply qmul_pos; auto; apply qmul_pos; clear - HB H2; qlra).
  assert (A3 : 0 <= g3 * eta) by (apply qmul_pos; auto; clear - HG; qlra).
  clear - A1 A2 A3. qlra.
Qed.

Theorem fwp_near n : forall x y k, (k < pow2 n)%N -> finite (fwp n x y k) = true ->
  Qcabs (val (fwp n x y k) - wpn n (fun j => val (x j)) (fun j => val (y j)) k) <= tree_error n (psum n x y k).
Proof.
  pose proof ro_u as Hu.
  induction n as [|n IH]; intros x y k Hk Hf.
  - unfold pow2 in Hk. assert (k = 0%N) as -> by (cbn in Hk; lia). cbn [fwp] in *. unfold gp. rewrite !(sumI_O (T := Qc)).
    change (N.lxor 0 0) with 0%N. change (act (gsign 0 0 (ones 0) 0 0) (rmul (val (x 0%N)) (val (y 0%N)))) with (val (x 0%N) * val (y 0%N)).
    destruct (ro_mul _ _ Hf) as (_ & _ & HR). unfold rounds in HR. rewrite Qcabs_Qcmult in HR. eapply Qcle_trans; [exact HR|].
    unfold tree_error. change (Q2Qc (inject_Z (2 ^ Z.of_nat 1))) with (1 + 1). cbn [Qcpower].
    set (P := Qcabs (val (x 0%N)) * Qcabs (val (y 0%N))). clearbody P. clear - Hu. 
    replace (((1 + ulp) * 1 - 1) * P + (1 + 1 - 1) * 1 * eta) with (ulp * P + eta) by ring. apply Qcle_refl.
  - destruct (index_split n k Hk) as [Hk'|(k' & Hk' & ->)].
    + rewrite fwp_low in * by auto. rewrite wp_low by auto. eapply Qcle_trans; [apply IH; auto|]. apply tree_error_mono; [apply psum_pos|apply psum_low; auto].
    + rewrite fwp_high in *. rewrite wp_high by auto. destruct (ro_add _ _ Hf) as (Fa & Fb & HR).
      pose proof (IH _ _ k' Hk' Fa) as Ea. pose proof (IH _ _ k' Hk' Fb) as Eb.
      rewrite (gp_ext n 0 (ones n) _ (alpha (fun j => val (x j))) _ (up n (fun j => val (y j)))) in Eb; auto;
        [|intros j Hj; unfold alpha; apply val_sgb|intros j Hj; reflexivity].
      change (fun j => val (up n x j)) with (up n (fun j => val (x j))) in Ea.
      rewrite psum_high by auto.
      pose proof (gp_abs n 0 (ones n) (up n (fun j => val (x j))) (fun j => val (y j)) k') as Ga.
      pose proof (gp_abs n 0 (ones n) (alpha (fun j => val (x j))) (up n (fun j => val (y j))) k') as Gb.
      change (sumI n (fun j => Qcabs (up n (fun i => val (x i)) j) * Qcabs (val (y (N.lxor j k'))))) with (psum n (up n x) y k') in Ga.
      replace (sumI n (fun j => Qcabs (alpha (fun i => val (x i)) j) * Qcabs (up n (fun i => val (y i)) (N.lxor j k')))) with (psum n (alpha x) (up n y) k') in Gb.
      2:{ apply sumI_ext. intros j Hj. rewrite abs_val_alpha. unfold alpha. destruct (par j); cbn [sgb]; [change (@rneg Qc QcOps) with Qcopp; rewrite Qcabs_opp|]; reflexivity. }
      change (@radd Qc QcOps) with Qcplus.
      set (a := gp n 0 (ones n) (up n _) _ k') in *. set (b := gp n 0 (ones n) (alpha _) _ k') in *.
      set (P := psum n (up n x) y k') in *. set (Q := psum n (alpha x) (up n y) k') in *.
      set (fa := fwp n (up n x) y k') in *. set (fb := fwp n (alpha x) (up n y) k') in *. clear IH.
      eapply Qcle_trans; [|apply tree_error_step]. 
      eapply Qcle_trans; [refine (op_error ulp eta _ (val fa + val fb) (a + b) (tree_error n P + tree_error n Q) Hu _ HR)|].
      * replace (val fa + val fb - (a + b)) with ((val fa - a) + (val fb - b)) by ring. eapply Qcle_trans; [apply Qcabs_triangle|]. apply Qcplus_le_compat; auto.
      * apply Qcplus_le_compat; [|apply Qcle_refl]. apply Qcplus_le_compat; [apply Qcle_refl|]. apply qmul_le; auto.
        eapply Qcle_trans; [apply Qcabs_triangle|]. apply Qcplus_le_compat; auto.
Qed.
End Near.

(** ** The operations *)
Section Meet.
Context {T : Type} {RO : RingOps T} {W : NumLaws T} {m : Mode}.
Variable A : algebra.
Variable sg : list tok.
Hypothesis D : declared sg A.
Local Notation d := (a_dim A).
Local Notation AOK := (declared_ok sg A D).

Lemma dense_wedge_fwp (x y : arr T) : (6 <= d)%nat -> valid A x -> valid A y -> gives A (dense_wedge A x y) (fwp d (rd x) (rd y)).
Proof.
  intros H6 Hx Hy. unfold dense_wedge. destruct (Nat.ltb_spec d 6) as [H7|_]; [lia|].
  pose proof Hx as (Hd & Dx & Lx). pose proof Hy as (_ & Dy & Ly).
  destruct (arr_zero_len (T := T) A Hd) as (z & E & Dz & Lz). rewrite E. cbn [bind]. rewrite Lx.
  destruct (wedge_impl_fwp d (2 ^ d) (arr_data x) (arr_data y) (arr_data z)) as (r & -> & Lr & Cr); auto.
  { apply Nat.pow_gt_lin_r. lia. }
  cbn [bind fst snd]. apply gives_iff. eexists. split; [reflexivity|].
  split; [split; [exact Hd|split; [exact Dz|exact Lr]]|].
  intros k Hk. cbn [st_coef ArrLaws]. unfold arr_coef. cbn [arr_data]. change (nth (N.to_nat k) r r0) with (lc r k).
  rewrite Cr by auto. apply fwp_ext; auto; apply feq_sym; [exact (rd_feq d x Hx)|exact (rd_feq d y Hy)].
Qed.
Lemma dense_meet_fwp (x y : arr T) : (6 <= d)%nat -> valid A x -> valid A y ->
  gives A (dense_meet A x y) (fundual A (fwp d (fdual A (rd x)) (fdual A (rd y)))).
Proof.
  intros H6 Hx Hy. unfold dense_meet. destruct (Nat.ltb_spec d 6) as [H7|_]; [lia|].
  pose proof Hx as (Hd & Dx & Lx).
  destruct (arr_zero_len (T := T) A Hd) as (z & E & Dz & Lz). rewrite E. cbn [bind].
  apply (gives_bind A _ _ (fdual A (rd x)) _ (g_dual A sg D x Hx)). intros dx Hdx Cx.
  apply (gives_bind A _ _ (fdual A (rd y)) _ (g_dual A sg D y Hy)). intros dy Hdy Cy.
  pose proof Hdx as (_ & _ & Ldx). pose proof Hdy as (_ & _ & Ldy). rewrite Ldx.
  destruct (wedge_impl_fwp d (2 ^ d) (arr_data dx) (arr_data dy) (arr_data z)) as (r & -> & Lr & Cr); auto.
  { apply Nat.pow_gt_lin_r. lia. }
  cbn [bind fst snd]. set (w := mkArr (arr_dim z) r).
  assert (Hw : valid A w) by (split; [exact Hd|split; [exact Dz|exact Lr]]).
  eapply gives_ext; [apply (g_undual A sg D w Hw)|]. apply fundual_ext.
  intros k Hk. rewrite (rd_coef d w k Hw Hk). change (st_coef w k) with (lc r k).
  rewrite Cr by auto. apply fwp_ext; auto; eapply feq_trans; [|exact Cx| |exact Cy]; apply feq_sym;
  [exact (rd_feq d dx Hdx)|exact (rd_feq d dy Hdy)].
Qed.

Lemma inner_seq_at (t : N -> N) j0 (s : N -> sign) (a : T) k ly c : NoDup (map fst ly) ->
  (forall jb, In jb ly -> (t (fst jb) = k <-> fst jb = j0)) ->
  fold_left (fun c jb => if (t (fst jb) =? k)%N then sacc (s (fst jb)) c (rmul a (snd jb)) else c) ly c
  = match hm_get ly j0 with Some b => sacc (s j0) c (rmul a b) | None => c end.
Proof.
  intros HN Ht. revert c. induction ly as [|[j b] ly IH]; intros c; cbn [fold_left hm_get fst snd]; [reflexivity|].
  inversion HN as [|x l Hx Hl]; subst. pose proof (Ht (j, b) (or_introl eq_refl)) as Hj. cbn [fst] in Hj.
  assert (Ht' : forall jb, In jb ly -> (t (fst jb) = k <-> fst jb = j0)) by (intros; apply Ht; cbn; auto).
  destruct (N.eqb_spec (t j) k) as [E|E].
  - apply Hj in E. subst j0. rewrite N.eqb_refl.
    rewrite (IH Hl Ht'). replace (hm_get ly j) with (@None T); [reflexivity|]. symmetry. apply hm_get_none. exact Hx.
  - destruct (N.eqb_spec j j0) as [Ej|_]; [|apply IH; auto]. exfalso. apply E, Hj, Ej.
Qed.

Context {S : Type} {St : Storage T S} {SL : StorageLaws T S}.
Definition meet_sum (x y : S) (k : N) : T :=
  fold_left (fun c i => if existsb (N.eqb (cpl A (N.lxor i k))) (map fst (mv_coeff_enumerate y))
      then add_term (sign_i8 (P_MV.msign A i (cpl A (N.lxor i k)))) c (rmul (rd x i) (rd y (cpl A (N.lxor i k)))) else c)
    (map fst (mv_coeff_enumerate x)) r0.
Lemma meet_seq (x y : S) : valid A x -> valid A y -> gives A (naive_meet A x y) (meet_sum x y).
Proof.
  intros Hx Hy. unfold naive_meet. rewrite (ok_cover A AOK).
  destruct (default_ok A (valid_dim A x Hx)) as (z & E & Hz & H0). rewrite E. cbn [bind].
  pose proof (st_enum_ok d x Hx) as (HNx & Hinx & Hallx). pose proof (st_enum_ok d y Hy) as (HNy & Hiny & Hally).
  match goal with |- gives A (foldM (fun ret ia => foldM (?body0) _ ret) _ _) _ => idtac end.
  edestruct (loop2_seq A (fun ia ret jb =>
      let self_dual_idx := N.ldiff (ones d) (fst ia) in
      let rhs_dual_idx := N.ldiff (ones d) (fst jb) in
      let dual_idx := N.ldiff (ones d) (N.lxor (fst ia) (fst jb)) in
      s1 <- blade_wedge_product_sign A self_dual_idx rhs_dual_idx ;;
      s2 <- blade_wedge_product_sign A self_dual_idx (fst ia) ;;
      s3 <- blade_wedge_product_sign A rhs_dual_idx (fst jb) ;;
      s4 <- blade_wedge_product_sign A (N.lxor (fst ia) (fst jb)) dual_idx ;;
      let s := sign_mul (sign_mul (sign_mul s1 s2) s3) s4 in
      c <- st_get ret dual_idx ;;
      Ok (accum s ret dual_idx c (rmul (snd ia) (snd jb)))) (P_MV.msign A) (fun i j => cpl A (N.lxor i j)) (st_enum x) (st_enum y)) with (ret := z) as (r & Er & Hr & Hc); auto.
  { intros [i a] ret [j b] Hr Hi Hj. apply Hinx in Hi. apply Hiny in Hj. cbn [fst snd]. split; [apply cpl_lt|]. cbv zeta.
    assert (d <= 64)%nat by (pose proof (ok_dim A AOK); lia). destruct Hi as (Hi & _), Hj as (Hj & _).
    assert (Hcp : forall v, (N.ldiff (ones d) v < pow2 d)%N) by (intros v; apply cpl_lt).
    rewrite !wedge_sign_ok by (auto using lxor_lt). cbn [bind].
    rewrite (st_get_ok d) by auto. reflexivity. }
  apply gives_iff. exists r. split; [exact Er|]. split; [exact Hr|]. intros k Hk. rewrite Hc, H0.
  unfold meet_sum, mv_coeff_enumerate.
  assert (FM : forall (X Y B : Type) (h : X -> Y) (f : B -> Y -> B) l b, fold_left f (map h l) b = fold_left (fun b x => f b (h x)) l b).
  { intros X Y B h f l. induction l as [|w l IH]; intros b; cbn; auto. }
  rewrite FM. apply fold_left_ext_in. intros c [i a] Hi. destruct (Hinx i a Hi) as (Hi' & _ & ->). cbn [fst snd].
  set (j := cpl A (N.lxor i k)). assert (Hj : (j < pow2 d)%N) by apply cpl_lt.
  rewrite (inner_seq_at (fun j => cpl A (N.lxor i j)) j (P_MV.msign A i)); auto.
  2:{ intros [j' b] Hj'. apply Hiny in Hj'. cbn [fst]. destruct Hj' as (Hj' & _). unfold j. cbv beta. split; intros E1.
      - rewrite <- E1, lxor_cpl_l by (auto using lxor_lt). rewrite <- N.lxor_assoc, N.lxor_nilpotent, N.lxor_0_l. rewrite cpl_invol; auto.
      - rewrite E1, lxor_cpl_l by (auto using lxor_lt). rewrite <- N.lxor_assoc, N.lxor_nilpotent, N.lxor_0_l. rewrite cpl_invol; auto. }
  destruct (hm_get (st_enum y) j) as [b|] eqn:Eg.
  - apply hm_get_in in Eg; auto. destruct (Hiny j b Eg) as (_ & _ & ->).
    replace (existsb (N.eqb j) (map fst (st_enum y))) with true.
    + rewrite add_term_sacc, !(rd_coef d) by auto. reflexivity.
    + symmetry. apply existsb_exists. exists j. split; [|apply N.eqb_refl]. apply in_map_iff. exists (j, st_coef y j). auto.
  - replace (existsb (N.eqb j) (map fst (st_enum y))) with false; [reflexivity|].
    symmetry. apply not_true_is_false. intros Ex. apply existsb_exists in Ex. destruct Ex as (j' & Hj' & Ej).
    apply N.eqb_eq in Ej. subst j'. apply hm_get_none in Eg. contradiction.
Qed.
End Meet.

Section MeetExact.
Context {T : Type} {RO : RingOps T} {W : NumLaws T} {L : RingLaws T}.
Variable A : algebra.
Variable sg : list tok.
Hypothesis D : declared sg A.
Local Notation d := (a_dim A).
Lemma fmeet_terms (x y : N -> T) k : (k < pow2 d)%N ->
  sumI d (fun i => zact (sign_i8 (P_MV.msign A i (cpl A (N.lxor i k)))) (rmul (x i) (y (cpl A (N.lxor i k))))) = fmeet A x y k.
Proof.
  intros Hk. rewrite <- (fmeet_naive A x y k Hk). apply sumI_ext. intros i Hi. set (j := cpl A (N.lxor i k)).
  assert (Hj : (j < pow2 d)%N) by apply cpl_lt. rewrite (sumI_single d _ j Hj).
  - change (N.ldiff (ones d) (N.lxor i j)) with (cpl A (N.lxor i j)). assert (Ej : cpl A (N.lxor i j) = k).
    { unfold j. rewrite lxor_cpl_l by (auto using lxor_lt). rewrite <- N.lxor_assoc, N.lxor_nilpotent, N.lxor_0_l. rewrite cpl_invol; auto. }
    rewrite Ej, N.eqb_refl. apply zact_sign.
  - intros j' Hj' Hne. destruct (N.eqb_spec (N.ldiff (ones d) (N.lxor i j')) k) as [E|]; [|reflexivity].
    exfalso. apply Hne. change (cpl A (N.lxor i j') = k) in E. unfold j. rewrite <- E, lxor_cpl_l by (auto using lxor_lt).
    rewrite <- N.lxor_assoc, N.lxor_nilpotent, N.lxor_0_l. rewrite cpl_invol; auto.
Qed.
End MeetExact.

Section Api.
Context {F : Type} {RF : RingOps F} {DF : DivOps F} {V : RoundOps F} {RL : RoundLaws F} {W : NumLaws F} {m : Mode} {H : HashOrder}.
Variable sg : list tok.
Variable A : algebra.
Hypothesis D : declared sg A.
Local Notation d := (a_dim A).
Local Notation wpn n := (gp n 0 (ones n)).

Lemma enum_len {S} {St : Storage F S} {SL : StorageLaws F S} (x : S) : valid A x -> (length (mv_coeff_enumerate x) <= 2 ^ d)%nat.
Proof.
  intros Hx. destruct (st_enum_ok d x Hx) as (HN & Hin & _). unfold mv_coeff_enumerate. rewrite <- (map_length fst).
  replace (2 ^ d)%nat with (length (idxs d)) by (unfold idxs; rewrite map_length, seq_length; reflexivity).
  apply NoDup_incl_length; auto. intros j Hj. apply in_map_iff in Hj. destruct Hj as ([j' c] & <- & Hj). apply in_idxs. apply (Hin _ _ Hj).
Qed.
Lemma q0_wp (f g : N -> Qc) i : (i < pow2 d)%N -> spec_mul q0 d f g i = wpn d f g i.
Proof. intros Hi. apply (spec_mul_gp q0 d 0 (ones d) f g); auto. apply metric_q0. Qed.

(** What an operation gives, up to a bound on each coefficient. *)
Definition within {S} {St : Storage F S} {SL : StorageLaws F S} (r : res S) (f E : N -> Qc) : Prop :=
  exists z, r = Ok z /\ valid A z /\ forall i, (i < pow2 d)%N -> finite (rd z i) = true -> Qcabs (val (rd z i) - f i) <= E i.
Lemma within_gives {S} {St : Storage F S} {SL : StorageLaws F S} (r : res S) g f E : gives A r g ->
  (forall i, (i < pow2 d)%N -> finite (g i) = true -> Qcabs (val (g i) - f i) <= E i) -> within r f E.
Proof.
  intros (z & E1 & Hz & Hc) HE. exists z. split; [exact E1|]. split; [exact Hz|]. intros i Hi.
  assert (Er : rd z i = g i) by (unfold rd; rewrite Hc by exact Hi; reflexivity). rewrite Er. auto.
Qed.
Lemma within_le {S} {St : Storage F S} {SL : StorageLaws F S} (r : res S) f E E' : within r f E -> (forall i, (i < pow2 d)%N -> E i <= E' i) -> within r f E'.
Proof. intros (z & E1 & Hz & Hc) HE. exists z. split; [exact E1|]. split; [exact Hz|]. intros i Hi Hf. eapply Qcle_trans; [apply Hc; auto|auto]. Qed.

Theorem dense_wedge_near (x y : store KDense F) : (6 <= d)%nat -> valid A x -> valid A y ->
  within (dense_wedge A x y : res (store KDense F)) (spec_mul q0 d (fun j => val (rd x j)) (fun j => val (rd y j)))
    (fun i => tree_error d (sumI d (fun j => Qcabs (val (rd x j)) * Qcabs (val (rd y (N.lxor j i)))))).
Proof.
  intros H6 Hx Hy. apply (within_gives _ (fwp d (rd x) (rd y))); [apply (dense_wedge_fwp A x y); auto|].
  intros i Hi Hf. rewrite q0_wp by auto. apply fwp_near; auto.
Qed.
Theorem kwedge_near K (x y : store K F) : K <> KQuat -> valid A x -> valid A y ->
  within (k_wedge K A x y) (spec_mul q0 d (fun j => val (rd x j)) (fun j => val (rd y j)))
    (fun i => product_error (2 ^ d) (sumI d (fun j => Qcabs (val (rd x j)) * Qcabs (val (rd y (N.lxor j i)))))).
Proof.
  intros HK Hx Hy.
  assert (Gen : within (naive_wedge A x y) (spec_mul q0 d (fun j => val (rd x j)) (fun j => val (rd y j)))
    (fun i => product_error (2 ^ d) (sumI d (fun j => Qcabs (val (rd x j)) * Qcabs (val (rd y (N.lxor j i))))))).
  { destruct (wedge_error sg A D K x y Hx Hy) as (z & E & Hz & Hc). exists z. split; [exact E|]. split; [exact Hz|]. intros i Hi Hf.
    eapply Qcle_trans; [apply Hc; auto|]. apply product_error_mono; [apply enum_len; auto|apply psum_pos|apply Qcle_refl]. }
  destruct K; [|exact Gen|congruence]. cbn [k_wedge]. destruct (Nat.lt_ge_cases d 6) as [H6|H6].
  - unfold dense_wedge. destruct (Nat.ltb_spec d 6); [exact Gen|lia].
  - eapply within_le; [apply dense_wedge_near; auto|]. intros i Hi. apply tree_error_le. apply psum_pos.
Qed.

Lemma abs_fdual (x : N -> F) j : Qcabs (val (fdual A x j)) = Qcabs (val (x (cpl A j))).
Proof. unfold fdual. rewrite val_sgb. destruct (beta d j (cpl A j)); cbn; [apply Qcabs_opp|reflexivity]. Qed.
Lemma msum_dual (x y : N -> F) i : (i < pow2 d)%N ->
  sumI d (fun j => Qcabs (val (fdual A x j)) * Qcabs (val (fdual A y (N.lxor j (cpl A i)))))
  = sumI d (fun j => Qcabs (val (x j)) * Qcabs (val (y (2 ^ N.of_nat d - 1 - N.lxor j i)%N))).
Proof.
  intros Hi. rewrite (sumI_cpl A (T := Qc)). apply sumI_ext. intros j Hj. rewrite !abs_fdual, cpl_invol, lxor_cpl by auto.
  rewrite cpl_eq by (auto using lxor_lt). reflexivity.
Qed.
Theorem dense_meet_near (x y : store KDense F) : (6 <= d)%nat -> valid A x -> valid A y ->
  within (dense_meet A x y : res (store KDense F)) (fmeet A (fun j => val (rd x j)) (fun j => val (rd y j)))
    (fun i => tree_error d (sumI d (fun j => Qcabs (val (rd x j)) * Qcabs (val (rd y (2 ^ N.of_nat d - 1 - N.lxor j i)%N))))).
Proof.
  intros H6 Hx Hy. eapply within_gives; [apply (dense_meet_fwp A sg D x y); auto|]. intros i Hi. unfold fmeet, fundual. rewrite val_sgb, abs_sgb.
  rewrite <- msum_dual by auto. intros Hf. 
  rewrite (gp_ext d 0 (ones d) _ (fun j => val (fdual A (rd x) j)) _ (fun j => val (fdual A (rd y) j))); auto using cpl_lt.
  - apply fwp_near; [apply cpl_lt|]. destruct (beta d (cpl A i) i); cbn [sgb] in Hf; [rewrite <- (proj2 (ro_neg _)); exact Hf|exact Hf].
  - intros j Hj. unfold fdual. rewrite val_sgb. reflexivity.
  - intros j Hj. unfold fdual. rewrite val_sgb. reflexivity.
Qed.
Theorem kmeet_near K (x y : store K F) : K <> KQuat -> valid A x -> valid A y ->
  within (k_meet K A x y) (fmeet A (fun j => val (rd x j)) (fun j => val (rd y j)))
    (fun i => product_error (2 ^ d) (sumI d (fun j => Qcabs (val (rd x j)) * Qcabs (val (rd y (2 ^ N.of_nat d - 1 - N.lxor j i)%N))))).
Proof.
  intros HK Hx Hy.
  assert (Gen : within (naive_meet A x y) (fmeet A (fun j => val (rd x j)) (fun j => val (rd y j)))
    (fun i => product_error (2 ^ d) (sumI d (fun j => Qcabs (val (rd x j)) * Qcabs (val (rd y (2 ^ N.of_nat d - 1 - N.lxor j i)%N)))))).
  { eapply within_gives; [apply (meet_seq A sg D x y Hx Hy)|]. intros i Hi Hf. unfold meet_sum in *. 
    rewrite <- fmeet_terms by auto.
    eapply Qcle_trans; [apply (enum_near d x y (fun j => cpl A (N.lxor j i)) (fun j => sign_i8 (P_MV.msign A j (cpl A (N.lxor j i))))); auto; intros; apply cpl_lt|].
    match goal with |- product_error _ ?a <= product_error _ ?b => replace b with a end.
    - apply product_error_mono; [apply enum_len; auto|apply qI_pos; intros; apply qmul_pos; apply Qcabs_nonneg|apply Qcle_refl].
    - apply sumI_ext. intros j Hj. rewrite cpl_eq by (auto using lxor_lt). reflexivity. }
  destruct K; [|exact Gen|congruence]. cbn [k_meet]. destruct (Nat.lt_ge_cases d 6) as [H6|H6].
  - unfold dense_meet. destruct (Nat.ltb_spec d 6); [exact Gen|lia].
  - eapply within_le; [apply dense_meet_near; auto|]. intros i Hi. apply tree_error_le. apply qI_pos; intros; apply qmul_pos; apply Qcabs_nonneg.
Qed.
End Api.
