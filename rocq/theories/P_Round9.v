(** Rounding errors of products computed through the transforms: matrix products with null generators, rows of a transform. *)
From Verif Require Export P_Round8.
From Coq Require Import QArith Lqa Lia.
Local Open Scope Qc_scope.

Lemma suml_le_q {Y} (f g : Y -> Qc) l : (forall y, In y l -> f y <= g y) -> suml f l <= suml g l.
Proof.
  induction l as [|y l IH]; intros H; cbn [suml]; [apply Qcle_refl|]. change (@radd Qc QcOps) with Qcplus. apply Qcplus_le_compat; [apply H; left; reflexivity|apply IH; intros; apply H; right; auto].
Qed.
Lemma suml_one_le {Y} (f : Y -> Qc) l : (forall y, In y l -> 0 <= f y) -> forall y, In y l -> f y <= suml f l.
Proof.
  induction l as [|z l IH]; intros H y Hy; [destruct Hy|]. cbn [suml]. change (@radd Qc QcOps) with Qcplus.
  assert (H0 : 0 <= suml f l). { clear - H. assert (H' : forall y, In y l -> 0 <= f y) by (intros; apply H; right; auto). clear H. induction l as [|z' l IH]; cbn [suml]; [apply Qcle_refl|]. change (@radd Qc QcOps) with Qcplus. assert (A := H' z' (or_introl eq_refl)). assert (B := IH ltac:(intros; apply H'; right; auto)). set (s := suml f l) in *. clearbody s. qlra. }
  assert (H1 := H z (or_introl eq_refl)). set (s := suml f l) in *. destruct Hy as [<-|Hy].
  - clearbody s. qlra.
  - assert (H2 := IH ltac:(intros; apply H; right; auto) y Hy). clearbody s. qlra.
Qed.

(** Weights of a product with null generators. *)
Fixpoint wb (s : nat) (p q : N -> Qc) (w : N) : Qc :=
  match s with
  | O => p w * q w
  | S s => if (w <? pow2 s)%N then wb s p q w else wb s (fun v => p (pow2 s + v)%N) q (w - pow2 s)%N + wb s p (fun v => q (pow2 s + v)%N) (w - pow2 s)%N
  end.
Lemma wb_low s p q w : (w < pow2 s)%N -> wb (S s) p q w = wb s p q w.
Proof. intros H. cbn [wb]. apply N.ltb_lt in H. rewrite H. reflexivity. Qed.
Lemma wb_high s p q w : wb (S s) p q (pow2 s + w)%N = wb s (fun v => p (pow2 s + v)%N) q w + wb s p (fun v => q (pow2 s + v)%N) w.
Proof. cbn [wb]. destruct (N.ltb_spec (pow2 s + w) (pow2 s)); [lia|]. rewrite N.add_comm, N.add_sub. reflexivity. Qed.
Lemma wb_le s : forall p q w, (forall v, (v < pow2 s)%N -> 0 <= p v) -> (forall v, (v < pow2 s)%N -> 0 <= q v) -> (w < pow2 s)%N ->
  0 <= wb s p q w /\ wb s p q w <= sumI s p * sumI s q.
Proof.
  induction s as [|s IH]; intros p q w Hp Hq Hw.
  - cbn in Hw. assert (w = 0%N) as -> by lia. cbn [wb]. rewrite !sumI_O. split; [apply qmul_pos; [apply Hp|apply Hq]; reflexivity|apply Qcle_refl].
  - assert (Hp0 : forall v, (v < pow2 s)%N -> 0 <= p v) by (intros; apply Hp, low_lt; auto). assert (Hq0 : forall v, (v < pow2 s)%N -> 0 <= q v) by (intros; apply Hq, low_lt; auto).
    assert (Hp1 : forall v, (v < pow2 s)%N -> 0 <= p (pow2 s + v)%N) by (intros; apply Hp, high_lt; auto). assert (Hq1 : forall v, (v < pow2 s)%N -> 0 <= q (pow2 s + v)%N) by (intros; apply Hq, high_lt; auto).
    rewrite !sumI_S. change (@radd Qc QcOps) with Qcplus.
    assert (S0 := sum_pos s p Hp0). assert (S1 := sum_pos s _ Hp1). assert (T0 := sum_pos s q Hq0). assert (T1 := sum_pos s _ Hq1).
    apply split_lt in Hw as [Hw|(w' & -> & Hw)].
    + rewrite wb_low by auto. destruct (IH p q w Hp0 Hq0 Hw) as [A B]. split; [exact A|]. eapply Qcle_trans; [exact B|].
      set (a := sumI s p) in *. set (b := sumI s (fun i => p (pow2 s + i)%N)) in *. set (c := sumI s q) in *. set (e := sumI s (fun i => q (pow2 s + i)%N)) in *. clearbody a b c e.
      assert (0 <= b * c) by (apply qmul_pos; auto). assert (0 <= a * e) by (apply qmul_pos; auto). assert (0 <= b * e) by (apply qmul_pos; auto).
      replace ((a + b) * (c + e)) with (a * c + b * c + a * e + b * e) by ring. set (x1 := b * c) in *. set (x2 := a * e) in *. set (x3 := b * e) in *. set (x4 := a * c) in *. clearbody x1 x2 x3 x4. qlra.
    + rewrite wb_high. destruct (IH _ q w' Hp1 Hq0 Hw) as [A B]. destruct (IH p _ w' Hp0 Hq1 Hw) as [A' B'].
      set (a := sumI s p) in *. set (b := sumI s (fun i => p (pow2 s + i)%N)) in *. set (c := sumI s q) in *. set (e := sumI s (fun i => q (pow2 s + i)%N)) in *. set (y1 := wb s _ q w') in *. set (y2 := wb s p _ w') in *. clearbody a b c e y1 y2.
      assert (0 <= a * c) by (apply qmul_pos; auto). assert (0 <= b * e) by (apply qmul_pos; auto).
      replace ((a + b) * (c + e)) with (a * c + b * c + a * e + b * e) by ring. set (x1 := b * c) in *. set (x2 := a * e) in *. set (x3 := b * e) in *. set (x4 := a * c) in *. clearbody x1 x2 x3 x4. split; qlra.
Qed.

(** Sums of the entries of a row of a transform. *)
Fixpoint acl (m : nat) (w : N -> Qc) : N -> N -> Qc :=
  match m with
  | O => fun _ _ => w 0%N
  | S m => let n := (2 * m)%nat in
           let a := madd (acl m w) (acl m (up n (up (S n) w))) in
           let b := madd (acl m (up n w)) (acl m (up (S n) w)) in blk m a b b a
  end.
Lemma acl_row m : forall w i, (i < pow2 m)%N -> sumI m (acl m w i) = sumI (2 * m) w.
Proof.
  induction m as [|m IH]; intros w i Hi.
  - change (2 * 0)%nat with 0%nat. rewrite !sumI_O. reflexivity.
  - rewrite two_S. set (n := (2 * m)%nat) in *. rewrite !sumI_S. cbn [acl]. fold n. cbv zeta. change (@radd Qc QcOps) with Qcplus.
    change (sumI n (fun i => w (pow2 n + i)%N)) with (sumI n (up n w)). change (sumI n (fun i => w (pow2 (S n) + i)%N)) with (sumI n (up (S n) w)).
    change (sumI n (fun i => w (pow2 (S n) + (pow2 n + i))%N)) with (sumI n (up n (up (S n) w))).
    spl i Hi.
    + rewrite (sumI_ext m _ (fun j => radd (acl m w i j) (acl m (up n (up (S n) w)) i j))) by (intros j Hj; rewrite blk_00 by auto; reflexivity).
      rewrite (sumI_ext m (fun j => blk m _ _ _ _ i (pow2 m + j)%N) (fun j => radd (acl m (up n w) i j) (acl m (up (S n) w) i j))) by (intros j Hj; rewrite blk_01 by auto; reflexivity).
      rewrite !sumI_add. change (sumI m (fun j => acl m ?a i j)) with (sumI m (acl m a i)). rewrite !IH by auto. change (@radd Qc QcOps) with Qcplus. ring.
    + rewrite (sumI_ext m _ (fun j => radd (acl m (up n w) i0 j) (acl m (up (S n) w) i0 j))) by (intros j Hj; rewrite blk_10 by auto; reflexivity).
      rewrite (sumI_ext m (fun j => blk m _ _ _ _ (pow2 m + i0)%N (pow2 m + j)%N) (fun j => radd (acl m w i0 j) (acl m (up n (up (S n) w)) i0 j))) by (intros j Hj; rewrite blk_11 by auto; reflexivity).
      rewrite !sumI_add. rewrite !IH by auto. change (@radd Qc QcOps) with Qcplus. ring.
Qed.

Section Tr.
Context {F : Type} {RF : RingOps F} {DF : DivOps F} {V : RoundOps F} {RL : RoundLaws F} {W : NumLaws F}.
Local Notation C := (cplx F).
Local Notation CQ := (cplx Qc).

Lemma near_mono g g' B B' e e' (a : F) A : 0 <= B -> 0 <= g' -> g <= g' -> B <= B' -> e <= e' -> near g B e a A -> near g' B' e' a A.
Proof.
  intros H0 Hg H1 H2 H3 [N1 N2]. split; [eapply Qcle_trans; eassumption|]. eapply Qcle_trans; [exact N2|]. apply Qcplus_le_compat; auto.
  eapply Qcle_trans; [apply (Qcmult_le_compat_r _ _ _ H1 H0)|]. apply qmul_le; auto.
Qed.
Lemma near_pos g B e (a : F) A : near g B e a A -> 0 <= B.
Proof. intros [H _]. eapply Qcle_trans; [apply Qcabs_nonneg|exact H]. Qed.
Lemma near_neg g B e (a : F) A : near g B e a A -> near g B e (rneg a) (- A).
Proof. intros [H1 H2]. split; [rewrite Qcabs_opp; exact H1|]. rewrite (proj1 (ro_neg a)). replace (- val a - - A) with (- (val a - A)) by ring. rewrite Qcabs_opp. exact H2. Qed.
Lemma cnear_neg g Br Bi e (z : C) (w : CQ) : cnear g Br Bi e z w -> cnear g Br Bi e (rneg z) (rneg w).
Proof. intros [H1 H2]. split; apply near_neg; auto. Qed.
Lemma cnear_sgb b g Br Bi e (z : C) (w : CQ) : cnear g Br Bi e z w -> cnear g Br Bi e (sgb b z) (sgb b w).
Proof. destruct b; [apply cnear_neg|auto]. Qed.
Lemma cfin_neg (z : C) : cfinite (rneg z) = cfinite z.
Proof. exact (cfin_sgb true z). Qed.

Lemma gterm_pos ga gb : 0 <= ga -> 0 <= gb -> 0 <= gterm ga gb.
Proof.
  intros Ha Hb. pose proof ro_u as Hu. unfold gterm. set (u := ulp) in *. clearbody u.
  assert (A1 : 0 <= (1 + u) * (1 + u) * ((1 + ga) * (1 + gb) - 1)). { assert (0 <= ga * gb) by (apply qmul_pos; auto). repeat (apply qmul_pos; try qlra). }
  assert (A2 : 0 <= u * u) by (apply qmul_pos; auto).
  replace ((1 + u) * ((1 + u) * (1 + ga) * (1 + gb)) - 1) with ((1 + u) * (1 + u) * ((1 + ga) * (1 + gb) - 1) + u + u + u * u) by ring.
  set (x := (1 + u) * (1 + u) * _) in *. set (y := u * u) in *. clearbody x y. qlra.
Qed.
Lemma eterm_mono ga ea gb eb P Q P' Q' : 0 <= ga -> 0 <= ea -> 0 <= gb -> 0 <= eb -> P <= P' -> Q <= Q' -> eterm ga ea gb eb P Q <= eterm ga ea gb eb P' Q'.
Proof.
  intros H1 H2 H3 H4 HP HQ. pose proof ro_u as Hu. unfold eterm. apply Qcplus_le_compat; [|apply Qcle_refl]. apply qmul_le; [qlra|]. apply qmul_le; [discriminate|]. apply Qcplus_le_compat; [|apply Qcle_refl].
  apply qmul_le; [qlra|]. apply Qcplus_le_compat.
  - apply qmul_le; auto. apply qmul_le; auto. qlra.
  - apply qmul_le; auto. apply Qcplus_le_compat; [|apply Qcle_refl]. apply qmul_le; auto. qlra.
Qed.
Lemma eterm_pos ga ea gb eb P Q : 0 <= ga -> 0 <= ea -> 0 <= gb -> 0 <= eb -> 0 <= P -> 0 <= Q -> 0 <= eterm ga ea gb eb P Q.
Proof.
  intros H1 H2 H3 H4 HP HQ. pose proof ro_u as Hu. pose proof ro_eta as Ht. unfold eterm.
  assert (A : 0 <= ea * ((1 + gb) * Q)) by (repeat (apply qmul_pos; try qlra)).
  assert (B : 0 <= eb * ((1 + ga) * P + ea)). { apply qmul_pos; auto. assert (0 <= (1 + ga) * P) by (apply qmul_pos; qlra). set (x := _ * P) in *. clearbody x. qlra. }
  set (x := ea * _) in *. set (y := eb * _) in *. clearbody x y.
  assert (A1 : 0 <= (1 + ulp) * (x + y)) by (apply qmul_pos; qlra). set (z := _ * (x + y)) in *. clearbody z.
  assert (A2 : 0 <= (1 + ulp) * ((1 + 1) * (z + eta))) by (apply qmul_pos; qlra). set (t := (1 + ulp) * _) in *. clearbody t. qlra.
Qed.
Lemma gsum_pos k g : 0 <= g -> 0 <= gsum k g.
Proof. apply (gcl_pos k g). Qed.
Lemma esum_mono k e e' : e <= e' -> esum k e <= esum k e'.
Proof.
  intros H. pose proof ro_u as Hu. unfold esum. apply qmul_le; [apply zq_pos; lia|]. apply qmul_le; [|qlra]. pose proof (qpow_ge ulp k Hu) as HG. set (G := _ ^ k) in *. clearbody G. qlra.
Qed.
Lemma esum_pos k e : 0 <= e -> 0 <= esum k e.
Proof.
  intros H. pose proof ro_u as Hu. pose proof ro_eta. unfold esum. apply qmul_pos; [apply zq_pos; lia|]. apply qmul_pos; [|qlra]. pose proof (qpow_ge ulp k Hu) as HG. set (G := _ ^ k) in *. clearbody G. qlra.
Qed.

(** *** One entry of a product of matrices *)
Lemma mmulf_fin m (X Y : N -> N -> C) i j : cfinite (mmulf m X Y i j) = true -> forall l, (l < pow2 m)%N -> cfinite (X i l) = true /\ cfinite (Y l j) = true.
Proof. intros H l Hl. apply mulc_fin. apply (fold_cfinite _ _ _ H). apply in_idxs. exact Hl. Qed.
Lemma dot_near ga ea gb eb p q P Q m (X Y : N -> N -> C) (X0 Y0 : N -> N -> CQ) i j (pr pi : N -> Qc) : 0 <= ga -> 0 <= ea -> 0 <= gb -> 0 <= eb -> 0 <= q ->
  (forall l, (l < pow2 m)%N -> cnear ga (pr l) (pi l) ea (X i l) (X0 i l)) -> (forall l, (l < pow2 m)%N -> cnear gb q q eb (Y l j) (Y0 l j)) ->
  sumI m (fun l => pr l + pi l) <= p -> p <= P -> q <= Q -> cfinite (mmulf m X Y i j) = true ->
  cnear (gsum (2 ^ m) (gterm ga gb)) (p * q) (p * q) (esum (2 ^ m) (eterm ga ea gb eb P Q)) (mmulf m X Y i j) (mmul m X0 Y0 i j).
Proof.
  intros Hga Hea Hgb Heb Hq HX HY Hp HPp HQq HF.
  assert (Pw : forall l, In l (idxs m) -> 0 <= pr l /\ 0 <= pi l) by (intros l Hl; apply in_idxs in Hl; destruct (HX l Hl) as [A B]; split; eapply near_pos; eauto).
  assert (Pl : forall l, In l (idxs m) -> pr l <= P /\ pi l <= P).
  { intros l Hl. destruct (Pw l Hl) as [A B]. assert (H := suml_one_le (fun l => pr l + pi l) (idxs m) ltac:(intros y Hy; destruct (Pw y Hy); qlra) l Hl). cbn beta in H. change (suml _ (idxs m)) with (sumI m (fun l => pr l + pi l)) in H.
    set (t := sumI m _) in *. clearbody t. split; qlra. }
  assert (HT : forall l, In l (idxs m) -> cnear (gterm ga gb) ((pr l + pi l) * q) ((pr l + pi l) * q) (eterm ga ea gb eb P Q) (rmul (X i l) (Y l j)) (rmul (X0 i l) (Y0 l j))).
  { intros l Hl. assert (Hl' := Hl). apply in_idxs in Hl'. destruct (Pl l Hl) as [A B].
    assert (N := mulc_near ga ea gb eb P q (pr l) (pi l) _ _ _ _ Hga Hea Hgb Heb A B (HX l Hl') (HY l Hl') (fold_cfinite _ _ _ HF l Hl)).
    assert (G := gterm_pos ga gb Hga Hgb). assert (E := eterm_mono ga ea gb eb P q P Q Hga Hea Hgb Heb (Qcle_refl _) HQq).
    destruct N as [N1 N2]. split; (eapply near_mono; [eapply near_pos; eassumption|exact G|apply Qcle_refl|apply Qcle_refl|exact E|assumption]). }
  set (g := gterm ga gb) in *. set (e := eterm ga ea gb eb P Q) in *.
  assert (Hg : 0 <= g) by (apply gterm_pos; auto).
  assert (HP0 : 0 <= p). { eapply Qcle_trans; [|exact Hp]. apply sum_pos. intros l Hl. destruct (Pw l) as [A B]; [apply in_idxs; auto|]. qlra. }
  assert (He : 0 <= e) by (apply eterm_pos; auto; [exact (Qcle_trans _ _ _ HP0 HPp)|exact (Qcle_trans _ _ _ Hq HQq)]).
  assert (HW : suml (fun l => (pr l + pi l) * q) (idxs m) <= p * q).
  { assert (EM := suml_mul_r q (fun l => pr l + pi l) (idxs m)). change (@rmul Qc QcOps) with Qcmult in EM. rewrite <- EM. apply Qcmult_le_compat_r; auto. }
  assert (L : (length (idxs m) + 0)%nat = (2 ^ m)%nat) by (unfold idxs; rewrite map_length, seq_length; lia).
  assert (Z0 : near (gsum 0 g) 0 (esum 0 e) r0 0). { split; [rewrite qabs0; apply Qcle_refl|]. rewrite (proj1 ro_0). replace (0 - 0) with 0 by ring. rewrite qabs0. unfold esum. change (zq (Z.of_nat 0)) with 0. rewrite Qcmult_0_l, Qcmult_0_r. apply Qcle_refl. }
  assert (FIN : forall f h, (forall l, In l (idxs m) -> near g ((pr l + pi l) * q) e (f l) (h l)) -> finite (fold_left (fun acc l => radd acc (f l)) (idxs m) r0) = true ->
    near (gsum (2 ^ m) g) (p * q) (esum (2 ^ m) e) (fold_left (fun acc l => radd acc (f l)) (idxs m) r0) (suml h (idxs m))).
  { intros f h Hfh Hff. assert (N := fold_near g e f h (fun l => (pr l + pi l) * q) (idxs m) Hg He Hfh 0 r0 0 0 Z0 Hff).
    rewrite L, !Qcplus_0_l in N. eapply near_mono; [eapply near_pos; exact N|apply gsum_pos; exact Hg|apply Qcle_refl|exact HW|apply Qcle_refl|exact N]. }
  unfold cnear, mmulf, mmul, sumI in *. unfold cfinite in HF. rewrite !(proj1 (fold_re _ _ _)), !(proj2 (fold_re _ _ _)) in *. rewrite !(proj1 (suml_re _ _)), !(proj2 (suml_re _ _)).
  apply Bool.andb_true_iff in HF as [F1 F2]. split; (apply FIN; [intros l Hl; apply (HT l Hl)|assumption]).
Qed.

(** *** Products with null generators *)
Definition rowok (m : nat) (g e : Qc) (X : N -> N -> C) (X0 : N -> N -> CQ) (p : Qc) : Prop :=
  exists pr pi : N -> N -> Qc, (forall i j, (i < pow2 m)%N -> (j < pow2 m)%N -> cnear g (pr i j) (pi i j) e (X i j) (X0 i j)) /\
    forall i, (i < pow2 m)%N -> sumI m (fun j => pr i j + pi i j) <= p.
Definition entok (m : nat) (g e : Qc) (X : N -> N -> C) (X0 : N -> N -> CQ) (q : Qc) : Prop :=
  forall i j, (i < pow2 m)%N -> (j < pow2 m)%N -> cnear g q q e (X i j) (X0 i j).

Lemma rowok_ent m g e X X0 p : 0 <= g -> rowok m g e X X0 p -> entok m g e X X0 p.
Proof.
  intros Hg (pr & pi & H & HS) i j Hi Hj. destruct (H i j Hi Hj) as [H1 H2].
  assert (PP : forall l, In l (idxs m) -> 0 <= pr i l + pi i l).
  { intros l Hl. apply in_idxs in Hl. destruct (H i l Hi Hl) as [A B]. apply near_pos in A. apply near_pos in B. qlra. }
  assert (L := suml_one_le (fun l => pr i l + pi i l) (idxs m) PP j ltac:(apply in_idxs; auto)). specialize (HS i Hi). unfold sumI in HS. cbn beta in L. set (t := suml _ _) in *. clearbody t.
  pose proof (near_pos _ _ _ _ _ H1) as P1. pose proof (near_pos _ _ _ _ _ H2) as P2.
  split; (eapply near_mono; [| |apply Qcle_refl| |apply Qcle_refl|eassumption]; auto; qlra).
Qed.
Lemma rowok_wal m g e (X : N -> N -> N -> C) (X0 : N -> N -> N -> CQ) p w : rowok m g e (X w) (X0 w) p -> rowok m g e (wal mneg malpha X w) (wal mneg malpha X0 w) p.
Proof.
  intros (pr & pi & H & HS). exists pr, pi. split; [|exact HS]. intros i j Hi Hj. specialize (H i j Hi Hj). unfold wal, xsgb, mneg, malpha. 
  destruct (par w); [apply cnear_neg|]; apply cnear_sgb; exact H.
Qed.

Lemma wm_fin m s : forall X Y : N -> N -> N -> C, (forall w i j, (w < pow2 s)%N -> (i < pow2 m)%N -> (j < pow2 m)%N -> cfinite (wm (mmulf m) madd mneg malpha s X Y w i j) = true) ->
  forall w i j, (w < pow2 s)%N -> (i < pow2 m)%N -> (j < pow2 m)%N -> cfinite (X w i j) = true /\ cfinite (Y w i j) = true.
Proof.
  induction s as [|s IH]; intros X Y H w i j Hw Hi Hj.
  - split; [apply (mmulf_fin m (X w) (Y w) i 0 (H w i 0%N Hw Hi (pow2_pos m)) j Hj)|apply (mmulf_fin m (X w) (Y w) 0 j (H w 0%N j Hw (pow2_pos m) Hj) i Hi)].
  - apply split_lt in Hw as [Hw|(w' & -> & Hw)].
    + apply IH; auto. intros v a b Hv Ha Hb. specialize (H v a b (low_lt _ _ Hv) Ha Hb). rewrite wm_low in H by auto. exact H.
    + split.
      * apply (IH (fun v => X (pow2 s + v)%N) Y); auto. intros v a b Hv Ha Hb. specialize (H _ a b (high_lt _ _ Hv) Ha Hb). rewrite wm_high in H. apply cfin_add in H. apply H.
      * apply (IH (wal mneg malpha X) (fun v => Y (pow2 s + v)%N)); auto. intros v a b Hv Ha Hb. specialize (H _ a b (high_lt _ _ Hv) Ha Hb). rewrite wm_high in H. apply cfin_add in H. apply H.
Qed.

Lemma gcl_step s g : 0 <= g -> gcl s g <= gcl (S s) g.
Proof.
  intros Hg. unfold gcl. cbn [Qcpower]. pose proof ro_u as Hu. pose proof (qpow_ge ulp s Hu) as HG. set (G := _ ^ s) in *. clearbody G.
  assert (0 <= ulp * (G * (1 + g))) by (repeat (apply qmul_pos; try qlra)). replace ((1 + ulp) * G * (1 + g) - 1) with (G * (1 + g) - 1 + ulp * (G * (1 + g))) by ring. set (x := ulp * _) in *. set (y := _ - 1) in *. clearbody x y. qlra.
Qed.
Lemma ecl_step s e : 0 <= e -> ecl s e <= ecl (S s) e.
Proof.
  intros He. unfold ecl. cbn [Qcpower]. pose proof ro_u as Hu. pose proof ro_eta as Ht. pose proof (qpow_ge ulp s Hu) as HG. assert (HK : 1 <= (1 + 1) ^ s) by (apply qpow_ge; discriminate). set (G := (1 + ulp) ^ s) in *. set (K := (1 + 1) ^ s) in *. clearbody G K.
  assert (0 <= K * G * (e + eta)) by (repeat (apply qmul_pos; try qlra)). assert (0 <= ulp * (K * G * (e + eta))) by (apply qmul_pos; auto).
  replace ((1 + 1) * K * ((1 + ulp) * G) * (e + eta) - eta) with (K * G * (e + eta) + K * G * (e + eta) + (1 + 1) * (ulp * (K * G * (e + eta))) - eta) by ring. set (x := ulp * _) in *. set (y := K * G * _) in *. clearbody x y. qlra.
Qed.

Lemma wm_near ga ea gb eb P Q m s : 0 <= ga -> 0 <= ea -> 0 <= gb -> 0 <= eb -> 0 <= P -> 0 <= Q ->
  forall (X Y : N -> N -> N -> C) (X0 Y0 : N -> N -> N -> CQ) (p q : N -> Qc),
  (forall v, (v < pow2 s)%N -> rowok m ga ea (X v) (X0 v) (p v) /\ p v <= P) ->
  (forall v, (v < pow2 s)%N -> entok m gb eb (Y v) (Y0 v) (q v) /\ q v <= Q) ->
  (forall w i j, (w < pow2 s)%N -> (i < pow2 m)%N -> (j < pow2 m)%N -> cfinite (wm (mmulf m) madd mneg malpha s X Y w i j) = true) ->
  forall w, (w < pow2 s)%N ->
  entok m (gcl s (gsum (2 ^ m) (gterm ga gb))) (ecl s (esum (2 ^ m) (eterm ga ea gb eb P Q))) (wm (mmulf m) madd mneg malpha s X Y w) (wm (mmul m) madd mneg malpha s X0 Y0 w) (wb s p q w).
Proof.
  intros Hga Hea Hgb Heb HP HQ. assert (Hg := gsum_pos (2 ^ m) _ (gterm_pos ga gb Hga Hgb)). assert (He := esum_pos (2 ^ m) _ (eterm_pos ga ea gb eb P Q Hga Hea Hgb Heb HP HQ)).
  pose proof ro_u as Hu. pose proof ro_eta as Ht.
  induction s as [|s IH]; intros X Y X0 Y0 p q HX HY HF w Hw i j Hi Hj.
  - cbn [wm wb] in *. destruct (HX w Hw) as [(pr & pi & H1 & H2) H3]. destruct (HY w Hw) as [H4 H5].
    assert (N := dot_near ga ea gb eb (p w) (q w) P Q m (X w) (Y w) (X0 w) (Y0 w) i j (pr i) (pi i) Hga Hea Hgb Heb (near_pos _ _ _ _ _ (proj1 (H4 i j Hi Hj)))
      (fun l Hl => H1 i l Hi Hl) (fun l Hl => H4 l j Hl Hj) (H2 i Hi) H3 H5 (HF w i j Hw Hi Hj)).
    unfold gcl, ecl. cbn [Qcpower].
    set (g := gsum _ _) in *. set (e := esum _ _) in *. replace (1 * (1 + g) - 1) with g by ring. replace (1 * 1 * (e + eta) - eta) with e by ring. exact N.
  - assert (HX0 : forall v, (v < pow2 s)%N -> rowok m ga ea (X v) (X0 v) (p v) /\ p v <= P) by (intros; apply HX, low_lt; auto).
    assert (HY0 : forall v, (v < pow2 s)%N -> entok m gb eb (Y v) (Y0 v) (q v) /\ q v <= Q) by (intros; apply HY, low_lt; auto).
    apply split_lt in Hw as [Hw|(w' & -> & Hw)].
    + rewrite !wm_low, wb_low by auto.
      assert (N := IH X Y X0 Y0 p q HX0 HY0 (fun v a b Hv Ha Hb => eq_trans (f_equal cfinite (eq_sym (f_equal (fun f => f a b) (wm_low (mmulf m) madd mneg malpha s X Y v Hv)))) (HF v a b (low_lt _ _ Hv) Ha Hb)) w Hw i j Hi Hj).
      destruct N as [N1 N2]. split; (eapply near_mono; [eapply near_pos; eassumption|apply gcl_pos; exact Hg|apply gcl_step; exact Hg|apply Qcle_refl|apply ecl_step; exact He|assumption]).
    + assert (N1 := IH (fun v => X (pow2 s + v)%N) Y (fun v => X0 (pow2 s + v)%N) Y0 (fun v => p (pow2 s + v)%N) q (fun v Hv => HX _ (high_lt _ _ Hv)) HY0).
      assert (N2 := IH (wal mneg malpha X) (fun v => Y (pow2 s + v)%N) (wal mneg malpha X0) (fun v => Y0 (pow2 s + v)%N) p (fun v => q (pow2 s + v)%N)
        (fun v Hv => conj (rowok_wal _ _ _ _ _ _ _ (proj1 (HX0 v Hv))) (proj2 (HX0 v Hv))) (fun v Hv => HY _ (high_lt _ _ Hv))).
      assert (HFs : forall v a b, (v < pow2 s)%N -> (a < pow2 m)%N -> (b < pow2 m)%N ->
        cfinite (wm (mmulf m) madd mneg malpha s (fun v => X (pow2 s + v)%N) Y v a b) = true /\ cfinite (wm (mmulf m) madd mneg malpha s (wal mneg malpha X) (fun v => Y (pow2 s + v)%N) v a b) = true).
      { intros v a b Hv Ha Hb. specialize (HF _ a b (high_lt _ _ Hv) Ha Hb). rewrite wm_high in HF. apply cfin_add in HF. exact HF. }
      specialize (N1 (fun v a b Hv Ha Hb => proj1 (HFs v a b Hv Ha Hb)) w' Hw i j Hi Hj). specialize (N2 (fun v a b Hv Ha Hb => proj2 (HFs v a b Hv Ha Hb)) w' Hw i j Hi Hj).
      assert (HFw := HF _ i j (high_lt _ _ Hw) Hi Hj). rewrite !wm_high, wb_high in *. clear IH HFs HX HY HX0 HY0 HF.
      set (g := gsum _ _) in *. set (e := esum _ _) in *. clearbody g e. unfold madd in *.
      set (z1 := wm (mmulf m) _ _ _ s (fun v => X (pow2 s + v)%N) Y w' i j) in *. set (z2 := wm (mmulf m) _ _ _ s (wal mneg malpha X) (fun v => Y (pow2 s + v)%N) w' i j) in *.
      set (y1 := wm (mmul m) _ _ _ s (fun v => X0 (pow2 s + v)%N) Y0 w' i j) in *. set (y2 := wm (mmul m) _ _ _ s (wal mneg malpha X0) (fun v => Y0 (pow2 s + v)%N) w' i j) in *.
      set (b1 := wb s _ q w') in *. set (b2 := wb s p _ w') in *. clearbody z1 z2 y1 y2 b1 b2.
      assert (EE : (1 + ulp) * ((1 + 1) * ecl s e) + eta <= ecl (S s) e).
      { unfold ecl. cbn [Qcpower]. set (G := (1 + ulp) ^ s). set (K := (1 + 1) ^ s). assert (0 <= ulp * eta) by (apply qmul_pos; auto).
        match goal with |- ?x <= ?y => replace y with (x + (ulp * eta + ulp * eta)) by ring; set (t := x) end. set (z := ulp * eta) in *. clearbody z t. qlra. }
      assert (GE : (1 + ulp) * (1 + gcl s g) - 1 = gcl (S s) g) by (unfold gcl; cbn [Qcpower]; ring).
      assert (STEP : forall (a b : F) A B, finite (radd a b) = true -> near (gcl s g) b1 (ecl s e) a A -> near (gcl s g) b2 (ecl s e) b B -> near (gcl (S s) g) (b1 + b2) (ecl (S s) e) (radd a b) (A + B)).
      { intros a b A B Hf [M1 M2] [M3 M4]. apply ro_add in Hf as (_ & _ & R).
        split; [eapply Qcle_trans; [apply Qcabs_triangle|]; apply Qcplus_le_compat; auto|].
        assert (S1 := sum_step ulp eta (gcl s g) (ecl s e) A B b1 b2 (val a) (val b) (val (radd a b)) Hu (gcl_pos _ _ Hg) (ecl_pos _ _ He) M2 M1 M4 M3 R).
        rewrite GE in S1. eapply Qcle_trans; [exact S1|]. rewrite <- Qcplus_assoc. apply Qcplus_le_compat; [apply Qcle_refl|exact EE]. }
      destruct z1 as [p1 p2], z2 as [q1 q2], y1 as [c1 c2], y2 as [d1 d2], N1 as [N1 N1'], N2 as [N2 N2']. unfold cfinite in HFw. cbn [radd CplxOps c_re c_im] in *. apply Bool.andb_true_iff in HFw as [F1 F2].
      split; cbn [c_re c_im radd CplxOps]; apply STEP; auto.
Qed.

(** *** Rows of a transform *)
Lemma cl_acl g e : 0 <= g -> 0 <= e -> forall m (x : N -> F) (y w : N -> Qc),
  (forall t, (t < pow2 (2 * m))%N -> near g (w t) e (x t) (y t)) ->
  (forall i j, (i < pow2 m)%N -> (j < pow2 m)%N -> finite (cl m x i j) = true) ->
  forall i j, (i < pow2 m)%N -> (j < pow2 m)%N -> near (gcl m g) (acl m w i j) (ecl m e) (cl m x i j) (cl m y i j).
Proof.
  intros Hg He. pose proof ro_u as Hu. pose proof ro_eta as Ht. induction m as [|m IH]; intros x y w H HF i j Hi Hj.
  - cbn [cl acl]. unfold gcl, ecl. cbn [Qcpower]. replace (1 * (1 + g) - 1) with g by ring. replace (1 * 1 * (e + eta) - eta) with e by ring. apply (H 0%N). reflexivity.
  - pose proof (cl_parts m x HF) as P.
    rewrite two_S in *. set (n := (2 * m)%nat) in *.
    assert (I0 := IH x y w ltac:(intros; apply H, low_lt, low_lt; auto) ltac:(intros; apply P; auto)).
    assert (I1 := IH (up n x) (up n y) (up n w) ltac:(intros; apply H, low_lt, high_lt; auto) ltac:(intros; apply P; auto)).
    assert (I2 := IH (up (S n) x) (up (S n) y) (up (S n) w) ltac:(intros; apply H, high_lt, low_lt; auto) ltac:(intros; apply P; auto)).
    assert (I3 := IH (up n (up (S n) x)) (up n (up (S n) y)) (up n (up (S n) w)) ltac:(intros; apply H, high_lt, high_lt; auto) ltac:(intros; apply P; auto)).
    clear IH H.
    assert (EE : (1 + ulp) * ((1 + 1) * ecl m e) + eta <= ecl (S m) e).
    { unfold ecl. cbn [Qcpower]. set (G := (1 + ulp) ^ m). set (K := (1 + 1) ^ m). assert (0 <= ulp * eta) by (apply qmul_pos; auto).
      match goal with |- ?x <= ?y => replace y with (x + (ulp * eta + ulp * eta)) by ring; set (t := x) end. set (z := ulp * eta) in *. clearbody z t. qlra. }
    assert (GE : (1 + ulp) * (1 + gcl m g) - 1 = gcl (S m) g) by (unfold gcl; cbn [Qcpower]; ring).
    assert (STEP : forall (a b r : F) A B b1 b2, near (gcl m g) b1 (ecl m e) a A -> near (gcl m g) b2 (ecl m e) b B -> rounds (val r) (val a + val b) -> near (gcl (S m) g) (b1 + b2) (ecl (S m) e) r (A + B)).
    { intros a b r A B b1 b2 [M1 M2] [M3 M4] R.
      split; [eapply Qcle_trans; [apply Qcabs_triangle|]; apply Qcplus_le_compat; auto|].
      assert (S1 := sum_step ulp eta (gcl m g) (ecl m e) A B b1 b2 (val a) (val b) (val r) Hu (gcl_pos _ _ Hg) (ecl_pos _ _ He) M2 M1 M4 M3 R).
      rewrite GE in S1. eapply Qcle_trans; [exact S1|]. rewrite <- Qcplus_assoc. apply Qcplus_le_compat; [apply Qcle_refl|exact EE]. }
    assert (STEP' : forall (a b r : F) A B b1 b2, near (gcl m g) b1 (ecl m e) a A -> near (gcl m g) b2 (ecl m e) b B -> rounds (val r) (val a - val b) -> near (gcl (S m) g) (b1 + b2) (ecl (S m) e) r (A - B)).
    { intros a b r A B b1 b2 N1 N2 R. apply near_neg in N2. replace (A - B) with (A + - B) by ring. eapply STEP; [exact N1|exact N2|]. rewrite (proj1 (ro_neg b)). exact R. }
    assert (SG : forall b (a : F) A B, near (gcl (S m) g) B (ecl (S m) e) a A -> near (gcl (S m) g) B (ecl (S m) e) (sgb b a) (sgb b A)) by (intros [|] a A B HH; [apply near_neg; exact HH|exact HH]).
    assert (HFij := HF i j Hi Hj). cbn [cl acl] in *. cbv zeta. fold n in HFij |- *.
    spl i Hi; spl j Hj; repeat first [rewrite blk_11 in * by auto | rewrite blk_10 in * by auto | rewrite blk_01 in * by auto | rewrite blk_00 in * by auto]; unfold malpha, madd, msub in *.
    + apply ro_add in HFij as (_ & _ & R). apply (STEP _ _ _ _ _ _ _ (I0 i j Hi Hj) (I3 i j Hi Hj) R).
    + rewrite (proj2 (sgb_val _ _)) in HFij. apply SG. apply ro_add in HFij as (_ & _ & R). apply (STEP _ _ _ _ _ _ _ (I1 i j0 Hi Hj) (I2 i j0 Hi Hj) R).
    + apply ro_sub in HFij as (_ & _ & R). apply (STEP' _ _ _ _ _ _ _ (I1 i0 j Hi Hj) (I2 i0 j Hi Hj) R).
    + rewrite (proj2 (sgb_val _ _)) in HFij. apply SG. apply ro_sub in HFij as (_ & _ & R). apply (STEP' _ _ _ _ _ _ _ (I0 i0 j0 Hi Hj) (I3 i0 j0 Hi Hj) R).
Qed.

(** Approximated part by part, relative to the parts. *)
Definition cw (g e : Qc) (z : C) (w : CQ) : Prop := cnear g (Qcabs (c_re w)) (Qcabs (c_im w)) e z w.
Lemma cl_rows m g e (x : N -> C) (y : N -> CQ) : 0 <= g -> 0 <= e ->
  (forall t, (t < pow2 (2 * m))%N -> cfinite (x t) = true -> cw g e (x t) (y t)) ->
  (forall i j, (i < pow2 m)%N -> (j < pow2 m)%N -> cfinite (cl m x i j) = true) ->
  rowok m (gcl m g) (ecl m e) (cl m x) (cl m y) (sumI (2 * m) (fun t => cabs1 (y t))).
Proof.
  intros Hg He H HF.
  assert (HF1 : forall i j, (i < pow2 m)%N -> (j < pow2 m)%N -> finite (cl m (fun t => c_re (x t)) i j) = true /\ finite (cl m (fun t => c_im (x t)) i j) = true).
  { intros i j Hi Hj. specialize (HF i j Hi Hj). unfold cfinite in HF. rewrite (proj1 (cl_re m x i j)), (proj2 (cl_re m x i j)) in HF. apply Bool.andb_true_iff in HF. exact HF. }
  assert (Hx : forall t, (t < pow2 (2 * m))%N -> cfinite (x t) = true).
  { intros t Ht. unfold cfinite. apply Bool.andb_true_iff. split.
    - apply (cl_finite m (fun t => c_re (x t))); auto. intros; apply HF1; auto.
    - apply (cl_finite m (fun t => c_im (x t))); auto. intros; apply HF1; auto. }
  exists (acl m (fun t => Qcabs (c_re (y t)))), (acl m (fun t => Qcabs (c_im (y t)))). split.
  - intros i j Hi Hj. unfold cnear. rewrite !(proj1 (cl_re m _ i j)), !(proj2 (cl_re m _ i j)).
    split; apply cl_acl; auto; try (intros; apply HF1; auto); intros t Ht; apply (H t Ht (Hx t Ht)).
  - intros i Hi. set (w1 := fun t => Qcabs (c_re (y t))). set (w2 := fun t => Qcabs (c_im (y t))).
    assert (E1 := sumI_add m (acl m w1 i) (acl m w2 i)). assert (E2 := sumI_add (2 * m) w1 w2). rewrite !acl_row in E1 by auto. rewrite <- E2 in E1.
    eapply eq_ind_r with (P := fun t => t <= _); [apply Qcle_refl|exact E1].
Qed.

(** Phases. *)
Lemma cabs1_unit (p : C) (q w : CQ) : unit4 p q -> cabs1 (rmul w q) = cabs1 w /\ cabs1 (rmul q w) = cabs1 w.
Proof.
  intros (s & Fs & As & [(_ & ->)|(_ & ->)]); destruct w as [a b]; unfold cabs1; cbn [rmul CplxOps c_re c_im QcOps radd rsub].
  - replace (a * val s - b * 0) with (a * val s) by ring. replace (a * 0 + b * val s) with (b * val s) by ring. replace (val s * a - 0 * b) with (a * val s) by ring. replace (val s * b + 0 * a) with (b * val s) by ring.
    rewrite !Qcabs_Qcmult, As, !Qcmult_1_r. auto.
  - replace (a * 0 - b * val s) with (- (b * val s)) by ring. replace (a * val s + b * 0) with (a * val s) by ring. replace (0 * a - val s * b) with (- (b * val s)) by ring. replace (0 * b + val s * a) with (a * val s) by ring.
    rewrite !Qcabs_opp, !Qcabs_Qcmult, As, !Qcmult_1_r. split; ring.
Qed.
Local Notation gph g := ((1 + ulp) * (1 + ulp) * (1 + g) - 1).
Local Notation eph e := ((1 + ulp) * (1 + ulp) * e + ((1 + ulp) + 1) * eta).
Lemma cw_self (z : C) : cw 0 0 z (cval z).
Proof.
  unfold cw, cnear, near, cval. cbn [c_re c_im]. replace (val (c_re z) - val (c_re z)) with 0 by ring. replace (val (c_im z) - val (c_im z)) with 0 by ring. rewrite qabs0, !Qcmult_0_l.
  repeat split; apply Qcle_refl.
Qed.
Lemma cw_phase_r (z p : C) q : unit4 p q -> cfinite (rmul z p) = true -> forall g e w, cw g e z w -> cw (gph g) (eph e) (rmul z p) (rmul w q).
Proof.
  intros (s & Fs & As & Hs) Hf g e [w1 w2]. destruct z as [a b]. unfold cfinite in Hf. unfold cw, cnear, near.
  destruct Hs as [(-> & ->)|(-> & ->)]; cbn [rmul CplxOps c_re c_im QcOps radd rsub] in *; apply Bool.andb_true_iff in Hf as [F1 F2]; intros ((_ & W1) & (_ & W2)).
  - pose proof F1 as K. apply ro_sub in K as (K1 & K2 & _). apply ro_mul in K1 as (Fa & _ & Ra). apply ro_mul in K2 as (Fb & _ & _).
    pose proof F2 as K. apply ro_add in K as (_ & K2 & _). apply ro_mul in K2 as (_ & _ & Rb).
    rewrite (proj1 (ro_mul_0 _ Fa)), (proj1 (ro_mul_0 _ Fb)), sub_r0, n_add_0_l.
    replace (w1 * val s - w2 * 0) with (w1 * val s) by ring. replace (w1 * 0 + w2 * val s) with (w2 * val s) by ring.
    rewrite !unit_abs by auto. split; (split; [apply Qcle_refl|]); eapply phase_one; eauto using Qcle_refl.
  - pose proof F1 as K. apply ro_sub in K as (K1 & K2 & _). apply ro_mul in K1 as (Fa & _ & _). apply ro_mul in K2 as (Fb & _ & Rb).
    pose proof F2 as K. apply ro_add in K as (K1 & _ & _). apply ro_mul in K1 as (_ & _ & Ra).
    rewrite (proj1 (ro_mul_0 _ Fa)), (proj1 (ro_mul_0 _ Fb)), add_r0, n_sub_def, n_add_0_l, (proj1 (ro_neg _)).
    replace (w1 * 0 - w2 * val s) with (- (w2 * val s)) by ring. replace (w1 * val s + w2 * 0) with (w1 * val s) by ring.
    rewrite Qcabs_opp, !unit_abs by auto. replace (- val (rmul b s) - - (w2 * val s)) with (- (val (rmul b s) - w2 * val s)) by ring. rewrite Qcabs_opp.
    split; (split; [apply Qcle_refl|]); eapply phase_one; eauto using Qcle_refl.
Qed.
Lemma cw_phase_l (z p : C) q : unit4 p q -> cfinite (rmul p z) = true -> forall g e w, cw g e z w -> cw (gph g) (eph e) (rmul p z) (rmul q w).
Proof.
  intros (s & Fs & As & Hs) Hf g e [w1 w2]. destruct z as [a b]. unfold cfinite in Hf. unfold cw, cnear, near.
  destruct Hs as [(-> & ->)|(-> & ->)]; cbn [rmul CplxOps c_re c_im QcOps radd rsub] in *; apply Bool.andb_true_iff in Hf as [F1 F2]; intros ((_ & W1) & (_ & W2)).
  - pose proof F1 as K. apply ro_sub in K as (K1 & K2 & _). apply ro_mul in K1 as (_ & Fa & Ra). apply ro_mul in K2 as (_ & Fb & _).
    pose proof F2 as K. apply ro_add in K as (K1 & _ & _). apply ro_mul in K1 as (_ & _ & Rb).
    rewrite (proj2 (ro_mul_0 _ Fa)), (proj2 (ro_mul_0 _ Fb)), sub_r0, add_r0. rewrite Qcmult_comm in Ra, Rb.
    replace (val s * w1 - 0 * w2) with (w1 * val s) by ring. replace (val s * w2 + 0 * w1) with (w2 * val s) by ring.
    rewrite !unit_abs by auto. split; (split; [apply Qcle_refl|]); eapply phase_one; eauto using Qcle_refl.
  - pose proof F1 as K. apply ro_sub in K as (K1 & K2 & _). apply ro_mul in K1 as (_ & Fa & _). apply ro_mul in K2 as (_ & Fb & Rb).
    pose proof F2 as K. apply ro_add in K as (_ & K2 & _). apply ro_mul in K2 as (_ & _ & Ra).
    rewrite (proj2 (ro_mul_0 _ Fa)), (proj2 (ro_mul_0 _ Fb)), n_sub_def, !n_add_0_l, (proj1 (ro_neg _)). rewrite Qcmult_comm in Ra, Rb.
    replace (0 * w1 - val s * w2) with (- (w2 * val s)) by ring. replace (0 * w2 + val s * w1) with (w1 * val s) by ring.
    rewrite Qcabs_opp, !unit_abs by auto. replace (- val (rmul s b) - - (w2 * val s)) with (- (val (rmul s b) - w2 * val s)) by ring. rewrite Qcabs_opp.
    split; (split; [apply Qcle_refl|]); eapply phase_one; eauto using Qcle_refl.
Qed.
End Tr.
