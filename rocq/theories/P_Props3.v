(** Lemmas behind the product properties (C16 - C28, C30). *)
From Verif Require Export P_Agree Spec_Prod.
Local Open Scope nat_scope.

(** *** Function-level facts *)
Section Fun.
Context {T : Type} {RO : RingOps T} {W : NumLaws T} {L : RingLaws T}.

(** Wedge of homogeneous functions is the top grade of the geometric product. *)
Definition homog (d : nat) (r : nat) (x : N -> T) : Prop := forall i, (i < pow2 d)%N -> popcount i <> r -> x i = r0.

Lemma gp_top_grade d Q P r s (x y : N -> T) k : homog d r x -> homog d s y -> (k < pow2 d)%N ->
  gp d 0 (ones d) x y k = if Nat.eqb (popcount k) (r + s) then gp d Q P x y k else r0.
Proof.
  intros Hx Hy Hk.
  assert (G : forall i, (i < pow2 d)%N ->
    act (gsign d 0 (ones d) i (N.lxor i k)) (rmul (x i) (y (N.lxor i k))) =
    if Nat.eqb (popcount k) (r + s) then act (gsign d Q P i (N.lxor i k)) (rmul (x i) (y (N.lxor i k))) else r0).
  { intros i Hi. set (j := N.lxor i k).
    destruct (Nat.eq_dec (popcount i) r) as [Er|Er]; [|rewrite (Hx i) by auto; rewrite mul_0_l, !act_0; destruct (Nat.eqb _ _); auto].
    destruct (Nat.eq_dec (popcount j) s) as [Es|Es]; [|rewrite (Hy j) by (auto; apply lxor_lt; auto); rewrite mul_0_r, !act_0; destruct (Nat.eqb _ _); auto].
    assert (Ek : k = N.lxor i j) by (unfold j; rewrite lxor_cancel; auto).
    pose proof (popcount_lxor i j) as Hp. rewrite <- Ek, Er, Es in Hp.
    rewrite <- (wsign_gsign d 0) by auto. unfold wsign.
    destruct (Nat.eqb_spec (popcount k) (r + s)) as [E|E].
    - assert (E0 : N.land i j = 0%N) by (apply popcount_eq0; lia).
      rewrite E0. cbn [N.eqb negb]. unfold gsign, qpar. rewrite E0, !N.land_0_l. cbn [N.eqb negb]. rewrite par_0, xorb_false_r. reflexivity.
    - destruct (N.eqb_spec (N.land i j) 0) as [E0|E0]; [|reflexivity].
      exfalso. apply E. rewrite E0 in Hp. change (popcount 0) with 0 in Hp. lia. }
  unfold gp. rewrite (sumI_ext d _ _ G). destruct (Nat.eqb _ _); auto. apply sumI_0. auto.
Qed.

Lemma wedge_comm {CL : CommLaws T} d r s (x y : N -> T) k : homog d r x -> homog d s y -> (k < pow2 d)%N ->
  gp d 0 (ones d) x y k = sgb (Nat.odd (r * s)) (gp d 0 (ones d) y x k).
Proof.
  intros Hx Hy Hk. unfold gp at 2. rewrite <- sumI_sgb. unfold gp. rewrite (sumI_lxor d k) by auto. apply sumI_ext. intros i Hi.
  rewrite lxor_cancel_r. set (j := N.lxor i k).
  assert (Hj : (j < pow2 d)%N) by (apply lxor_lt; auto).
  destruct (Nat.eq_dec (popcount j) r) as [Er|Er]; [|rewrite (Hx j) by auto; rewrite mul_0_l, mul_0_r, !act_0, sgb_0; auto].
  destruct (Nat.eq_dec (popcount i) s) as [Es|Es]; [|rewrite (Hy i) by auto; rewrite mul_0_l, mul_0_r, !act_0, sgb_0; auto].
  rewrite (mul_comm (y i)). rewrite <- !(wsign_gsign d 0) by auto. unfold wsign. rewrite (N.land_comm i j).
  destruct (N.eqb_spec (N.land j i) 0) as [E|E]; [|cbn; rewrite sgb_0; reflexivity]. cbn [negb].
  rewrite !act_of_bool, sgb_sgb. f_equal. rewrite (beta_comm d i j) by auto. rewrite (N.land_comm i j), E, par_0, xorb_false_r.
  unfold par. rewrite Er, Es, Nat.odd_mul. destruct (beta d i j), (Nat.odd r), (Nat.odd s); reflexivity.
Qed.

Lemma homog_low n r (x : N -> T) : homog (S n) r x -> homog n r x.
Proof. intros Hx i Hi Hr. apply Hx; auto. rewrite pow2_S. lia. Qed.
Lemma homog_up n r (x : N -> T) : homog (S n) (S r) x -> homog n r (up n x).
Proof.
  intros Hx i Hi Hr. unfold up. apply Hx; [rewrite pow2_S; lia|]. rewrite popcount_add_pow2 by auto. congruence.
Qed.
Lemma homog0 n (x : N -> T) : homog n 0 x -> feq n x (del 0 (x 0%N)).
Proof.
  intros Hx i Hi. unfold del. destruct (N.eqb_spec i 0) as [->|Hne]; auto. apply Hx; auto.
  intros E. apply popcount_eq0 in E. auto.
Qed.

Lemma wedge_vv {CL : CommLaws T} d (x : N -> T) : homog d 1 x -> feq d (gp d 0 (ones d) x x) (fun _ => r0).
Proof.
  induction d as [|n IH]; intros Hx k Hk.
  - rewrite pow2_0 in Hk. assert (k = 0%N) as -> by lia.
    unfold gp. rewrite sumI_O. assert (Z : x 0%N = r0) by (apply Hx; [apply pow2_pos | discriminate]). rewrite Z. rewrite mul_0_l, act_0. reflexivity.
  - destruct (index_split n k Hk) as [Hk'|(k' & Hk' & ->)].
    + rewrite wp_low by auto. apply IH; auto using homog_low.
    + rewrite wp_high by auto. pose proof (homog0 _ _ (homog_up _ _ _ Hx)) as Hu.
      rewrite (gp_ext n _ _ (up n x) _ x x k' Hk' Hu (feq_refl _ _)).
      rewrite (gp_ext n _ _ (alpha x) _ (up n x) _ k' Hk' (feq_refl _ _) Hu).
      rewrite gp_del_l, gp_del_r by (auto using pow2_pos).
      rewrite N.lxor_0_l, N.lxor_0_r, gsign_0_l, gsign_0_r. cbn [act]. unfold alpha.
      destruct (Nat.eq_dec (popcount k') 1) as [E|E].
      * unfold par. rewrite E. cbn. rewrite mul_neg_l, (mul_comm (x k')). apply add_neg_r.
      * assert (Z : x k' = r0) by (apply (homog_low _ _ _ Hx); auto). rewrite Z, sgb_0, mul_0_l, mul_0_r. apply add_0_r.
Qed.

End Fun.

(** *** Words in the generators *)
Section Words.
Context {T : Type} {RO : RingOps T} {W : NumLaws T} {L : RingLaws T}.
Variables (d : nat) (Q P : N).
Local Notation gpd := (gp d Q P).

Fixpoint fword (w : list nat) : N -> T :=
  match w with [] => del 0 r1 | i :: r => gpd (del (pow2 i) r1) (fword r) end.

Lemma fword_app u v : feq d (fword (u ++ v)) (gpd (fword u) (fword v)).
Proof.
  induction u as [|i u IH]; intros k Hk; cbn [fword app].
  - symmetry. apply gp_1_l.
  - rewrite gp_assoc by auto. apply gp_ext; auto using feq_refl.
Qed.

Lemma fword_gens m : m <= d -> forall a, (a < pow2 m)%N -> feq d (fword (gens m a)) (del a r1).
Proof.
  induction m as [|m IH]; intros Hm a Ha.
  - assert (a = 0%N) by (rewrite pow2_0 in Ha; lia). subst a. apply feq_refl.
  - destruct (index_split m a Ha) as [Ha'|(a' & Ha' & ->)].
    + rewrite gens_low by auto. apply IH; auto; lia.
    + rewrite gens_top by auto. cbn [fword]. intros k Hk.
      rewrite (gp_ext d Q P _ (del (pow2 m) r1) _ (del a' r1)) by (auto using feq_refl; apply IH; auto; lia).
      rewrite gp_del_del by (apply pow2_lt; auto).
      rewrite gsign_top_plus by auto. rewrite <- add_pow2_lxor, mul_1_l by auto. reflexivity.
Qed.

Lemma beta_low_top m a : (a < pow2 m)%N -> m < d -> beta d a (pow2 m) = par a.
Proof.
  intros Ha Hm. assert (Had : (a < pow2 d)%N) by (pose proof (pow2_le m d); lia).
  rewrite beta_comm by (auto; apply pow2_lt; auto). rewrite (beta_pow2_low m) by (auto; lia).
  rewrite ?(N.land_comm a (pow2 m)), land_pow2_bit, (testbit_high a m) by (auto; lia). rewrite par_0, par_pow2, xorb_false_r.
  destruct (par a); reflexivity.
Qed.

Lemma fword_rev_gens m : m <= d -> forall a, (a < pow2 m)%N -> feq d (fword (rev (gens m a))) (frev (del a r1)).
Proof.
  induction m as [|m IH]; intros Hm a Ha.
  - assert (a = 0%N) by (rewrite pow2_0 in Ha; lia). subst a. cbn. intros k Hk. unfold frev, del.
    destruct (N.eqb_spec k 0) as [->|]; cbn; rewrite ?sgb_0; reflexivity.
  - destruct (index_split m a Ha) as [Ha'|(a' & Ha' & ->)].
    + rewrite gens_low by auto. apply IH; auto; lia.
    + rewrite gens_top by auto. cbn [rev]. intros k Hk. rewrite fword_app by auto. cbn [fword].
      rewrite (gp_ext d Q P _ (frev (del a' r1)) _ (del (pow2 m) r1)); auto;
        [|apply IH; auto; lia|intros i Hi; apply gp_1_r; auto].
      assert (E : feq d (frev (del a' r1)) (del a' (sgb (rbit (popcount a')) r1))).
      { intros i Hi. unfold frev, del. destruct (N.eqb_spec i a') as [->|]; [reflexivity|apply sgb_0]. }
      rewrite (gp_ext d Q P _ _ _ _ k Hk E (feq_refl _ _)).
      assert (Had : (a' < pow2 d)%N) by (pose proof (pow2_le m d); lia).
      rewrite gp_del_del by auto. rewrite mul_1_r. unfold frev, del.
      rewrite N.lxor_comm, <- add_pow2_lxor by auto. destruct (N.eqb_spec k (pow2 m + a')) as [->|]; [|rewrite sgb_0; reflexivity].
      unfold gsign. rewrite !(N.land_comm a' (pow2 m)), !land_pow2_bit, !(testbit_high a' m) by (auto; lia). rewrite !N.land_0_l. cbn [N.eqb negb].
      rewrite par_0, xorb_false_r, act_of_bool, sgb_sgb, beta_low_top by (auto; lia). f_equal.
      rewrite popcount_add_pow2 by auto. rewrite <- Nat.add_1_r, rbit_add. unfold par.
      change (rbit 1) with false. change (Nat.odd 1) with true. rewrite andb_true_r, xorb_false_r. apply xorb_comm.
Qed.
End Words.

Section Laws3.
Context {T : Type} {RO : RingOps T} {W : NumLaws T} {L : RingLaws T} {m : Mode} {H : HashOrder}.
Variables (k : kind) (sg : list tok) (A : algebra).
Hypothesis D : declared sg A.
Local Notation d := (a_dim A).
Local Notation Q := (a_imag A).
Local Notation P := (a_proj A).
Implicit Types x y z : store k T.

Lemma dlen : length sg = d.
Proof. symmetry. apply declared_dim; auto. Qed.

Lemma mul_spec_thm x y : valid A x -> valid A y -> gives A (mv_mul A x y) (spec_mul (sq sg) d (rd x) (rd y)).
Proof.
  intros Hx Hy. eapply gives_ext; [apply (g_mul A sg D); auto|]. apply feq_sym, spec_mul_gp, declared_metric; auto.
Qed.

Lemma mul_ring_thm x y z : valid A x -> valid A y -> valid A z ->
  agree A (p <- mv_mul A x y ;; mv_mul A p z) (q <- mv_mul A y z ;; mv_mul A x q) /\
  agree A (e <- mv_one A ;; mv_mul A e x) (Ok x) /\
  agree A (e <- mv_one A ;; mv_mul A x e) (Ok x) /\
  agree A (s <- mv_add y z ;; mv_mul A x s) (p <- mv_mul A x y ;; q <- mv_mul A x z ;; mv_add p q) /\
  agree A (s <- mv_add x y ;; mv_mul A s z) (p <- mv_mul A x z ;; q <- mv_mul A y z ;; mv_add p q).
Proof.
  intros Hx Hy Hz. assert (HD := valid_of A x Hx). repeat split; ag D; intros i Hi.
  - apply gp_assoc; auto.
  - apply gp_1_l.
  - apply gp_1_r; auto.
  - apply gp_add_r.
  - apply gp_add_l.
Qed.
End Laws3.

Lemma sq_out sg A : declared sg A -> forall i, a_dim A <= i -> sq sg i = 0%Z.
Proof.
  intros D i Hi. rewrite (declared_dim _ _ D) in Hi. unfold sq. apply nth_error_None in Hi. rewrite Hi. reflexivity.
Qed.

Section Laws4.
Context {T : Type} {RO : RingOps T} {W : NumLaws T} {L : RingLaws T} {m : Mode} {H : HashOrder}.
Variables (k : kind) (sg : list tok) (A : algebra).
Hypothesis D : declared sg A.
Local Notation d := (a_dim A).
Local Notation Q := (a_imag A).
Local Notation P := (a_proj A).
Implicit Types x y z : store k T.

(** *** Basis vectors *)
Lemma basis_gives : supports k A -> exists l : list (store k T), mv_basis A = Ok l /\ length l = d /\
  forall i, i < d -> exists e, nth_error l i = Some e /\ valid A e /\ feq d (rd e) (del (pow2 i) r1).
Proof.
  intros Hs. destruct (basis_ok A (declared_ok _ _ D) (supports_dim sg A k D Hs)) as (l & E & Hl & Hb).
  exists l. split; auto. split; auto. intros i Hi. destruct (Hb i Hi) as (e & E1 & He & Hc).
  exists e. split; auto. split; auto. intros j Hj. rewrite (rd_coef d e j) by auto. apply Hc.
Qed.

Lemma basis_thm : supports k A -> exists l : list (store k T), mv_basis A = Ok l /\ length l = d /\
  (forall i e, nth_error l i = Some e ->
     agree A (mv_mul A e e) (mv_from_scalar A (zact (sq sg i) r1))) /\
  (forall i j e f, nth_error l i = Some e -> nth_error l j = Some f -> i <> j ->
     agree A (mv_mul A e f) (p <- mv_mul A f e ;; mv_neg A p)).
Proof.
  intros Hs. destruct (basis_gives Hs) as (l & E & Hl & Hb). exists l. split; auto. split; auto.
  assert (Hn : forall i e, nth_error l i = Some e -> i < d /\ valid A e /\ feq d (rd e) (del (pow2 i) r1)).
  { intros i e He. assert (Hi : i < d) by (rewrite <- Hl; apply nth_error_Some; congruence).
    destruct (Hb i Hi) as (e' & E1 & Hv & Hf). rewrite He in E1. injection E1 as <-. auto. }
  assert (HM := declared_metric _ _ D). split.
  - intros i e He. destruct (Hn i e He) as (Hi & Hv & Hf). assert (HD := valid_of A e Hv).
    ag D. intros j Hj.
    rewrite gp_del_del by (apply pow2_lt; auto). rewrite N.lxor_nilpotent, mul_1_l.
    rewrite <- zact_sign. rewrite (gsign_sq _ _ _ _ HM (sq_out sg A D) i Hi). reflexivity.
  - intros i j e f He Hf' Hne. destruct (Hn i e He) as (Hi & Hv & Hf). destruct (Hn j f Hf') as (Hj & Hv' & Hg).
    ag D. intros a Ha. unfold fneg.
    rewrite !gp_del_del by (apply pow2_lt; auto). rewrite (gsign_anti _ d Q P (sq_out sg A D) j i) by auto.
    rewrite (N.lxor_comm (pow2 j)). unfold del. destruct (a =? _)%N; [|symmetry; apply neg_0].
    rewrite <- act_mul. reflexivity.
Qed.

Lemma word_prod_gives l mul q0' p0' : st_dim_ok (StorageLaws := KLaws (T := T) k) d ->
  (forall x y f g, valid A x -> valid A y -> feq d (rd x) f -> feq d (rd y) g -> gives A (mul x y) (gp d q0' p0' f g)) ->
  (forall i, i < d -> exists e : store k T, nth_error l i = Some e /\ valid A e /\ feq d (rd e) (del (pow2 i) r1)) ->
  forall w, (forall i, In i w -> i < d) -> gives A (word_prod mul A l w) (fword d q0' p0' w).
Proof.
  intros HD Hm Hb. induction w as [|i w IH]; intros Hw; cbn [word_prod fword].
  - apply g_one; auto.
  - eapply gives_bind; [apply IH; intros; apply Hw; right; auto|]. intros p Hp Hf.
    destruct (Hb i (Hw i (or_introl eq_refl))) as (e & E & He & Hfe). unfold nthr. rewrite E. cbn [bind].
    apply Hm; auto.
Qed.

Lemma unit_blade_gives I : st_dim_ok (StorageLaws := KLaws (T := T) k) d -> (I < pow2 d)%N ->
  gives A (unit_blade A I : res (store k T)) (del I r1).
Proof.
  intros HD HI. unfold unit_blade. eapply gives_bind; [apply g_default; auto|]. intros z Hz Hf.
  eapply gives_ext; [apply g_set; auto|]. intros j Hj. cbv beta. rewrite Hf by auto. unfold del. reflexivity.
Qed.

Lemma blade_thm I : supports k A -> (I < pow2 d)%N -> exists l : list (store k T), mv_basis A = Ok l /\
  agree A (word_prod (mv_mul A) A l (gens d I)) (unit_blade A I) /\
  (k <> KQuat -> agree A (word_prod (k_wedge k A) A l (gens d I)) (unit_blade A I)) /\
  agree A (word_prod (mv_mul A) A l (rev (gens d I))) (b <- unit_blade A I ;; mv_rev A b).
Proof.
  intros Hs HI. assert (HD := supports_dim (T := T) sg A k D Hs). destruct (basis_gives Hs) as (l & E & Hl & Hb).
  exists l. split; auto.
  assert (Hg : forall i, In i (gens d I) -> i < d) by (intros i Hi; apply in_gens in Hi; tauto).
  split; [|split].
  - eapply agree_intro; [apply (word_prod_gives l (mv_mul A) Q P); auto; intros; apply (h_mul A sg D); auto|apply unit_blade_gives; auto|].
    apply fword_gens; auto.
  - intros Hk. eapply agree_intro; [apply (word_prod_gives l (k_wedge k A) 0%N (ones d)); auto; intros; apply (h_kwedge A sg D); auto|apply unit_blade_gives; auto|].
    apply fword_gens; auto.
  - eapply agree_intro; [apply (word_prod_gives l (mv_mul A) Q P); auto; [intros; apply (h_mul A sg D); auto|]|
      eapply gives_bind; [apply unit_blade_gives; auto|]; intros b Hv Hf; eapply h_rev; eauto |].
    + intros i Hi. apply in_rev in Hi. auto.
    + apply fword_rev_gens; auto.
Qed.

(** *** Wedge *)
Lemma wedge_thm x y : k <> KQuat -> valid A x -> valid A y ->
  gives A (k_wedge k A x y) (spec_mul q0 d (rd x) (rd y)).
Proof.
  intros Hk Hx Hy. eapply gives_ext; [apply (h_kwedge A sg D k x y); auto using feq_refl|].
  apply feq_sym, spec_mul_gp, metric_q0.
Qed.

Lemma wedge_laws_thm x y z : k <> KQuat -> valid A x -> valid A y -> valid A z ->
  agree A (p <- k_wedge k A x y ;; k_wedge k A p z) (q <- k_wedge k A y z ;; k_wedge k A x q) /\
  agree A (e <- mv_one A ;; k_wedge k A e x) (Ok x) /\
  agree A (e <- mv_one A ;; k_wedge k A x e) (Ok x) /\
  agree A (s <- mv_add y z ;; k_wedge k A x s) (p <- k_wedge k A x y ;; q <- k_wedge k A x z ;; mv_add p q) /\
  agree A (s <- mv_add x y ;; k_wedge k A s z) (p <- k_wedge k A x z ;; q <- k_wedge k A y z ;; mv_add p q).
Proof.
  intros Hk Hx Hy Hz. assert (HD := valid_of A x Hx). repeat split; ag D; intros i Hi.
  - apply gp_assoc; auto.
  - apply gp_1_l.
  - apply gp_1_r; auto.
  - apply gp_add_r.
  - apply gp_add_l.
Qed.

Lemma wedge_top_thm x y r s : k <> KQuat -> valid A x -> valid A y -> of_grade A r x -> of_grade A s y ->
  agree A (k_wedge k A x y) (p <- mv_mul A x y ;; mv_grade_extract A p (r + s)).
Proof.
  intros Hk Hx Hy Hr Hs. ag D. intros i Hi. apply gp_top_grade; auto.
Qed.

Lemma wedge_vec_thm {CL : CommLaws T} x : k <> KQuat -> valid A x -> of_grade A 1 x ->
  agree A (k_wedge k A x x) (mv_zero A).
Proof. intros Hk Hx Hr. assert (HD := valid_of A x Hx). ag D. apply wedge_vv; auto. Qed.

Lemma wedge_comm_thm {CL : CommLaws T} x y r s : k <> KQuat -> valid A x -> valid A y -> of_grade A r x -> of_grade A s y ->
  agree A (k_wedge k A x y) (p <- k_wedge k A y x ;; if Nat.odd (r * s) then mv_neg A p else Ok p).
Proof.
  intros Hk Hx Hy Hr Hs. destruct (Nat.odd (r * s)) eqn:E; ag D; intros i Hi; rewrite (wedge_comm d r s) by auto; rewrite E; reflexivity.
Qed.

Lemma meet_thm x y : k <> KQuat -> valid A x -> valid A y ->
  agree A (k_meet k A x y) (u <- mv_dual A x ;; v <- mv_dual A y ;; w <- k_wedge k A u v ;; mv_undual A w).
Proof. intros Hk Hx Hy. ag D. apply feq_refl. Qed.

Lemma dual_thm x : valid A x ->
  agree A (u <- mv_dual A x ;; mv_undual A u) (Ok x) /\
  agree A (u <- mv_undual A x ;; mv_dual A u) (Ok x) /\
  gives A (u <- mv_dual A x ;; mv_dual A u) (fun i => msign (popcount i * (d - popcount i)) (rd x i)) /\
  gives A (mv_dual A x) (fun i => zact (csign q0 d i (N.lxor (2 ^ N.of_nat d - 1) i)) (rd x (N.lxor (2 ^ N.of_nat d - 1) i))).
Proof.
  intros Hx. split; [|split; [|split]].
  - ag D. intros i Hi. apply fundual_fdual; auto.
  - ag D. intros i Hi. apply fdual_fundual; auto.
  - eapply gives_ext; [gv D|]. intros i Hi. apply fdual_fdual; auto.
  - eapply gives_ext; [gv D|]. intros i Hi.
    assert (Eo : (2 ^ N.of_nat d - 1)%N = ones d) by (symmetry; apply ones_pow2). rewrite Eo.
    assert (Hc : (N.lxor (ones d) i < pow2 d)%N) by (apply lxor_lt; auto; apply ones_lt).
    rewrite csign0_ok by auto. rewrite zact_sign. unfold wsign. unfold fdual.
    rewrite <- cpl_lxor' by auto. rewrite N.land_comm, cpl_disj. cbn [N.eqb negb]. rewrite act_of_bool. reflexivity.
Qed.
End Laws4.
