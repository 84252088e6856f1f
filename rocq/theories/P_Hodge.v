(** Duality as the Hodge star: lemmas behind C86. *)
From Verif Require Export P_Sandwich5 Spec_Hodge.
Local Open Scope nat_scope.

Section Hodge.
Context {T : Type} {RO : RingOps T} {L : RingLaws T} {m : Mode} {H : HashOrder}.
Variables (k : kind) (sg : list tok) (A : algebra).
Hypothesis D : declared sg A.
Local Notation Sk := (store k T).
Local Notation d := (a_dim A).
Local Notation Q := (a_imag A).
Local Notation P := (a_proj A).
Local Notation I := (ones d).
Implicit Types x y : Sk.

Lemma ps_ones : (2 ^ N.of_nat d - 1)%N = ones d.
Proof. unfold ones. rewrite N.ones_equiv. unfold pow2. rewrite N.sub_1_r. reflexivity. Qed.
Lemma ps_gives : supports k A -> gives A (ps A : res Sk) (del I r1).
Proof. intros Hs. unfold ps. rewrite ps_ones. apply unit_blade_gives; [exact (supports_dim (T := T) sg A k D Hs)|apply ones_lt]. Qed.
Lemma valid_dim_ok x : valid A x -> st_dim_ok (StorageLaws := KLaws (T := T) k) d.
Proof. intros Hx. apply (valid_dim A x Hx). Qed.
Lemma sum_suml (f : N -> T) : sumI d f = suml (fun i => f (N.of_nat i)) (seq 0 (2 ^ d)).
Proof. unfold sumI, idxs. rewrite suml_map. reflexivity. Qed.

(** ** dual(y) ^ x *)
Lemma cpl_eq' i : (i < pow2 d)%N -> N.lxor i I = cpl A i.
Proof. intros Hi. rewrite (cpl_lxor' A i Hi). apply N.lxor_comm. Qed.
Lemma wsign i : gsign d 0 I i (cpl A i) = of_bool (beta d i (cpl A i)).
Proof.
  unfold gsign. assert (E : N.land i (cpl A i) = 0%N) by (rewrite N.land_comm; apply cpl_disj). rewrite E. cbn [N.land N.eqb negb]. f_equal. apply xorb_false_r.
Qed.
Lemma top_pair (x y : N -> T) : gp d 0 I (fdual A y) x I = sumI d (fun i => rmul (y i) (x i)).
Proof.
  unfold gp. rewrite (sumI_lxor d I (fun i => rmul (y i) (x i)) (ones_lt d)). apply sumI_ext. intros i Hi.
  rewrite (cpl_eq' i Hi), wsign, act_of_bool. unfold fdual. rewrite sgb_mul_l, sgb_invol. reflexivity.
Qed.
Lemma top_pair2 (x y : N -> T) : gp d 0 I x (fundual A y) I = sumI d (fun i => rmul (x i) (y i)).
Proof.
  unfold gp. apply sumI_ext. intros i Hi. rewrite (cpl_eq' i Hi), wsign, act_of_bool. unfold fundual. rewrite cpl_invol by auto. rewrite sgb_mul_r, sgb_invol. reflexivity.
Qed.
Lemma dual_homog r (y : N -> T) : homog d r y -> homog d (d - r) (fdual A y) /\ homog d (d - r) (fundual A y).
Proof.
  intros Hy. split; intros i Hi Hp; unfold fdual, fundual; rewrite Hy; try apply sgb_0; try apply cpl_lt; rewrite popcount_cpl by auto; pose proof (popcount_le d i Hi); lia.
Qed.
Lemma homog_top r (x y : N -> T) : homog d r x -> homog d r y -> homog d d (gp d 0 I (fdual A y) x) /\ homog d d (gp d 0 I x (fundual A y)).
Proof.
  intros Hx Hy. destruct (dual_homog r y Hy) as (H1 & H2). destruct (Nat.le_gt_cases r d) as [Hr|Hr].
  - pose proof (homog_wp d (d - r) r _ _ H1 Hx) as W1. pose proof (homog_wp d r (d - r) _ _ Hx H2) as W2.
    assert (E1 : d - r + r = d) by lia. assert (E2 : r + (d - r) = d) by lia.
    split; intros i Hi Hp; [apply W1|apply W2]; auto; lia.
  - assert (Z : feq d x (fun _ => r0)) by (intros i Hi; apply Hx; auto; pose proof (popcount_le d i Hi); lia).
    split; intros i Hi Hp.
    + rewrite (gp_ext d 0 I _ _ _ _ i Hi (feq_refl _ _) Z). apply gp_0_r.
    + rewrite (gp_ext d 0 I _ _ _ _ i Hi Z (feq_refl _ _)). apply gp_0_l.
Qed.
Lemma top_del (x : N -> T) : homog d d x -> feq d x (del I (x I : T)).
Proof. intros Hx i Hi. unfold del. destruct (N.eqb_spec i I) as [->|Hn]; auto. apply Hx; auto. intros E. apply Hn. apply popcount_full; auto. Qed.

Lemma c86_pairing x y r : k <> KQuat -> supports k A -> valid A x -> valid A y -> of_grade A r x -> of_grade A r y ->
  agree A (u <- mv_dual A y ;; k_wedge k A u x) (i <- ps A ;; mv_scale A i (pairing A y x)) /\
  agree A (u <- mv_undual A y ;; k_wedge k A x u) (i <- ps A ;; mv_scale A i (pairing A x y)).
Proof.
  intros Hk Hs Hx Hy Gx Gy. destruct (homog_top r (rd x) (rd y) Gx Gy) as (H1 & H2).
  assert (G1 : gives A (u <- mv_dual A y ;; k_wedge k A u x) (gp d 0 I (fdual A (rd y)) (rd x))).
  { eapply gives_bind; [apply (h_dual A sg D y (rd y) Hy (feq_refl _ _))|]. intros u Hu Fu. apply (h_kwedge A sg D); auto using feq_refl. }
  assert (G2 : gives A (u <- mv_undual A y ;; k_wedge k A x u) (gp d 0 I (rd x) (fundual A (rd y)))).
  { eapply gives_bind; [apply (h_undual A sg D y (rd y) Hy (feq_refl _ _))|]. intros u Hu Fu. apply (h_kwedge A sg D); auto using feq_refl. }
  assert (G3 : forall t, gives A (i <- ps A ;; mv_scale A (i : Sk) t) (del I t)).
  { intros t. eapply gives_bind; [apply ps_gives; auto|]. intros i Hi Fi. eapply gives_ext; [apply (h_scale A i t _ Hi Fi)|]. intros j Hj. unfold del. destruct (j =? I)%N; [apply mul_1_l|apply mul_0_l]. }
  split.
  - eapply agree_intro; [exact G1|apply G3|]. intros i Hi. rewrite (top_del _ H1 i Hi), top_pair. unfold pairing. rewrite sum_suml. reflexivity.
  - eapply agree_intro; [exact G2|apply G3|]. intros i Hi. rewrite (top_del _ H2 i Hi), top_pair2. unfold pairing. rewrite sum_suml. reflexivity.
Qed.
Lemma c86_top x y : k <> KQuat -> valid A x -> valid A y ->
  exists z w, (u <- mv_dual A y ;; k_wedge k A u x) = Ok z /\ (u <- mv_undual A y ;; k_wedge k A x u) = Ok w /\
    mv_get_by_idx z (2 ^ N.of_nat d - 1) = Ok (pairing A y x) /\ mv_get_by_idx w (2 ^ N.of_nat d - 1) = Ok (pairing A x y).
Proof.
  intros Hk Hx Hy. rewrite ps_ones.
  assert (G1 : gives A (u <- mv_dual A y ;; k_wedge k A u x) (gp d 0 I (fdual A (rd y)) (rd x))).
  { eapply gives_bind; [apply (h_dual A sg D y (rd y) Hy (feq_refl _ _))|]. intros u Hu Fu. apply (h_kwedge A sg D); auto using feq_refl. }
  assert (G2 : gives A (u <- mv_undual A y ;; k_wedge k A x u) (gp d 0 I (rd x) (fundual A (rd y)))).
  { eapply gives_bind; [apply (h_undual A sg D y (rd y) Hy (feq_refl _ _))|]. intros u Hu Fu. apply (h_kwedge A sg D); auto using feq_refl. }
  destruct G1 as (z & Ez & Vz & Fz). destruct G2 as (w & Ew & Vw & Fw). exists z, w. split; [exact Ez|]. split; [exact Ew|].
  rewrite Fz, Fw, top_pair, top_pair2 by apply ones_lt. unfold pairing. rewrite !sum_suml. auto.
Qed.

(** ** The pseudoscalar *)
Lemma null_mask : ~ In Tnull sg -> P = 0%N.
Proof.
  intros Hn. destruct D as [[names E] _]. destruct (masks_thm sg names A E) as (_ & Hm & _). apply N.bits_inj_0. intros n.
  destruct (N.testbit P n) eqn:Eb; auto. exfalso. apply Hn. apply (nth_error_In sg (N.to_nat n)). apply Hm. rewrite N2Nat.id. exact Eb.
Qed.
Lemma c86_star x : ~ In Tnull sg -> supports k A -> valid A x ->
  agree A (mv_dual A x) (i <- ps A ;; r <- mv_rev A x ;; s <- mv_flip_subspace A r Q ;; mv_mul A i s).
Proof.
  intros Hn Hs Hx. pose proof (null_mask Hn) as HP. eapply agree_intro; [apply (h_dual A sg D x (rd x) Hx (feq_refl _ _))| |].
  - eapply gives_bind; [apply ps_gives; auto|]. intros i Hi Fi. eapply gives_bind; [apply (h_rev A x (rd x) Hx (feq_refl _ _))|]. intros r Hr Fr.
    eapply gives_bind; [apply (h_flip_subspace A r Q _ Hr Fr)|]. intros s Hs' Fs. apply (h_mul A sg D i s _ _ Hi Hs' Fi Fs).
  - intros j Hj. rewrite HP. symmetry. transitivity (gp d Q 0 (del I r1) (frev (alpham Q (rd x))) j).
    + apply gp_ext; auto using feq_refl. intros i Hi. unfold frev, alpham. rewrite !sgb_sgb, xorb_comm. reflexivity.
    + rewrite (ps_dual A) by auto. unfold fdual, alpham. rewrite !sgb_sgb.
      replace (xorb _ _) with (beta d j (cpl A j)); [reflexivity|].
      destruct (beta d j (cpl A j)), (par (N.land (cpl A j) Q)); reflexivity.
Qed.
Lemma c86_commute x : supports k A -> valid A x ->
  agree A (i <- ps A ;; mv_mul A i x) (i <- ps A ;; y <- (if Nat.odd d then Ok x else mv_flip A x) ;; mv_mul A y i).
Proof.
  intros Hs Hx. eapply agree_intro.
  - eapply gives_bind; [apply ps_gives; auto|]. intros i Hi Fi. apply (h_mul A sg D i x _ _ Hi Hx Fi (feq_refl _ _)).
  - eapply gives_bind; [apply ps_gives; auto|]. intros i Hi Fi.
    eapply gives_bind with (f := if Nat.odd d then rd x else alpha (rd x)).
    + destruct (Nat.odd d); [apply gives_Ok; auto using feq_refl|apply (h_flip A x _ Hx (feq_refl _ _))].
    + intros y Hy Fy. apply (h_mul A sg D y i _ _ Hy Hi Fy Fi).
  - intros j Hj. rewrite gp_del_l, gp_del_r by auto using ones_lt.
    rewrite (N.lxor_comm j I), <- (cpl_lxor' A j Hj), mul_1_l, mul_1_r. pose proof (cpl_lt A j) as Hc. set (c := cpl A j) in *.
    assert (EI : N.land I c = c) by (rewrite N.land_comm; apply land_ones_lt; exact Hc).
    assert (EJ : N.land c I = c) by (apply land_ones_lt; exact Hc).
    unfold gsign. rewrite EI, EJ. rewrite (beta_comm d c I Hc (ones_lt d)), EJ.
    destruct (N.land c P =? 0)%N eqn:E0; cbn [negb]; [|destruct (Nat.odd d); reflexivity].
    rewrite !act_of_bool. assert (EO : par I = Nat.odd d) by (unfold par; rewrite popcount_ones; reflexivity). rewrite EO.
    destruct (Nat.odd d).
    + rewrite andb_true_r. f_equal. destruct (beta d c I), (par c), (par (N.land c Q)); reflexivity.
    + unfold alpha. change (Nat.odd (popcount c)) with (par c). rewrite sgb_sgb. f_equal. rewrite andb_false_r. destruct (beta d c I), (par c), (par (N.land c Q)); reflexivity.
Qed.

Lemma rbit_tri n : rbit n = Nat.odd (n * (n - 1) / 2).
Proof.
  induction n as [|n IH]; [reflexivity|]. rewrite <- (Nat.add_1_r n), rbit_add, IH. change (rbit 1) with false. change (Nat.odd 1) with true.
  rewrite xorb_false_r, andb_true_r. rewrite <- Nat.odd_add. f_equal. replace (n + 1 - 1) with n by lia.
  replace ((n + 1) * n) with (n * (n - 1) + n * 2) by nia. rewrite Nat.div_add by lia. reflexivity.
Qed.
Lemma null_in : existsb (fun t => match t with Tnull => true | _ => false end) sg = true <-> In Tnull sg.
Proof.
  rewrite existsb_exists. split; [intros (t & Ht & E); destruct t; try discriminate; auto|intros Hi; exists Tnull; auto].
Qed.
Lemma sub_ones M : (forall n, N.testbit M (N.of_nat n) = true -> n < d) -> N.land I M = M.
Proof.
  intros Hn. apply N.bits_inj. intros i. rewrite N.land_spec. destruct (N.testbit M i) eqn:E; [|apply andb_false_r].
  rewrite andb_true_r. unfold ones. apply N.ones_spec_low. rewrite <- (N2Nat.id i) in E. apply Hn in E. lia.
Qed.
Lemma c86_square : supports k A ->
  agree A (i <- (ps A : res Sk) ;; mv_mul A i i) (mv_from_scalar A (ps_square sg)).
Proof.
  intros Hs. eapply agree_intro.
  - eapply gives_bind; [apply ps_gives; auto|]. intros i Hi Fi. apply (h_mul A sg D i i _ _ Hi Hi Fi Fi).
  - apply g_from_scalar. exact (supports_dim (T := T) sg A k D Hs).
  - intros j Hj. rewrite gp_del_l by apply ones_lt. rewrite mul_1_l. unfold del.
    destruct (N.eqb_spec j 0) as [->|Hj0].
    + rewrite N.lxor_0_r, N.eqb_refl. unfold gsign. rewrite land_ones_lt by apply ones_lt. rewrite beta_self, popcount_ones by apply ones_lt.
      pose proof D as [[names E] _]. pose proof (masks_thm sg names A E) as (Hd & Hm & _ & _ & _ & _ & _ & _ & Hi & _).
      pose proof (declare_inv _ _ _ E) as (_ & _ & _ & _ & Ei & _ & _ & E2 & _).
      assert (LQ : N.land I Q = Q) by (apply sub_ones; intros n Hn; apply Hm in Hn; rewrite Hd; apply nth_error_Some; congruence).
      assert (LP : N.land I P = P) by (apply sub_ones; intros n Hn; apply Hm in Hn; rewrite Hd; apply nth_error_Some; congruence).
      rewrite LQ, LP. unfold ps_square.
      destruct (existsb _ sg) eqn:En.
      * apply null_in in En. apply In_nth_error in En. destruct En as (n & En). apply Hm in En.
        destruct (N.eqb_spec P 0) as [EP|_]; [rewrite EP, N.bits_0 in En; discriminate|]. reflexivity.
      * rewrite null_mask by (intros HI; apply null_in in HI; congruence). cbn [N.eqb negb]. rewrite act_of_bool.
        unfold par. rewrite Ei, <- E2, Hi, rbit_tri, <- Nat.odd_add, Hd. destruct (Nat.odd _); reflexivity.
    + destruct (N.eqb_spec (N.lxor I j) I) as [Ex|_]; [|apply act_0]. exfalso. apply Hj0.
      apply (f_equal (N.lxor I)) in Ex. rewrite <- N.lxor_assoc, N.lxor_nilpotent, N.lxor_0_l in Ex. exact Ex.
Qed.
End Hodge.
