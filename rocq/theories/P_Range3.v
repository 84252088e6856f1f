(** No overflow in programs. *)
From Verif Require Export P_Range2.
From Coq Require Import QArith ZArith Lia Lqa.
Local Open Scope Qc_scope.

Section Prog.
Context {F : Type} {RF : RingOps F} {DF : DivOps F} {CF : ConjOps F} {V : RoundOps F} {RL : RoundLaws F} {W : NumLaws F} {G : RangeOps F} {GL : RangeLaws F} {m : Mode} {H : HashOrder}.
Variable sg : list tok.
Variable A : algebra.
Hypothesis D : declared sg A.
Local Notation d := (a_dim A).
Local Notation AOK := (declared_ok sg A D).

Definition gok {S} {St : Storage F S} (r : res S) : Prop := match r with Ok z => forall i, (i < pow2 d)%N -> okay (rd z i) | _ => True end.
Lemma gok_bind {S S'} {St : Storage F S} {SL : StorageLaws F S} {St' : Storage F S'} (r : res S) (k : S -> res S') o E :
  fit A r o E -> gok r ->
  (forall x, r = Ok x -> valid A x -> (forall i, (i < pow2 d)%N -> okay (rd x i)) ->
    forall f, o = OF f -> (forall i, (i < pow2 d)%N -> Qcabs (val (rd x i) - f i) <= E i) -> gok (k x)) -> gok (bind r k).
Proof.
  intros Hf Hg Hk. destruct r as [x| |]; cbn [bind]; try exact I. destruct o as [e|f]; [discriminate Hf|].
  destruct Hf as (z & E1 & Hz & Hc). injection E1 as ->. eapply Hk; eauto.
Qed.
Lemma gok_gives {S} {St : Storage F S} {SL : StorageLaws F S} (r : res S) g : gives A r g -> (forall i, (i < pow2 d)%N -> okay (g i)) -> gok r.
Proof.
  intros (z & -> & Hz & Hc) Hg i Hi. assert (Er : rd z i = g i) by (unfold rd; rewrite Hc by exact Hi; reflexivity). rewrite Er. auto.
Qed.
Lemma ok_sgb b c : okay c -> okay (sgb b c).
Proof. destruct b; cbn; auto. apply ra_neg. Qed.
Lemma ok_if (b : bool) c : okay c -> okay (if b then c else r0).
Proof. destruct b; auto. intros _. apply ra_0. Qed.
Lemma ok_del j c i : okay c -> okay (del j c i).
Proof. intros Hc. unfold del. apply ok_if; auto. Qed.
Lemma ok_last l i : Forall (fun ic => okay (snd ic)) l -> okay (last_write l i).
Proof.
  unfold last_write. intros Hl. assert (H0 : okay (@r0 F RF)) by apply ra_0. revert H0. generalize (@r0 F RF) as v.
  induction Hl as [|[j c] l Hc Hl IH]; intros v Hv; [exact Hv|]. cbn [fold_left fst snd] in *. apply IH. destruct (j =? i)%N; auto.
Qed.
Lemma ok_nth cs n : Forall okay cs -> okay (nth n cs r0).
Proof.
  intros Hl. destruct (nth_in_or_default n cs r0) as [Hi| ->]; [|apply ra_0]. rewrite Forall_forall in Hl. auto.
Qed.
Lemma near_abs (v f E : Qc) : Qcabs (v - f) <= E -> Qcabs v <= Qcabs f + E.
Proof. intros Hf. replace v with (f + (v - f)) by ring. eapply Qcle_trans; [apply Qcabs_triangle|]. qlra. Qed.
Lemma fin_gok K (r : res (store K F)) : gok r -> all_finite K A r.
Proof. destruct r as [x| |]; cbn; auto. intros Hk i Hi. apply ra_fin. auto. Qed.

Theorem prog_kept e : forall K, supports K A -> offers K A e -> arith e -> small K A e -> fine K A e /\ gok (eval K A e).
Proof.
  induction e; intros K Hs Ho Ha Hsm; pose proof (supports_dim (T := F) sg A K D Hs) as HD; cbn [offers arith small] in Ho, Ha, Hsm; try contradiction;
  try (match goal with |- fine K A ?e /\ _ => cut (gok (eval K A e)); [intros Gk; split; [split; [apply fin_gok; exact Gk|exact I]|exact Gk]|]; cbn [eval] end).
  - eapply gok_gives; [apply g_default; auto|]. intros. apply ra_0.
  - eapply gok_gives; [apply g_one; auto|]. intros. apply ok_del, ra_1.
  - eapply gok_gives; [apply g_from_scalar; auto|]. intros. apply ok_del; auto.
  - destruct (Nat.eqb_spec (length cs) d) as [Hl|Hl].
    2:{ rewrite (from_vector_err A AOK HD) by auto. exact I. }
    destruct (from_vector_ok A AOK HD cs Hl) as (z & E & Hz & Hc & Ho'). rewrite E. intros i Hi. rewrite (rd_coef d) by auto.
    destruct (find (fun n => (pow2 n =? i)%N) (seq 0 d)) as [n|] eqn:Ef.
    + apply find_some in Ef. destruct Ef as [Hn E2]. apply in_seq in Hn. apply N.eqb_eq in E2. subst i. rewrite Hc by lia. apply ok_nth; auto.
    + rewrite Ho'; [apply ra_0|]. intros n Hn ->. pose proof (find_none _ _ Ef n) as Hf. cbv beta in Hf. rewrite N.eqb_refl in Hf.
      discriminate Hf. apply in_seq. lia.
  - destruct (existsb (fun ic => (pow2 d <=? fst ic)%N) l) eqn:Ex.
    + apply existsb_exists in Ex. destruct Ex as ([i c] & Hi & Hb). apply N.leb_le in Hb.
      rewrite (from_indexed_err A AOK HD l i c Hi Hb). exact I.
    + eapply gok_gives.
      * apply (from_indexed_thm K sg A l D Hs). intros i c Hi. apply N.lt_nge. intros Hle.
        assert (existsb (fun ic => (pow2 d <=? fst ic)%N) l = true); [|congruence].
        apply existsb_exists. exists (i, c). split; auto. apply N.leb_le. exact Hle.
      * intros i Hi. apply ok_last; auto.
  - destruct (basis_ok (T := F) A AOK HD) as (l & E & Hl & Hb). rewrite E. cbn [bind].
    destruct (Hb n Ho) as (z & En & Hz & Hc). unfold nthr. rewrite En. intros i Hi. rewrite (rd_coef d), Hc by auto. apply ok_del, ra_1.
  - destruct Hsm as [Hv Hsm]. destruct (IHe K Hs Ho Ha Hsm) as [Hf Hg].
    assert (Gk : gok (eval K A (ESet e i v))).
    { cbn [eval]. apply (gok_bind _ _ _ _ (prog_fit sg A D e K Hs Ho Ha Hf) Hg). intros x Ex Hx Kx _ _ _ j Hj.
      destruct (st_set_ok d x i v Hx) as [H1 H2]. rewrite (rd_coef d) by auto. unfold mv_set_by_idx. rewrite H2. destruct (_ && _)%bool; auto.
      rewrite <- (rd_coef d) by auto. apply Kx; auto. }
    split; [|exact Gk]. split; [apply fin_gok; exact Gk|exact Hf].
  - destruct Ho as [Ho1 Ho2], Ha as [Ha1 Ha2], Hsm as (Hs1 & Hs2 & Hb). destruct (IHe1 K Hs Ho1 Ha1 Hs1) as [Hf1 Hg1]. destruct (IHe2 K Hs Ho2 Ha2 Hs2) as [Hf2 Hg2].
    assert (Gk : gok (eval K A (EAdd e1 e2))).
    { cbn [eval]. apply (gok_bind _ _ _ _ (prog_fit sg A D e1 K Hs Ho1 Ha1 Hf1) Hg1). intros x Ex Hx Kx f Ef Hf.
      apply (gok_bind _ _ _ _ (prog_fit sg A D e2 K Hs Ho2 Ha2 Hf2) Hg2). intros y Ey Hy Ky g Eg Hg.
      eapply gok_gives; [apply g_add; auto|]. intros i Hi. apply ra_add; auto. eapply Qcle_lt_trans; [|apply (Hb i Hi)].
      rewrite (exact_den sg A D K _ f), (exact_den sg A D K _ g) by auto. apply near_abs. specialize (Hf i Hi). specialize (Hg i Hi).
      replace (val (rd x i) + val (rd y i) - (f i + g i)) with ((val (rd x i) - f i) + (val (rd y i) - g i)) by ring.
      eapply Qcle_trans; [apply Qcabs_triangle|]. apply Qcplus_le_compat; assumption. }
    split; [|exact Gk]. split; [apply fin_gok; exact Gk|split; auto].
  - destruct Ho as [Ho1 Ho2], Ha as [Ha1 Ha2], Hsm as (Hs1 & Hs2 & Hb). destruct (IHe1 K Hs Ho1 Ha1 Hs1) as [Hf1 Hg1]. destruct (IHe2 K Hs Ho2 Ha2 Hs2) as [Hf2 Hg2].
    assert (Gk : gok (eval K A (ESub e1 e2))).
    { cbn [eval]. apply (gok_bind _ _ _ _ (prog_fit sg A D e1 K Hs Ho1 Ha1 Hf1) Hg1). intros x Ex Hx Kx f Ef Hf.
      apply (gok_bind _ _ _ _ (prog_fit sg A D e2 K Hs Ho2 Ha2 Hf2) Hg2). intros y Ey Hy Ky g Eg Hg.
      eapply gok_gives; [apply g_sub; auto|]. intros i Hi. apply ra_sub; auto. eapply Qcle_lt_trans; [|apply (Hb i Hi)].
      rewrite (exact_den sg A D K _ f), (exact_den sg A D K _ g) by auto. apply near_abs. specialize (Hf i Hi). specialize (Hg i Hi).
      replace (val (rd x i) - val (rd y i) - (f i - g i)) with ((val (rd x i) - f i) + - (val (rd y i) - g i)) by ring.
      eapply Qcle_trans; [apply Qcabs_triangle|]. rewrite Qcabs_opp. apply Qcplus_le_compat; assumption. }
    split; [|exact Gk]. split; [apply fin_gok; exact Gk|split; auto].
  - destruct (IHe K Hs Ho Ha Hsm) as [Hf Hg].
    assert (Gk : gok (eval K A (ENeg e))).
    { cbn [eval]. apply (gok_bind _ _ _ _ (prog_fit sg A D e K Hs Ho Ha Hf) Hg). intros x Ex Hx Kx _ _ _.
      eapply gok_gives; [apply (g_neg A sg D); auto|]. intros i Hi. apply ra_neg; auto. }
    split; [|exact Gk]. split; [apply fin_gok; exact Gk|exact Hf].
  - destruct Ho as [Ho1 Ho2], Ha as [Ha1 Ha2], Hsm as (Hs1 & Hs2 & Hb). destruct (IHe1 K Hs Ho1 Ha1 Hs1) as [Hf1 Hg1]. destruct (IHe2 K Hs Ho2 Ha2 Hs2) as [Hf2 Hg2].
    assert (Gk : gok (eval K A (EMul e1 e2))).
    { cbn [eval]. apply (gok_bind _ _ _ _ (prog_fit sg A D e1 K Hs Ho1 Ha1 Hf1) Hg1). intros x Ex Hx Kx f Ef Hf.
      apply (gok_bind _ _ _ _ (prog_fit sg A D e2 K Hs Ho2 Ha2 Hf2) Hg2). intros y Ey Hy Ky g Eg Hg.
      destruct (mul_kept sg A D K x y Hx Hy Kx Ky) as (z & -> & Hz & Hc). intros i Hi. apply (Hc i Hi). eapply Qcle_lt_trans; [|apply (Hb i Hi)].
      assert (bx : forall j, (j < pow2 d)%N -> Qcabs (val (rd x j)) <= Qcabs (exact K A e1 j) + err K A e1 j).
      { intros j Hj. rewrite (exact_den sg A D K _ f) by auto. apply near_abs; auto. }
      assert (by_ : forall j, (j < pow2 d)%N -> Qcabs (val (rd y j)) <= Qcabs (exact K A e2 j) + err K A e2 j).
      { intros j Hj. rewrite (exact_den sg A D K _ g) by auto. apply near_abs; auto. }
      apply (reach_mono (length (mv_coeff_enumerate x)) (2 ^ d)).
      - destruct (st_enum_ok d x Hx) as (HN & Hin & _). unfold mv_coeff_enumerate. rewrite <- (map_length fst).
        replace (2 ^ d)%nat with (length (idxs d)) by (unfold idxs; rewrite map_length, seq_length; reflexivity).
        apply NoDup_incl_length; auto. intros j Hj. apply in_map_iff in Hj. destruct Hj as ([j' c] & <- & Hj). apply in_idxs. apply (Hin _ _ Hj).
      - apply qI_pos. intros j Hj. apply qmul_pos; apply Qcabs_nonneg.
      - apply qI_le. intros j Hj. apply qmul_le2; try apply Qcabs_nonneg; auto. apply by_. apply lxor_lt; auto. }
    split; [|exact Gk]. split; [apply fin_gok; exact Gk|split; auto].
  - destruct Ho as (HK & Ho1 & Ho2), Ha as [Ha1 Ha2], Hsm as (Hs1 & Hs2 & Hb). destruct (IHe1 K Hs Ho1 Ha1 Hs1) as [Hf1 Hg1]. destruct (IHe2 K Hs Ho2 Ha2 Hs2) as [Hf2 Hg2].
    assert (Gk : gok (eval K A (EWedge e1 e2))).
    { cbn [eval]. apply (gok_bind _ _ _ _ (prog_fit sg A D e1 K Hs Ho1 Ha1 Hf1) Hg1). intros x Ex Hx Kx f Ef Hf.
      apply (gok_bind _ _ _ _ (prog_fit sg A D e2 K Hs Ho2 Ha2 Hf2) Hg2). intros y Ey Hy Ky g Eg Hg.
      destruct (kwedge_kept sg A D K x y Hx Hy Kx Ky HK) as (z & -> & Hz & Hc). intros i Hi. apply (Hc i Hi). eapply Qcle_lt_trans; [|apply (Hb i Hi)].
      assert (bx : forall j, (j < pow2 d)%N -> Qcabs (val (rd x j)) <= Qcabs (exact K A e1 j) + err K A e1 j).
      { intros j Hj. rewrite (exact_den sg A D K _ f) by auto. apply near_abs; auto. }
      assert (by_ : forall j, (j < pow2 d)%N -> Qcabs (val (rd y j)) <= Qcabs (exact K A e2 j) + err K A e2 j).
      { intros j Hj. rewrite (exact_den sg A D K _ g) by auto. apply near_abs; auto. }
      apply (reach_mono (2 ^ d) (2 ^ d)); auto.
      - apply qI_pos. intros j Hj. apply qmul_pos; apply Qcabs_nonneg.
      - apply qI_le. intros j Hj. apply qmul_le2; try apply Qcabs_nonneg; auto. apply by_. apply lxor_lt; auto. }
    split; [|exact Gk]. split; [apply fin_gok; exact Gk|split; auto].
  - destruct Ho as (HK & Ho1 & Ho2), Ha as [Ha1 Ha2], Hsm as (Hs1 & Hs2 & Hb). destruct (IHe1 K Hs Ho1 Ha1 Hs1) as [Hf1 Hg1]. destruct (IHe2 K Hs Ho2 Ha2 Hs2) as [Hf2 Hg2].
    assert (Gk : gok (eval K A (EMeet e1 e2))).
    { cbn [eval]. apply (gok_bind _ _ _ _ (prog_fit sg A D e1 K Hs Ho1 Ha1 Hf1) Hg1). intros x Ex Hx Kx f Ef Hf.
      apply (gok_bind _ _ _ _ (prog_fit sg A D e2 K Hs Ho2 Ha2 Hf2) Hg2). intros y Ey Hy Ky g Eg Hg.
      destruct (kmeet_kept sg A D K x y Hx Hy Kx Ky HK) as (z & -> & Hz & Hc). intros i Hi. apply (Hc i Hi). eapply Qcle_lt_trans; [|apply (Hb i Hi)].
      assert (bx : forall j, (j < pow2 d)%N -> Qcabs (val (rd x j)) <= Qcabs (exact K A e1 j) + err K A e1 j).
      { intros j Hj. rewrite (exact_den sg A D K _ f) by auto. apply near_abs; auto. }
      assert (by_ : forall j, (j < pow2 d)%N -> Qcabs (val (rd y j)) <= Qcabs (exact K A e2 j) + err K A e2 j).
      { intros j Hj. rewrite (exact_den sg A D K _ g) by auto. apply near_abs; auto. }
      apply (reach_mono (2 ^ d) (2 ^ d)); auto.
      - apply qI_pos. intros j Hj. apply qmul_pos; apply Qcabs_nonneg.
      - apply qI_le. intros j Hj. apply qmul_le2; try apply Qcabs_nonneg; auto. apply by_. rewrite <- cpl_eq by (auto using lxor_lt). apply cpl_lt. }
    split; [|exact Gk]. split; [apply fin_gok; exact Gk|split; auto].
  - destruct Ha as [Ht Ha], Hsm as (Kt & Hsm & Hb). destruct (IHe K Hs Ho Ha Hsm) as [Hf Hg].
    assert (Gk : gok (eval K A (EScale e t))).
    { cbn [eval]. apply (gok_bind _ _ _ _ (prog_fit sg A D e K Hs Ho Ha Hf) Hg). intros x Ex Hx Kx f Ef Hfx.
      apply (gok_gives _ (fun i => rmul (rd x i) t)); [apply w_scale; auto; apply ro_mul_0; auto|]. intros i Hi. apply ra_mul; auto.
      eapply Qcle_lt_trans; [|apply (Hb i Hi)]. rewrite Qcabs_Qcmult. apply Qcmult_le_compat_r; [|apply Qcabs_nonneg].
      rewrite (exact_den sg A D K _ f) by auto. apply near_abs; auto. }
    split; [|exact Gk]. split; [apply fin_gok; exact Gk|exact Hf].
  - destruct Ha as (Ht & Hn & H0 & Ha), Hsm as (Kt & Hsm & Hb). destruct (IHe K Hs Ho Ha Hsm) as [Hf Hg].
    assert (Gk : gok (eval K A (EDivs e t))).
    { cbn [eval]. apply (gok_bind _ _ _ _ (prog_fit sg A D e K Hs Ho Ha Hf) Hg). intros x Ex Hx Kx f Ef Hfx.
      apply (gok_gives _ (fun i => rdiv (rd x i) t)); [apply g_divs; auto|]. intros i Hi. apply ra_div; auto.
      eapply Qcle_lt_trans; [|apply (Hb i Hi)]. unfold Qcdiv. rewrite Qcabs_Qcmult. apply Qcmult_le_compat_r; [|apply Qcabs_nonneg].
      rewrite (exact_den sg A D K _ f) by auto. apply near_abs; auto. }
    split; [|exact Gk]. split; [apply fin_gok; exact Gk|exact Hf].
  - destruct (IHe K Hs Ho Ha Hsm) as [Hf Hg].
    assert (Gk : gok (eval K A (EFlip e))).
    { cbn [eval]. apply (gok_bind _ _ _ _ (prog_fit sg A D e K Hs Ho Ha Hf) Hg). intros x Ex Hx Kx _ _ _.
      eapply gok_gives; [apply g_flip; auto|]. intros i Hi. apply ok_sgb; auto. }
    split; [|exact Gk]. split; [apply fin_gok; exact Gk|exact Hf].
  - destruct (IHe K Hs Ho Ha Hsm) as [Hf Hg].
    assert (Gk : gok (eval K A (EFlipSub e mask))).
    { cbn [eval]. apply (gok_bind _ _ _ _ (prog_fit sg A D e K Hs Ho Ha Hf) Hg). intros x Ex Hx Kx _ _ _.
      eapply gok_gives; [apply g_flip_subspace; auto|]. intros i Hi. apply ok_sgb; auto. }
    split; [|exact Gk]. split; [apply fin_gok; exact Gk|exact Hf].
  - destruct (IHe K Hs Ho Ha Hsm) as [Hf Hg].
    assert (Gk : gok (eval K A (ERev e))).
    { cbn [eval]. apply (gok_bind _ _ _ _ (prog_fit sg A D e K Hs Ho Ha Hf) Hg). intros x Ex Hx Kx _ _ _.
      eapply gok_gives; [apply g_rev; auto|]. intros i Hi. apply ok_sgb; auto. }
    split; [|exact Gk]. split; [apply fin_gok; exact Gk|exact Hf].
  - destruct Ha as [Hcj Ha]. destruct (IHe K Hs Ho Ha Hsm) as [Hf Hg].
    assert (Gk : gok (eval K A (ERevc e))).
    { cbn [eval]. apply (gok_bind _ _ _ _ (prog_fit sg A D e K Hs Ho Ha Hf) Hg). intros x Ex Hx Kx _ _ _.
      eapply gok_gives; [apply (g_revc A sg D); auto|]. intros i Hi. unfold frev. rewrite Hcj. apply ok_sgb; auto. }
    split; [|exact Gk]. split; [apply fin_gok; exact Gk|exact Hf].
  - destruct (IHe K Hs Ho Ha Hsm) as [Hf Hg].
    assert (Gk : gok (eval K A (EDual e))).
    { cbn [eval]. apply (gok_bind _ _ _ _ (prog_fit sg A D e K Hs Ho Ha Hf) Hg). intros x Ex Hx Kx _ _ _.
      eapply gok_gives; [apply (g_dual A sg D); auto|]. intros i Hi. apply ok_sgb. apply Kx, cpl_lt. }
    split; [|exact Gk]. split; [apply fin_gok; exact Gk|exact Hf].
  - destruct (IHe K Hs Ho Ha Hsm) as [Hf Hg].
    assert (Gk : gok (eval K A (EUndual e))).
    { cbn [eval]. apply (gok_bind _ _ _ _ (prog_fit sg A D e K Hs Ho Ha Hf) Hg). intros x Ex Hx Kx _ _ _.
      eapply gok_gives; [apply (g_undual A sg D); auto|]. intros i Hi. apply ok_sgb. apply Kx, cpl_lt. }
    split; [|exact Gk]. split; [apply fin_gok; exact Gk|exact Hf].
  - destruct (IHe K Hs Ho Ha Hsm) as [Hf Hg].
    assert (Gk : gok (eval K A (EGrade e g))).
    { cbn [eval]. apply (gok_bind _ _ _ _ (prog_fit sg A D e K Hs Ho Ha Hf) Hg). intros x Ex Hx Kx _ _ _.
      eapply gok_gives; [apply g_grade_extract; auto|]. intros i Hi. cbv beta. apply ok_if; auto. }
    split; [|exact Gk]. split; [apply fin_gok; exact Gk|exact Hf].
  - destruct Ho as [Hs' Ho]. destruct (IHe k Hs' Ho Ha Hsm) as [Hf Hg].
    assert (Gk : gok (eval K A (EGradeAs k e g))).
    { cbn [eval]. apply (gok_bind _ _ _ _ (prog_fit sg A D e k Hs' Ho Ha Hf) Hg). intros x Ex Hx Kx _ _ _.
      destruct (grade_extract_as_ok (S' := store K F) A HD x g Hx) as (z & -> & Hz & Hc). intros i Hi.
      rewrite (rd_coef d), Hc by auto. rewrite <- (rd_coef d) by auto. apply ok_if; auto. }
    split; [|exact Gk]. split; [apply fin_gok; exact Gk|exact Hf].
  - destruct Ho as [Hs' Ho]. destruct (IHe k Hs' Ho Ha Hsm) as [Hf Hg].
    assert (Gk : gok (eval K A (EVia k e))).
    { cbn [eval]. apply (gok_bind _ _ _ _ (prog_fit sg A D e k Hs' Ho Ha Hf) Hg). intros x Ex Hx Kx _ _ _.
      destruct (to_storage_ok (S' := store K F) A HD x Hx) as (z & -> & Hz & Hc). intros i Hi.
      rewrite (rd_coef d), Hc by auto. rewrite <- (rd_coef d) by auto. auto. }
    split; [|exact Gk]. split; [apply fin_gok; exact Gk|exact Hf].
  - destruct Ho as [-> Ho]. destruct (IHe KSparse Hs Ho Ha Hsm) as [Hf Hg].
    assert (Gk : gok (eval KSparse A (EGrades gs e))).
    { cbn [eval]. apply (gok_bind _ _ _ _ (prog_fit sg A D e KSparse Hs Ho Ha Hf) Hg). intros x Ex Hx Kx _ _ _.
      eapply gok_gives; [apply (from_indexed_filter A sg D x (fun i _ => existsb (Nat.eqb (popcount i)) gs) Hx)|]. intros i Hi. cbv beta. apply ok_if; auto. }
    split; [|exact Gk]. split; [apply fin_gok; exact Gk|exact Hf].
  - destruct Ho as [-> Ho]. destruct (IHe KSparse Hs Ho Ha Hsm) as [Hf Hg].
    assert (Gk : gok (eval KSparse A (ERetain gs e))).
    { cbn [eval]. apply (gok_bind _ _ _ _ (prog_fit sg A D e KSparse Hs Ho Ha Hf) Hg). intros x Ex Hx Kx _ _ _.
      eapply gok_gives; [apply (g_sparse_filter A x (fun i _ => existsb (Nat.eqb (popcount i)) gs) Hx)|]. intros i Hi. cbv beta. apply ok_if; auto. }
    split; [|exact Gk]. split; [apply fin_gok; exact Gk|exact Hf].
Qed.

Theorem prog_range K e : supports K A -> offers K A e -> arith e -> small K A e ->
  match eval K A e, eval K A (ex e) with
  | Ok z, Ok z' => valid A z /\ valid A z' /\ all_okay A z /\ forall i, (i < 2 ^ N.of_nat d)%N -> Qcabs (val (rd z i) - rd z' i) <= err K A e i
  | Err a, Err b => a = b
  | _, _ => False
  end.
Proof.
  intros Hs Ho Ha Hsm. destruct (prog_kept e K Hs Ho Ha Hsm) as [Hf Hg]. pose proof (prog_error sg A D K e Hs Ho Ha Hf) as P.
  destruct (eval K A e) as [z| |], (eval K A (ex e)) as [z'| |]; auto. destruct P as (P1 & P2 & P3). auto.
Qed.
End Prog.
