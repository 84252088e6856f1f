(** The regressive product under an automorphism, continued. *)
From Verif Require Export P_Sandwich3.
Local Open Scope nat_scope.

Section Cov.
Context {T : Type} {RO : RingOps T} {W : NumLaws T} {L : RingLaws T} {CL : CommLaws T} {DV : DivOps T} {F : FieldLaws T}.
Add Ring TRS4 : comm_ring_theory.
Variable A : algebra.
Local Notation d := (a_dim A).
Local Notation g0 := (gp d 0 0).
Local Notation wp := (gp d 0 (ones d)).
Local Notation dot := (dotv d 0 0).
Local Notation PS := (del (ones d) 1%rg).
Local Open Scope rg_scope.
Hypothesis two : (1 + 1 : T) <> 0.
Implicit Types x y u a h : N -> T.

Lemma lc_sum a (c : N -> T) (h : N -> N -> T) k : (k < pow2 d)%N -> lc A a (fun b => sumI d (fun i => c i * h i b)) k = sumI d (fun i => c i * lc A a (h i) k).
Proof.
  intros Hk. unfold lc, fsub. rewrite gp_sum_r.
  rewrite (gp_ext d 0 0 (alpha (fun b => sumI d (fun i => c i * h i b))) (fun b => sumI d (fun i => c i * alpha (h i) b)) a a); auto using feq_refl.
  - rewrite (gp_sum_l d 0 0 c (fun i => alpha (h i)) a k), <- sumI_sub. apply sumI_ext. intros; ring.
  - intros j Hj. unfold alpha. rewrite <- sumI_sgb. apply sumI_ext. intros i Hi. rewrite sgb_mul_r. reflexivity.
Qed.
Lemma lc_scale a c x : feq d (lc A a (fun i => c * x i)) (fun i => c * lc A a x i).
Proof.
  intros k Hk. unfold lc, fsub. rewrite (gp_ext d 0 0 a a (fun i => c * x i) (fun i => x i * c)) by (auto using feq_refl; intros i Hi; ring).
  rewrite gp_scale_r. rewrite (gp_ext d 0 0 (alpha (fun i => c * x i)) (fun i => c * alpha x i) a a) by (auto using feq_refl; intros i Hi; unfold alpha; rewrite sgb_mul_r; reflexivity).
  rewrite gp_scale_l. ring.
Qed.
Lemma blade_split n I' : (n < d)%nat -> (I' < pow2 n)%N ->
  feq d (wp (del (pow2 n) (1 : T)) (del I' 1)) (del (pow2 n + I') (sgb (beta d (pow2 n) I') 1)).
Proof.
  intros Hn HI k Hk.
  assert (Hnd : (pow2 n < pow2 d)%N) by (unfold pow2; apply N.pow_lt_mono_r; lia).
  assert (X0 : N.land (pow2 n) I' = 0%N).
  { apply N.bits_inj. intros j. rewrite N.land_spec, N.bits_0, testbit_pow2. destruct (N.eqb_spec j (N.of_nat n)) as [E|E]; [|reflexivity].
    cbn. rewrite E. destruct (N.eq_dec I' 0) as [->|Hz]; [apply N.bits_0|]. apply N.bits_above_log2. apply N.log2_lt_pow2; [lia|exact HI]. }
  rewrite gp_del_del by auto. rewrite add_pow2_lxor by auto. f_equal. unfold gsign, qpar. rewrite X0, !N.land_0_l.
  cbn [N.eqb negb]. rewrite par_0, xorb_false_r, act_of_bool, mul_1_l. reflexivity.
Qed.
Lemma vec_bit n : (n < d)%nat -> homog d 1 (del (pow2 n) (1 : T)).
Proof.
  intros Hn i Hi Hne. apply del_neq. intros ->. apply Hne. rewrite <- (N.add_0_r (pow2 n)), popcount_add_pow2 by apply pow2_pos. reflexivity.
Qed.
(** Induction over the blades. *)
Lemma blade_ind (G : (N -> T) -> Prop) : (forall x y, feq d x y -> G x -> G y) -> (forall c x, G x -> G (fun i => c * x i)) ->
  G (del 0 1) -> (forall n y, (n < d)%nat -> G y -> G (wp (del (pow2 n) 1) y)) -> forall I, (I < pow2 d)%N -> G (del I 1).
Proof.
  intros Ge Gs G1 Gw.
  assert (K : forall n, (n <= d)%nat -> forall I, (I < pow2 n)%N -> G (del I 1)); [|intros I HI; apply (K d (le_n d) I HI)].
  induction n as [|n IH]; intros Hn I HI.
  - change (pow2 0) with 1%N in HI. assert (I = 0%N) by lia. subst. exact G1.
  - destruct (N.lt_ge_cases I (pow2 n)) as [Hlt|Hge]; [apply IH; [lia|exact Hlt]|].
    rewrite pow2_S in HI. pose (I' := (I - pow2 n)%N). assert (EI : I = (pow2 n + I')%N) by (unfold I'; lia).
    assert (HI' : (I' < pow2 n)%N) by lia. pose proof (Gw n _ ltac:(lia) (IH ltac:(lia) I' HI')) as G2.
    apply (Ge (fun i => sgb (beta d (pow2 n) I') 1 * wp (del (pow2 n) 1) (del I' 1) i)); [|apply Gs; exact G2].
    intros k Hk. rewrite blade_split by (auto; lia). rewrite <- EI. unfold del. destruct (k =? I)%N; [|ring].
    destruct (beta d (pow2 n) I'); cbn; ring.
Qed.
Lemma blades_all x : feq d x (fun k => sumI d (fun i => x i * del i 1 k)).
Proof. intros k Hk. apply gpart_sum; auto. Qed.

Variables (Q P : N) (f : (N -> T) -> N -> T) (e : bool).
Hypothesis Hf : auto d Q P f.
Hypothesis He : feq d (f PS) (del (ones d) (sgb e 1)).

Lemma au_top x : f x (ones d) = sgb e (x (ones d)).
Proof.
  rewrite (au_exp d Q P f Hf x _ (ones_lt d)). rewrite (sumI_single d _ (ones d)) by (auto using ones_lt; intros j Hj Hne;
    rewrite (au_blade d Q P two f Hf j Hj (ones d)) by (auto using ones_lt; intros E; apply Hne; apply popcount_full; auto; rewrite <- E; apply popcount_ones); ring).
  rewrite (He _ (ones_lt d)), del_eq, sgb_mul_r, mul_1_r. reflexivity.
Qed.
Lemma hyper h : (1 <= d)%nat -> homog d (d - 1) h -> homog d 1 (fdual A h) /\ homog d 1 (fdual A (f h)).
Proof.
  intros Hd Hh. assert (E : (d - (d - 1))%nat = 1%nat) by lia.
  split; rewrite <- E; apply homog_fdual; try lia; auto. apply (au_homog d Q P two f Hf); auto.
Qed.
Lemma lc_cov h x : (1 <= d)%nat -> homog d (d - 1) h -> feq d (f (lc A (fdual A h) x)) (fun k => sgb e (lc A (fdual A (f h)) (f x) k)).
Proof.
  intros Hd Hh. destruct (hyper h Hd Hh) as [Ha Hb]. set (a := fdual A h) in *. set (b := fdual A (f h)) in *.
  assert (K : forall I, (I < pow2 d)%N -> feq d (f (lc A a (del I 1))) (fun k => sgb e (lc A b (f (del I 1)) k))).
  { apply (blade_ind (fun z => feq d (f (lc A a z)) (fun k => sgb e (lc A b (f z) k)))).
    - intros y z E Hy k Hk. rewrite <- (au_feq d Q P f Hf _ _ (lc_feq A a a y z (feq_refl _ _) E) k Hk), Hy by auto. f_equal.
      apply lc_feq; auto using feq_refl. apply (au_feq d Q P f Hf); auto.
    - intros c y Hy k Hk. rewrite (au_feq d Q P f Hf _ _ (lc_scale a c y) k Hk), (au_scale d Q P f Hf) by auto. rewrite Hy by auto.
      rewrite (lc_feq A b b (f (fun i => c * y i)) (fun i => c * f y i) (feq_refl _ _)) by (auto; apply (au_scale d Q P f Hf)). rewrite lc_scale, sgb_mul_r by auto. reflexivity.
    - intros k Hk. rewrite (au_feq d Q P f Hf _ (fun i => 0 * (0 : T)) ) by (auto; intros i Hi; rewrite lc_one by auto; ring).
      rewrite (au_scale d Q P f Hf) by auto. rewrite (lc_feq A b b (f (del 0 1)) (del 0 1) (feq_refl _ _)) by (auto; apply (au_one d Q P f Hf)). rewrite lc_one, sgb_0 by auto. ring.
    - intros n y Hn Hy k Hk. set (u := del (pow2 n) 1). assert (Hu : homog d 1 u) by (apply vec_bit; auto). pose proof (au_vec d Q P f Hf u Hu) as Hfu.
      rewrite (au_feq d Q P f Hf _ _ (lc_wedge A two a u y Ha Hu) k Hk).
      rewrite (au_feq d Q P f Hf _ (fadd (fun i => (dot a u + dot a u) * y i) (fneg (wp u (lc A a y))))) by (auto; intros i Hi; unfold fadd, fneg; ring).
      rewrite (au_add d Q P f Hf) by auto. unfold fadd. rewrite (au_scale d Q P f Hf), (au_neg d Q P f Hf) by auto. unfold fneg. rewrite (au_wedge d Q P two f Hf) by auto.
      rewrite (gp_ext d 0 (ones d) (f u) (f u) (f (lc A a y)) (fun i => lc A b (f y) i * sgb e 1)) by (auto using feq_refl; intros i Hi; rewrite Hy, sgb_mul_r, mul_1_r by auto; reflexivity).
      rewrite gp_scale_r. rewrite (lc_feq A b b (f (wp u y)) (wp (f u) (f y)) (feq_refl _ _)) by (auto; apply (au_wedge d Q P two f Hf)). rewrite (lc_wedge A two b (f u) (f y) Hb Hfu k Hk).
      assert (Ed : dot b (f u) = sgb e (dot a u)).
      { unfold a, b. rewrite !dual_dot by auto. rewrite <- (au_wedge d Q P two f Hf h u (ones d) (ones_lt d)), au_top, !sgb_sgb. f_equal. apply xorb_comm. }
      rewrite Ed. destruct e; cbn [sgb]; ring. }
  intros k Hk. rewrite (au_feq d Q P f Hf _ (fun j => sumI d (fun i => x i * lc A a (del i 1) j))).
  - rewrite (au_sum d Q P f Hf x (fun i => lc A a (del i 1))) by auto.
    rewrite (lc_feq A b b (f x) (fun j => sumI d (fun i => x i * f (del i 1) j)) (feq_refl _ _)) by (auto; intros j Hj; apply (au_exp d Q P f Hf); auto).
    rewrite (lc_sum b x (fun i => f (del i 1))), <- sumI_sgb by auto. apply sumI_ext. intros i Hi. rewrite K, sgb_mul_r by auto. reflexivity.
  - intros j Hj. rewrite <- (lc_sum a x (fun i => del i 1)) by auto. apply lc_feq; auto using feq_refl, blades_all.
  - auto.
Qed.

(** *** The regressive product *)
Definition mcov x : Prop := forall y, feq d (f (fmeet A x y)) (fun k => sgb e (fmeet A (f x) (f y) k)).

Lemma f_sgb b x : feq d (f (fun i => sgb b (x i))) (fun i => sgb b (f x i)).
Proof.
  intros k Hk. rewrite (au_feq d Q P f Hf _ (fun i => sgb b 1 * x i)) by (auto; intros i Hi; rewrite sgb_mul_l, mul_1_l; reflexivity).
  rewrite (au_scale d Q P f Hf), sgb_mul_l, mul_1_l by auto. reflexivity.
Qed.
Lemma mcov_hyper h : (1 <= d)%nat -> homog d (d - 1) h -> mcov h.
Proof.
  intros Hd Hh y k Hk. destruct (hyper h Hd Hh) as [Ha Hb]. apply (cancel2 two).
  change (fadd (f (fmeet A h y)) (f (fmeet A h y)) k = sgb e (fmeet A (f h) (f y) k) + sgb e (fmeet A (f h) (f y) k)).
  rewrite <- (au_add d Q P f Hf) by auto. rewrite (au_feq d Q P f Hf (fadd (fmeet A h y) (fmeet A h y)) _ (meet_lc A h y Ha) k Hk).
  rewrite f_sgb, (lc_cov h (alpha y) Hd Hh k Hk) by auto. rewrite <- sgb_add.
  rewrite (meet_lc A (f h) (f y) Hb k Hk). rewrite !sgb_sgb, xorb_comm. f_equal.
  apply lc_feq; auto using feq_refl. apply (au_alpha d Q P two f Hf).
Qed.
Lemma fmeet_scale c x y k : (k < pow2 d)%N -> fmeet A (fun i => c * x i) y k = c * fmeet A x y k.
Proof.
  intros Hk. unfold fmeet. unfold fundual. rewrite sgb_mul_r. f_equal. rewrite <- gp_scale_l. apply gp_ext; auto using feq_refl; [apply cpl_lt|].
  intros i Hi. unfold fdual. rewrite sgb_mul_r. reflexivity.
Qed.
Lemma fmeet_scale_r c x y k : (k < pow2 d)%N -> fmeet A x (fun i => y i * c) k = fmeet A x y k * c.
Proof.
  intros Hk. unfold fmeet. unfold fundual. rewrite sgb_mul_l. f_equal. rewrite <- gp_scale_r. apply gp_ext; auto using feq_refl; [apply cpl_lt|].
  intros i Hi. unfold fdual. rewrite sgb_mul_l. reflexivity.
Qed.
Lemma fmeet_sum (c : N -> T) (h : N -> N -> T) y k : (k < pow2 d)%N -> fmeet A (fun b => sumI d (fun i => c i * h i b)) y k = sumI d (fun i => c i * fmeet A (h i) y k).
Proof.
  intros Hk. unfold fmeet, fundual at 1. rewrite (gp_ext d 0 (ones d) _ (fun b => sumI d (fun i => c i * fdual A (h i) b)) (fdual A y) (fdual A y)) by
    (auto using feq_refl, cpl_lt; intros a Ha; unfold fdual; rewrite <- sumI_sgb; apply sumI_ext; intros; rewrite sgb_mul_r; reflexivity).
  rewrite gp_sum_l, <- sumI_sgb. apply sumI_ext. intros i Hi. rewrite <- sgb_mul_r. reflexivity.
Qed.
Lemma fmeet_assoc x y z : feq d (fmeet A (fmeet A x y) z) (fmeet A x (fmeet A y z)).
Proof.
  unfold fmeet. apply fundual_ext. intros k Hk.
  rewrite (gp_ext d 0 (ones d) _ (wp (fdual A x) (fdual A y)) (fdual A z) (fdual A z)) by (auto using feq_refl; intros i Hi; apply fdual_fundual; auto).
  rewrite gp_assoc by auto. apply gp_ext; auto using feq_refl. intros i Hi. symmetry. apply fdual_fundual; auto.
Qed.
Lemma mcov_feq x y : feq d x y -> mcov x -> mcov y.
Proof.
  intros E Hx z k Hk. rewrite <- (au_feq d Q P f Hf _ _ (fmeet_ext A x y z z E (feq_refl _ _)) k Hk), Hx by auto. f_equal.
  apply fmeet_ext; auto using feq_refl. apply (au_feq d Q P f Hf); auto.
Qed.
Lemma mcov_scale c x : mcov x -> mcov (fun i => c * x i).
Proof.
  intros Hx y k Hk. rewrite (au_feq d Q P f Hf _ (fun i => c * fmeet A x y i)) by (auto; intros i Hi; apply fmeet_scale; auto).
  rewrite (au_scale d Q P f Hf), Hx by auto. rewrite (fmeet_ext A (f (fun i => c * x i)) (fun i => c * f x i) (f y) (f y)) by (auto using feq_refl; apply (au_scale d Q P f Hf)).
  rewrite fmeet_scale, sgb_mul_r by auto. reflexivity.
Qed.
Lemma mcov_meet h x : mcov h -> mcov x -> mcov (fmeet A h x).
Proof.
  intros Hh Hx y k Hk. rewrite (au_feq d Q P f Hf _ _ (fmeet_assoc h x y) k Hk), Hh by auto.
  rewrite (fmeet_ext A (f h) (f h) _ (fun i => sgb e (fmeet A (f x) (f y) i)) (feq_refl _ _) (Hx y) k Hk).
  rewrite (fmeet_ext A (f (fmeet A h x)) (fun i => sgb e (fmeet A (f h) (f x) i)) (f y) (f y) (Hh x) (feq_refl _ _) k Hk).
  f_equal. transitivity (sgb e (fmeet A (f h) (fmeet A (f x) (f y)) k)).
  - rewrite (fmeet_ext A (f h) (f h) (fun i => sgb e (fmeet A (f x) (f y) i)) (fun i => fmeet A (f x) (f y) i * sgb e 1)) by (auto using feq_refl; intros i Hi; rewrite sgb_mul_r, mul_1_r; reflexivity).
    rewrite fmeet_scale_r, sgb_mul_r, mul_1_r by auto. reflexivity.
  - rewrite <- (fmeet_assoc (f h) (f x) (f y) k Hk).
    rewrite (fmeet_ext A (fun i => sgb e (fmeet A (f h) (f x) i)) (fun i => sgb e 1 * fmeet A (f h) (f x) i) (f y) (f y)) by (auto using feq_refl; intros i Hi; rewrite sgb_mul_l, mul_1_l; reflexivity).
    rewrite fmeet_scale, sgb_mul_l, mul_1_l by auto. reflexivity.
Qed.
Lemma undual_one : feq d (fundual A (del 0 (1 : T))) PS.
Proof.
  intros k Hk. unfold fundual, del. destruct (N.eqb_spec k (ones d)) as [->|Hne].
  - assert (E : cpl A (ones d) = 0%N) by (rewrite cpl_lxor' by apply ones_lt; apply N.lxor_nilpotent). rewrite E, N.eqb_refl, beta_0_l. reflexivity.
  - destruct (N.eqb_spec (cpl A k) 0) as [E|]; [|apply sgb_0]. exfalso. apply Hne. rewrite cpl_lxor' in E by auto. apply N.lxor_eq in E. auto.
Qed.
Lemma meet_ps y : feq d (fmeet A PS y) y.
Proof.
  intros k Hk. unfold fmeet. rewrite (fundual_ext A _ (fdual A y)) by (auto; intros i Hi;
    rewrite (gp_ext d 0 (ones d) _ (del 0 1) (fdual A y) (fdual A y)) by (auto using feq_refl; intros j Hj; rewrite <- (fdual_ext A _ _ undual_one j Hj); apply fdual_fundual; auto); apply gp_1_l).
  apply fundual_fdual; auto.
Qed.
Lemma mcov_ps : mcov PS.
Proof.
  intros y k Hk. rewrite (au_feq d Q P f Hf _ _ (meet_ps y) k Hk).
  rewrite (fmeet_ext A (f PS) (fun i => sgb e 1 * PS i) (f y) (f y)); auto using feq_refl.
  - rewrite fmeet_scale, meet_ps, sgb_mul_l, mul_1_l, sgb_invol by auto. reflexivity.
  - intros i Hi. rewrite He by auto. unfold del. destruct (i =? ones d)%N; ring.
Qed.
Lemma au_meet x : mcov x.
Proof.
  assert (K : forall I, (I < pow2 d)%N -> mcov (fundual A (del I 1))).
  { apply (blade_ind (fun z => mcov (fundual A z))).
    - intros y z E. apply mcov_feq. apply fundual_ext; auto.
    - intros c y Hy. eapply mcov_feq; [|apply (mcov_scale c _ Hy)]. intros i Hi. unfold fundual. rewrite sgb_mul_r. reflexivity.
    - eapply mcov_feq; [apply feq_sym, undual_one|apply mcov_ps].
    - intros n y Hn Hy. assert (Hd : (1 <= d)%nat) by lia.
      eapply mcov_feq; [|apply (mcov_meet (fundual A (del (pow2 n) 1)) _ (mcov_hyper _ Hd (proj2 (homog_fdual A 1 _ Hd (vec_bit n Hn)))) Hy)].
      unfold fmeet. apply fundual_ext. apply gp_feq; intros i Hi; apply fdual_fundual; auto. }
  assert (E : feq d x (fun b => sumI d (fun i => fdual A x i * fundual A (del i 1) b))).
  { intros k Hk. rewrite <- (fundual_fdual A x k Hk) at 1. rewrite (fundual_ext A _ _ (blades_all (fdual A x)) k Hk).
    unfold fundual at 1. rewrite <- sumI_sgb. apply sumI_ext. intros i Hi. rewrite <- sgb_mul_r. reflexivity. }
  apply (mcov_feq _ x (feq_sym _ _ _ E)). intros y k Hk.
  rewrite (au_feq d Q P f Hf _ (fun b => sumI d (fun i => fdual A x i * fmeet A (fundual A (del i 1)) y b))) by
    (auto; intros a Ha; apply (fmeet_sum (fdual A x) (fun i => fundual A (del i 1))); auto).
  rewrite (au_sum d Q P f Hf (fdual A x) (fun i => fmeet A (fundual A (del i 1)) y)) by auto.
  rewrite (fmeet_ext A _ (fun b => sumI d (fun i => fdual A x i * f (fundual A (del i 1)) b)) (f y) (f y)) by
    (auto using feq_refl; intros a Ha; apply (au_sum d Q P f Hf (fdual A x) (fun i => fundual A (del i 1))); auto).
  rewrite (fmeet_sum (fdual A x) (fun i => f (fundual A (del i 1)))), <- sumI_sgb by auto. apply sumI_ext. intros i Hi.
  rewrite (K i Hi y k Hk), sgb_mul_r. reflexivity.
Qed.
End Cov.
