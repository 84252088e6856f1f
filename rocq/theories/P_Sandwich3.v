(** The regressive product under such an automorphism: lemmas behind C82. *)
From Verif Require Export P_Sandwich2.
Local Open Scope nat_scope.

Section Meet.
Context {T : Type} {RO : RingOps T} {W : NumLaws T} {L : RingLaws T} {CL : CommLaws T} {DV : DivOps T} {F : FieldLaws T}.
Add Ring TRS3 : comm_ring_theory.
Variable A : algebra.
Local Notation d := (a_dim A).
Local Notation g0 := (gp d 0 0).
Local Notation wp := (gp d 0 (ones d)).
Local Notation dot := (dotv d 0 0).
Local Notation PS := (del (ones d) 1%rg).
Local Open Scope rg_scope.
Hypothesis two : (1 + 1 : T) <> 0.
Implicit Types x y u a h : N -> T.

(** Twice the contraction by a vector, in the Euclidean metric. *)
Definition lc a x : N -> T := fsub (g0 a x) (g0 (alpha x) a).

Lemma alpha_feq x y : feq d x y -> feq d (alpha x) (alpha y).
Proof. intros E i Hi. unfold alpha. rewrite E; auto. Qed.
Lemma lc_feq a b x y : feq d a b -> feq d x y -> feq d (lc a x) (lc b y).
Proof. intros Ea Ex k Hk. unfold lc, fsub. f_equal; apply gp_ext; auto using alpha_feq. Qed.
Lemma lc_add a x y : feq d (lc a (fadd x y)) (fadd (lc a x) (lc a y)).
Proof.
  intros k Hk. change (fadd (lc a x) (lc a y) k) with (lc a x k + lc a y k). unfold lc, fsub. rewrite gp_add_r.
  rewrite (gp_ext d 0 0 (alpha (fadd x y)) (fadd (alpha x) (alpha y)) a a) by (auto using feq_refl; intros i Hi; unfold alpha, fadd; apply sgb_add).
  rewrite gp_add_l. ring.
Qed.
Lemma vec_sum a u : homog d 1 a -> homog d 1 u -> feq d (fadd (g0 a u) (g0 u a)) (del 0 (dot a u + dot a u)).
Proof.
  intros Ha Hu k Hk. unfold fadd.
  assert (Hau : homog d 1 (fadd a u)) by (intros i Hi Hne; unfold fadd; rewrite Ha, Hu by auto; ring).
  pose proof (vec_sq d 0 0 _ Hau k Hk) as E. pose proof (vec_sq d 0 0 _ Ha k Hk) as Ea. pose proof (vec_sq d 0 0 _ Hu k Hk) as Eu.
  rewrite gp_add_l, !gp_add_r, Ea, Eu in E. unfold dotv in E. rewrite gp_add_l, !gp_add_r in E. fold (dot a a) (dot a u) (dot u a) (dot u u) in E.
  rewrite (dotv_comm d 0 0 u a) in E by auto. unfold del in *. destruct (k =? 0)%N.
  - transitivity (dot a a + g0 a u k + (g0 u a k + dot u u) - dot a a - dot u u); [ring|]. rewrite E. ring.
  - transitivity (0 + g0 a u k + (g0 u a k + 0)); [ring|exact E].
Qed.

(** a . (u y) = 2 (a.u) y - u (a . y) *)
Lemma lc_mul_l a u y : homog d 1 a -> homog d 1 u ->
  feq d (lc a (g0 u y)) (fun k => (dot a u + dot a u) * y k - g0 u (lc a y) k).
Proof.
  intros Ha Hu k Hk. unfold lc at 1. unfold fsub.
  rewrite (gp_ext d 0 0 (alpha (g0 u y)) (fneg (g0 u (alpha y))) a a); auto using feq_refl.
  2:{ intros i Hi. rewrite alpha_gp by auto. rewrite (gp_ext d 0 0 (alpha u) (fneg u) _ (alpha y)) by (auto using feq_refl, alpha_vec). apply gp_neg_l. }
  rewrite gp_neg_l, gp_assoc, <- gp_assoc by auto. unfold lc. rewrite gp_sub_r, <- (gp_assoc d 0 0 u a y) by auto.
  rewrite (gp_ext d 0 0 (g0 a u) (fsub (del 0 (dot a u + dot a u)) (g0 u a)) y y) by (auto using feq_refl; intros i Hi; unfold fsub; rewrite <- (vec_sum a u Ha Hu i Hi); unfold fadd; ring).
  rewrite gp_sub_l, gp_scalar_l. ring.
Qed.
(** a . (alpha(y) u) = 2 (a.u) y - alpha(a . y) u *)
Lemma lc_mul_r a u y : homog d 1 a -> homog d 1 u ->
  feq d (lc a (g0 (alpha y) u)) (fun k => (dot a u + dot a u) * y k - g0 (alpha (lc a y)) u k).
Proof.
  intros Ha Hu k Hk. unfold lc at 1. unfold fsub.
  rewrite (gp_ext d 0 0 (alpha (g0 (alpha y) u)) (fneg (g0 y u)) a a); auto using feq_refl.
  2:{ intros i Hi. rewrite alpha_gp by auto. rewrite (gp_ext d 0 0 _ y (alpha u) (fneg u)) by (auto using alpha_vec; intros j Hj; apply alpha_invol). apply gp_neg_r. }
  rewrite gp_neg_l, (gp_assoc d 0 0 y u a) by auto. rewrite <- (gp_assoc d 0 0 a (alpha y) u) by auto.
  rewrite (gp_ext d 0 0 y y (g0 u a) (fsub (del 0 (dot a u + dot a u)) (g0 a u))) by (auto using feq_refl; intros i Hi; unfold fsub; rewrite <- (vec_sum a u Ha Hu i Hi); unfold fadd; ring).
  rewrite gp_sub_r, gp_scalar_r by auto. rewrite <- (gp_assoc d 0 0 y a u) by auto.
  rewrite (gp_ext d 0 0 (alpha (lc a y)) (fsub (g0 y a) (g0 a (alpha y))) u u); auto using feq_refl.
  2:{ intros i Hi. unfold alpha at 1. unfold lc, fsub. rewrite sub_def, sgb_add, sgb_neg. fold (alpha (g0 a y) i) (alpha (g0 (alpha y) a) i).
      rewrite !alpha_gp by auto. rewrite (gp_ext d 0 0 (alpha a) (fneg a) (alpha y) (alpha y)) by (auto using feq_refl, alpha_vec).
      rewrite (gp_ext d 0 0 (alpha (alpha y)) y (alpha a) (fneg a)) by (auto using alpha_vec; intros j Hj; apply alpha_invol). rewrite gp_neg_l, gp_neg_r. ring. }
  rewrite gp_sub_l. ring.
Qed.
(** a . (u ^ y) = 2 (a.u) y - u ^ (a . y) *)
Lemma lc_wedge a u y : homog d 1 a -> homog d 1 u ->
  feq d (lc a (wp u y)) (fun k => (dot a u + dot a u) * y k - wp u (lc a y) k).
Proof.
  intros Ha Hu k Hk. apply (cancel2 two). pose proof (two_wedge d 0 0 u (lc a y) Hu k Hk) as E2. cbv beta in E2.
  transitivity (lc a (fadd (g0 u y) (g0 (alpha y) u)) k).
  - rewrite <- (lc_feq a a (fadd (wp u y) (wp u y)) (fadd (g0 u y) (g0 (alpha y) u)) (feq_refl _ _)) by (auto; intros i Hi; apply (two_wedge d 0 0 u y Hu i Hi)).
    rewrite lc_add by auto. reflexivity.
  - rewrite lc_add by auto. unfold fadd. rewrite lc_mul_l, lc_mul_r by auto.
    transitivity ((dot a u + dot a u) * y k + (dot a u + dot a u) * y k - (g0 u (lc a y) k + g0 (alpha (lc a y)) u k)); [ring|]. rewrite <- E2. ring.
Qed.
Lemma lc_one a c : homog d 1 a -> feq d (lc a (del 0 c)) (fun _ => 0).
Proof.
  intros Ha k Hk. unfold lc, fsub. rewrite (gp_ext d 0 0 (alpha (del 0 c)) (del 0 c) a a) by (auto using feq_refl; (intros i Hi; unfold alpha, del; destruct (N.eqb_spec i 0) as [->|]; [reflexivity|apply sgb_0])).
  rewrite gp_scalar_l, gp_scalar_r by auto. ring.
Qed.

(** dual x = I rev(x) *)
Lemma dual_ps x : feq d (fdual A x) (g0 PS (frev x)).
Proof. intros k Hk. rewrite (ps_dual A 0) by auto. rewrite N.land_0_r. reflexivity. Qed.
Lemma ps_vec a : homog d 1 a -> feq d (g0 a PS) (fun k => sgb (Nat.even d) (g0 PS a k)).
Proof.
  intros Ha.
  assert (W0 : feq d (wp a PS) (fun _ => 0)).
  { assert (Hh : homog d (1 + d)%nat (wp a PS)).
    { apply homog_wp; auto. intros i Hi Hne. apply del_neq. intros E. apply Hne. rewrite E. apply popcount_ones. }
    intros k Hk. apply Hh; auto. pose proof (popcount_le d k Hk). lia. }
  intros k Hk. pose proof (two_wedge d 0 0 a PS Ha k Hk) as E. cbv beta in E. rewrite W0 in E by auto.
  rewrite (gp_ext d 0 0 (alpha PS) (fun i => sgb (Nat.odd d) 1 * PS i) a a) in E; auto using feq_refl.
  - rewrite gp_scale_l, sgb_mul_l, mul_1_l in E. rewrite <- Nat.negb_odd. apply sub_eq0. rewrite sub_def.
    transitivity (0 + 0 : T); [rewrite E|ring]. destruct (Nat.odd d); cbn [negb sgb]; ring.
  - intros i Hi. unfold alpha, del. destruct (N.eqb_spec i (ones d)) as [->|]; [|rewrite sgb_0; ring].
    unfold par. rewrite popcount_ones, mul_1_r. reflexivity.
Qed.
(** 2 h v x = (-1)^d dual(h) . alpha(x) *)
Lemma meet_lc h x : homog d 1 (fdual A h) -> feq d (fun k => fmeet A h x k + fmeet A h x k) (fun k => sgb (Nat.odd d) (lc (fdual A h) (alpha x) k)).
Proof.
  intros Ha. set (a := fdual A h) in *.
  assert (E : feq d (fun k => wp a (fdual A x) k + wp a (fdual A x) k) (fdual A (fun k => sgb (Nat.odd d) (lc a (alpha x) k)))).
  { intros k Hk. cbv beta. pose proof (two_wedge d 0 0 a (fdual A x) Ha k Hk) as E. cbv beta in E. rewrite E. clear E.
    rewrite (dual_ps (fun k => sgb (Nat.odd d) (lc a (alpha x) k)) k Hk).
    rewrite (gp_ext d 0 0 a a (fdual A x) (g0 PS (frev x))) by (auto using feq_refl, dual_ps).
    rewrite <- gp_assoc by auto. rewrite (gp_ext d 0 0 (g0 a PS) (fun i => sgb (Nat.even d) 1 * g0 PS a i) (frev x) (frev x)) by (auto using feq_refl; intros i Hi; rewrite ps_vec, sgb_mul_l, mul_1_l by auto; reflexivity).
    rewrite gp_scale_l, gp_assoc by auto.
    rewrite (gp_ext d 0 0 (alpha (fdual A x)) (fun i => sgb (Nat.odd d) 1 * g0 PS (alpha (frev x)) i) a a); auto using feq_refl.
    2:{ intros i Hi. rewrite (alpha_feq _ _ (dual_ps x) i Hi), alpha_gp, <- gp_scale_l by auto. apply gp_ext; auto using feq_refl.
        intros j Hj. unfold alpha, del. destruct (N.eqb_spec j (ones d)) as [->|]; [|rewrite sgb_0; ring]. unfold par. rewrite popcount_ones, mul_1_r. reflexivity. }
    rewrite gp_scale_l, gp_assoc by auto.
    assert (R : feq d (frev (fun i => sgb (Nat.odd d) (lc a (alpha x) i)))
      (fun i => (g0 (alpha (frev x)) a i - g0 a (frev x) i) * sgb (Nat.odd d) 1)).
    { intros i Hi. unfold frev at 1. rewrite sgb_sgb, xorb_comm, <- sgb_sgb. unfold lc, fsub. rewrite sub_def, sgb_add, sgb_neg.
      fold (frev (g0 a (alpha x)) i) (frev (g0 (alpha (alpha x)) a) i). rewrite !frev_gp by auto.
      rewrite (gp_ext d 0 0 (frev (alpha x)) (alpha (frev x)) (frev a) a) by (auto using frev_vec; intros j Hj; unfold frev, alpha; rewrite !sgb_sgb, xorb_comm; reflexivity).
      rewrite (gp_ext d 0 0 (frev a) a (frev (alpha (alpha x))) (frev x)) by (auto using frev_vec; intros j Hj; unfold frev; rewrite alpha_invol; reflexivity).
      destruct (Nat.odd d); cbn [sgb]; ring. }
    rewrite (gp_ext d 0 0 PS PS _ _ k Hk (feq_refl _ _) R). rewrite (gp_scale_r d 0 0 (sgb (Nat.odd d) 1) PS (fun i => g0 (alpha (frev x)) a i - g0 a (frev x) i)).
    change (fun i => g0 (alpha (frev x)) a i - g0 a (frev x) i) with (fsub (g0 (alpha (frev x)) a) (g0 a (frev x))). rewrite gp_sub_r.
    rewrite <- (Nat.negb_odd d). destruct (Nat.odd d); cbn [sgb negb]; ring. }
  intros k Hk. cbv beta. rewrite <- (fundual_fdual A (fun k => sgb (Nat.odd d) (lc a (alpha x) k)) k Hk).
  rewrite <- (fundual_ext A _ _ E k Hk). unfold fmeet, fundual. fold a. rewrite sgb_add. reflexivity.
Qed.
(** dual(h) . u is, up to a sign, the coefficient of the pseudoscalar in h ^ u. *)
Lemma dual_dot h u : homog d 1 u -> dot (fdual A h) u = sgb (Nat.even d) (wp h u (ones d)).
Proof.
  intros Hu. unfold dotv, gp. rewrite <- sumI_sgb. rewrite (sumI_lxor d (ones d)) by apply ones_lt. apply sumI_ext. intros i Hi.
  assert (E1 : N.lxor i (ones d) = cpl A i) by (rewrite N.lxor_comm, <- (cpl_lxor' A i) by auto; reflexivity).
  rewrite N.lxor_0_r, !E1. unfold fdual. rewrite cpl_invol by auto.
  destruct (Nat.eq_dec (popcount (cpl A i)) 1%nat) as [E|E]; [|rewrite (Hu (cpl A i)) by (auto; apply cpl_lt); rewrite !mul_0_r, !act_0, sgb_0; reflexivity].
  assert (E0 : N.land i (cpl A i) = 0%N) by (unfold cpl; apply N.bits_inj; intros j; rewrite N.land_spec, N.ldiff_spec, N.bits_0; destruct (N.testbit i j), (N.testbit (ones d) j); reflexivity).
  assert (Ei : popcount i = (d - 1)%nat /\ (1 <= d)%nat).
  { rewrite popcount_cpl in E by auto. pose proof (popcount_le d i Hi). lia. }
  rewrite <- (wsign_gsign d 0) by auto. unfold wsign. rewrite E0. cbn [N.eqb negb]. unfold gsign. rewrite !N.land_0_r, par_0, xorb_false_r. cbn [N.eqb negb].
  rewrite !act_of_bool, sgb_mul_l, !sgb_sgb. f_equal. rewrite beta_self by apply cpl_lt. rewrite (beta_comm d (cpl A i) i) by (auto; apply cpl_lt).
  rewrite (N.land_comm (cpl A i)), E0, par_0, E. unfold par. rewrite E. destruct Ei as [-> Hd]. generalize (beta d (cpl A i) i). intros bb. destruct d as [|n]; [lia|]. cbn [Nat.sub]. rewrite Nat.sub_0_r, Nat.even_succ.
  destruct bb, (Nat.odd n); reflexivity.
Qed.
End Meet.
