(** The sandwich by a vector, and by a product of vectors, is such an automorphism. *)
From Verif Require Export P_Sandwich Spec_Sandwich.
Local Open Scope nat_scope.

Section Refl.
Context {T : Type} {RO : RingOps T} {L : RingLaws T} {CL : CommLaws T} {DV : DivOps T} {F : FieldLaws T}.
Add Ring TRS2 : comm_ring_theory.
Variables (d : nat) (Q P : N).
Local Notation gpd := (gp d Q P).
Local Notation wp := (gp d 0 (ones d)).
Local Open Scope rg_scope.
Implicit Types x y v w : N -> T.

Definition psi v (c : T) x : N -> T := fun k => c * gpd v (gpd x v) k.

Section Psi.
Variables (v : N -> T) (c : T).
Hypothesis Hv : homog d 1 v.
Hypothesis Hc : c * dotv d Q P v v = 1.

Lemma psi_feq x y : feq d x y -> feq d (psi v c x) (psi v c y).
Proof. intros E k Hk. unfold psi. f_equal. apply gp_ext; auto using feq_refl. apply gp_feq; auto using feq_refl. Qed.
Lemma psi_exp x k : (k < pow2 d)%N -> psi v c x k = sumI d (fun i => x i * psi v c (del i 1) k).
Proof.
  intros Hk. unfold psi.
  rewrite (gp_ext d Q P v v (gpd x v) (fun a => sumI d (fun i => x i * gpd (del i 1) v a))); auto using feq_refl.
  - transitivity (c * sumI d (fun i => x i * gpd v (gpd (del i 1) v) k)); [f_equal; exact (gp_sum_r d Q P x (fun i => gpd (del i 1) v) v k)|].
    rewrite sumI_mul_l. apply sumI_ext. intros; ring.
  - intros a Ha. rewrite (gp_ext d Q P x (fun b => sumI d (fun i => x i * del i 1 b)) v v) by (auto using feq_refl; intros b Hb; apply gpart_sum; auto).
    apply gp_sum_l.
Qed.
Lemma psi_add x y : feq d (psi v c (fadd x y)) (fadd (psi v c x) (psi v c y)).
Proof. intros k Hk. unfold fadd at 2. rewrite !psi_exp by auto. rewrite <- sumI_add. apply sumI_ext. intros; unfold fadd; ring. Qed.
Lemma psi_scale t x : feq d (psi v c (fun i => t * x i)) (fun i => t * psi v c x i).
Proof. intros k Hk. cbv beta. rewrite !(psi_exp _ k Hk), sumI_mul_l. apply sumI_ext. intros; ring. Qed.
(** v v x = (v.v) x *)
Lemma vv_l x : feq d (gpd v (gpd v x)) (fun k => dotv d Q P v v * x k).
Proof.
  intros k Hk. rewrite <- gp_assoc by auto. rewrite (gp_ext d Q P _ (del 0 (dotv d Q P v v)) x x) by (auto using feq_refl, vec_sq).
  apply gp_scalar_l.
Qed.
Lemma vv_r x : feq d (gpd (gpd x v) v) (fun k => x k * dotv d Q P v v).
Proof.
  intros k Hk. rewrite gp_assoc by auto. rewrite (gp_ext d Q P x x _ (del 0 (dotv d Q P v v))) by (auto using feq_refl, vec_sq).
  apply gp_scalar_r; auto.
Qed.
Lemma psi_mul x y : feq d (psi v c (gpd x y)) (gpd (psi v c x) (psi v c y)).
Proof.
  intros k Hk. unfold psi at 2 3. rewrite gp_scale_l.
  rewrite (gp_ext d Q P _ (gpd v (gpd x v)) (fun k0 => c * gpd v (gpd y v) k0) (fun k0 => gpd v (gpd y v) k0 * c)) by (auto using feq_refl; intros i Hi; ring).
  rewrite gp_scale_r.
  assert (E : gpd (gpd v (gpd x v)) (gpd v (gpd y v)) k = gpd v (gpd (gpd x y) v) k * dotv d Q P v v).
  { rewrite gp_assoc by auto. rewrite <- gp_scale_r. apply gp_ext; auto using feq_refl. intros i Hi.
    rewrite gp_assoc by auto. rewrite (gp_ext d Q P x x _ (fun j => gpd y v j * dotv d Q P v v)) by (auto using feq_refl; intros j Hj; rewrite vv_l by auto; ring).
    rewrite gp_scale_r, gp_assoc by auto. reflexivity. }
  rewrite E. unfold psi. transitivity (c * gpd v (gpd (gpd x y) v) k * (c * dotv d Q P v v)); [rewrite Hc|]; ring.
Qed.
Lemma psi_one : feq d (psi v c (del 0 1)) (del 0 1).
Proof.
  intros k Hk. unfold psi. rewrite (gp_ext d Q P v v _ v) by (auto using feq_refl; intros i Hi; apply gp_1_l).
  rewrite (vec_sq d Q P v Hv k Hk). unfold del. destruct (k =? 0)%N; [exact Hc|ring].
Qed.
(** The vector itself stays, what is orthogonal to it changes sign. *)
Lemma psi_self : feq d (psi v c v) v.
Proof. intros k Hk. unfold psi. rewrite vv_l by auto. transitivity (c * dotv d Q P v v * v k); [ring|rewrite Hc; ring]. Qed.
Lemma psi_orth w : homog d 1 w -> dotv d Q P v w = 0 -> feq d (psi v c w) (fneg w).
Proof.
  intros Hw E k Hk. unfold psi, fneg. rewrite <- gp_assoc by auto.
  rewrite (gp_ext d Q P _ (fneg (gpd w v)) v v) by (auto using feq_refl, vec_anti).
  rewrite gp_neg_l, vv_r by auto. transitivity (- (w k * (c * dotv d Q P v v))); [ring|rewrite Hc; ring].
Qed.
Lemma psi_vec w : homog d 1 w -> feq d (psi v c w) (fun k => (c * dotv d Q P v w + c * dotv d Q P v w) * v k - w k).
Proof.
  intros Hw. pose (t := c * dotv d Q P v w). pose (u := fsub w (fun i => t * v i)).
  assert (Hu : homog d 1 u) by (apply homog_sub; auto; apply homog_scale; auto).
  assert (Eu : dotv d Q P v u = 0).
  { unfold dotv, u. rewrite gp_sub_r. rewrite (gp_ext d Q P v v (fun i => t * v i) (fun i => v i * t)) by (auto using feq_refl, pow2_pos; intros i Hi; ring).
    rewrite gp_scale_r. change (dotv d Q P v w - dotv d Q P v v * t = 0). unfold t.
    transitivity (dotv d Q P v w * (1 - c * dotv d Q P v v)); [ring|rewrite Hc; ring]. }
  intros k Hk. rewrite (psi_feq w (fadd u (fun i => t * v i))) by (auto; intros i Hi; unfold fadd, u, fsub; ring).
  rewrite psi_add by auto. unfold fadd. rewrite (psi_orth u Hu Eu k Hk), psi_scale, psi_self by auto. unfold fneg, u, fsub. fold t. ring.
Qed.
Lemma psi_auto : auto d Q P (psi v c).
Proof.
  split; auto using psi_feq, psi_exp, psi_mul, psi_one.
  intros w Hw. eapply homog_feq; [apply feq_sym, psi_vec; auto|]. apply homog_sub; auto. apply homog_scale; auto.
Qed.
(** The unit pseudoscalar is multiplied by (-1)^(d+1). *)
Lemma psi_ps (two : (1 + 1 : T) <> 0) : feq d (psi v c (del (ones d) 1)) (del (ones d) (sgb (Nat.even d) 1)).
Proof.
  assert (Ho : popcount (ones d) = d).
  { destruct (ones_low_spec d d (le_n d)) as [_ E]. exact E. }
  assert (W0 : feq d (wp v (del (ones d) 1)) (fun _ => 0)).
  { assert (Hh : homog d (1 + d)%nat (wp v (del (ones d) 1))).
    { apply homog_wp; auto. intros i Hi Hne. apply del_neq. intros E. apply Hne. rewrite E. exact Ho. }
    intros k Hk. apply Hh; auto. pose proof (popcount_le d k Hk). lia. }
  intros k Hk. unfold psi. rewrite <- gp_assoc by auto.
  assert (E : feq d (gpd v (del (ones d) 1)) (gpd (del (ones d) (sgb (Nat.even d) 1)) v)).
  { intros i Hi. pose proof (two_wedge d Q P v (del (ones d) 1) Hv i Hi) as E. cbv beta in E. rewrite W0 in E by auto.
    rewrite (gp_ext d Q P (alpha _) (fneg (del (ones d) (sgb (Nat.even d) 1))) v v) in E; auto using feq_refl.
    - rewrite gp_neg_l in E. apply sub_eq0. rewrite sub_def, <- E. ring.
    - intros j Hj. unfold alpha, fneg, del. destruct (N.eqb_spec j (ones d)) as [->|]; [|rewrite sgb_0; ring].
      unfold par. rewrite Ho, <- Nat.negb_even. destruct (Nat.even d); cbn; ring. }
  rewrite (gp_ext d Q P _ _ v v k Hk E (feq_refl _ _)). rewrite vv_r by auto. unfold del. destruct (k =? ones d)%N; [|ring].
  transitivity (sgb (Nat.even d) 1 * (c * dotv d Q P v v)); [ring|rewrite Hc; ring].
Qed.
End Psi.

(** *** Products of vectors *)
Fixpoint chain (ws : list (N -> T)) x : N -> T :=
  match ws with [] => x | w :: r => psi w (1 / dotv d Q P w w) (chain r x) end.

Lemma normp_cons ws : normp d Q P ws <> 0 -> Forall (fun w => dotv d Q P w w <> 0) ws.
Proof.
  induction ws as [|w ws IH]; intros Hn; constructor; cbn [normp] in Hn.
  - intros E. apply Hn. rewrite E. ring.
  - apply IH. intros E. apply Hn. rewrite E. ring.
Qed.
Lemma chain_feq ws x y : feq d x y -> feq d (chain ws x) (chain ws y).
Proof. induction ws as [|w ws IH]; cbn [chain]; auto. intros E. apply psi_feq. auto. Qed.
Lemma chain_auto ws : vecs d ws -> Forall (fun w => dotv d Q P w w <> 0) ws -> auto d Q P (chain ws).
Proof.
  induction ws as [|w ws IH]; intros Hv Hn; cbn [chain]; [apply auto_id|].
  inversion Hv; subst. inversion Hn; subst. apply (auto_comp d Q P (psi w (1 / dotv d Q P w w)) (chain ws)); auto.
  apply psi_auto; auto. apply div_mul; auto.
Qed.
Lemma chain_fprod ws x : vecs d ws -> Forall (fun w => dotv d Q P w w <> 0) ws ->
  feq d (gpd (fprod d Q P ws) (gpd x (frev (fprod d Q P ws)))) (fun k => normp d Q P ws * chain ws x k).
Proof.
  revert x. induction ws as [|w ws IH]; intros x Hv Hn k Hk; cbn [chain fprod normp].
  - rewrite gp_1_l. rewrite (gp_ext d Q P x x _ (del 0 1)); auto using feq_refl; [rewrite gp_1_r by auto; ring|].
    intros i Hi. unfold frev, del. destruct (N.eqb_spec i 0) as [->|]; [reflexivity|apply sgb_0].
  - inversion Hv as [|? ? Hw Hv']; subst. inversion Hn as [|? ? Hq Hn']; subst. set (p := fprod d Q P ws). set (q := dotv d Q P w w) in *.
    transitivity (gpd w (gpd (gpd p (gpd x (frev p))) w) k).
    + rewrite gp_assoc by auto. apply gp_ext; auto using feq_refl. intros i Hi. rewrite gp_assoc by auto.
      apply gp_ext; auto using feq_refl. intros j Hj. rewrite gp_assoc by auto. apply gp_ext; auto using feq_refl.
      intros l Hl. rewrite (frev_gp d Q P) by auto. apply gp_ext; auto using feq_refl, frev_vec.
    + unfold psi. rewrite (gp_ext d Q P w w _ (gpd (fun i => normp d Q P ws * chain ws x i) w)) by (auto using feq_refl; apply gp_feq; auto using feq_refl; apply IH; auto).
      rewrite (gp_ext d Q P w w _ (fun i => gpd (chain ws x) w i * normp d Q P ws)) by (auto using feq_refl; intros i Hi; rewrite gp_scale_l; ring).
      rewrite gp_scale_r. transitivity (normp d Q P ws * gpd w (gpd (chain ws x) w) k * (1 / q * q)); [rewrite div_mul by auto|]; ring.
Qed.
Lemma chain_app ws us x : feq d (chain (ws ++ us) x) (chain ws (chain us x)).
Proof. induction ws as [|w ws IH]; cbn [chain app]; [apply feq_refl|]. apply psi_feq, IH. Qed.
Lemma chain_ps (two : (1 + 1 : T) <> 0) ws : vecs d ws -> Forall (fun w => dotv d Q P w w <> 0) ws ->
  feq d (chain ws (del (ones d) 1)) (del (ones d) (sgb (Nat.even d && Nat.odd (length ws)) 1)).
Proof.
  induction ws as [|w ws IH]; intros Hv Hn; cbn [chain length]; [rewrite andb_false_r; apply feq_refl|].
  inversion Hv as [|? ? Hw Hv']; subst. inversion Hn as [|? ? Hq Hn']; subst. specialize (IH Hv' Hn'). intros k Hk.
  rewrite (psi_feq w _ _ _ IH k Hk). set (t := sgb _ 1).
  rewrite (psi_feq w _ _ (fun i => t * del (ones d) 1 i)) by (auto; intros i Hi; unfold del; destruct (i =? ones d)%N; ring).
  rewrite psi_scale by auto. rewrite (psi_ps w _ Hw (div_mul _ _ Hq) two k Hk). unfold t, del. destruct (k =? ones d)%N; [|ring].
  rewrite Nat.odd_succ, <- (Nat.negb_odd (length ws)). unfold sgb. destruct (Nat.even d), (Nat.odd (length ws)); cbn [andb negb]; ring.
Qed.
End Refl.
