(** Wedge and meet, both code paths. *)
From Verif Require Export P_Halving.
Local Open Scope nat_scope.

Section Meet.
Context {T : Type} {RO : RingOps T} {W : NumLaws T} {L : RingLaws T} {m : Mode}.
Variable A : algebra.
Variable sg : list tok.
Hypothesis D : declared sg A.
Local Notation d := (a_dim A).
Local Notation wpd := (gp d 0 (ones d)).

Definition fmeet (x y : N -> T) : N -> T := fundual A (wpd (fdual A x) (fdual A y)).

Lemma lxor_cpl i j : (i < pow2 d)%N -> (j < pow2 d)%N -> N.lxor (cpl A i) (cpl A j) = N.lxor i j.
Proof.
  intros Hi Hj. rewrite !cpl_lxor' by auto.
  rewrite (N.lxor_comm (ones d) i), N.lxor_assoc, <- (N.lxor_assoc (ones d)), N.lxor_nilpotent, N.lxor_0_l. reflexivity.
Qed.

Lemma lxor_cpl_l i j : (i < pow2 d)%N -> (j < pow2 d)%N -> N.lxor i (cpl A j) = cpl A (N.lxor i j).
Proof.
  intros Hi Hj. rewrite !cpl_lxor' by (auto using lxor_lt).
  rewrite <- !N.lxor_assoc, (N.lxor_comm i). reflexivity.
Qed.

Lemma sumI_cpl f : sumI d f = sumI d (fun i => f (cpl A i)).
Proof.
  rewrite (sumI_lxor_l d (ones d)) by apply ones_lt. apply sumI_ext. intros i Hi. rewrite cpl_lxor'; auto.
Qed.

Lemma fmeet_naive (x y : N -> T) k : (k < pow2 d)%N ->
  sumI d (fun i => sumI d (fun j =>
      if (N.ldiff (ones d) (N.lxor i j) =? k)%N then act (msign A i j) (rmul (x i) (y j)) else r0)) = fmeet x y k.
Proof.
  intros Hk. unfold fmeet, fundual. unfold gp. symmetry. rewrite sumI_cpl. symmetry. rewrite <- sumI_sgb.
  apply sumI_ext. intros i Hi. rewrite lxor_cpl by auto.
  set (j := cpl A (N.lxor i k)).
  assert (Hj : (j < pow2 d)%N) by apply cpl_lt.
  assert (Ej : cpl A j = N.lxor i k) by (apply cpl_invol; apply lxor_lt; auto).
  assert (Eij : N.lxor i j = cpl A k).
  { unfold j. rewrite <- lxor_cpl_l by auto. rewrite <- N.lxor_assoc, N.lxor_nilpotent, N.lxor_0_l. reflexivity. }
  rewrite (sumI_single d _ j Hj).
  - change (N.ldiff (ones d) (N.lxor i j)) with (cpl A (N.lxor i j)). rewrite Eij, cpl_invol, N.eqb_refl by auto.
    rewrite <- (wsign_gsign d 0 (cpl A i)) by apply cpl_lt. rewrite <- Ej.
    unfold msign. change (N.ldiff (ones d)) with (cpl A). cbv zeta. rewrite Eij, (cpl_invol A k) by auto.
    unfold fdual. rewrite !cpl_invol by auto.
    rewrite sgb_mul_l, sgb_mul_r.
    rewrite (wsign_disj A (cpl A i) i) by apply cpl_disj.
    rewrite (wsign_disj A (cpl A j) j) by apply cpl_disj.
    rewrite (wsign_disj A (cpl A k) k) by apply cpl_disj.
    rewrite <- !act_of_bool, !act_mul. f_equal.
    destruct (wsign d (cpl A i) (cpl A j)), (beta d (cpl A i) i), (beta d (cpl A j) j), (beta d (cpl A k) k); reflexivity.
  - intros j' Hj' Hne. destruct (N.eqb_spec (N.ldiff (ones d) (N.lxor i j')) k) as [E|]; [|reflexivity].
    exfalso. apply Hne. change (cpl A (N.lxor i j') = k) in E.
    assert (E2 : N.lxor i j' = cpl A k) by (rewrite <- E, cpl_invol; auto using lxor_lt).
    apply lxor_eq_iff in E2. rewrite E2. unfold j. apply lxor_cpl_l; auto.
Qed.

Lemma fmeet_ext x x' y y' : feq d x x' -> feq d y y' -> feq d (fmeet x y) (fmeet x' y').
Proof.
  intros Hx Hy k Hk. unfold fmeet, fundual. f_equal. apply gp_ext; auto using cpl_lt;
  intros i Hi; unfold fdual; f_equal; [apply Hx|apply Hy]; apply cpl_lt.
Qed.

Lemma g_meet {S} {St : Storage T S} {SL : StorageLaws T S} (x y : S) : valid A x -> valid A y ->
  gives A (naive_meet A x y) (fmeet (rd x) (rd y)).
Proof.
  intros Hx Hy. destruct (meet_ok A (declared_ok _ _ D) (valid_dim A x Hx) x y Hx Hy) as (z & E & Hz & Hc).
  apply gives_iff. exists z. split; auto. split; auto. intros k Hk. rewrite Hc, fmeet_naive by auto.
  apply fmeet_ext; auto; apply feq_sym, rd_feq; auto.
Qed.

Lemma fdual_ext x x' : feq d x x' -> feq d (fdual A x) (fdual A (x' : N -> T)).
Proof. intros Hx k Hk. unfold fdual. f_equal. apply Hx. apply cpl_lt. Qed.
Lemma fundual_ext x x' : feq d x x' -> feq d (fundual A x) (fundual A (x' : N -> T)).
Proof. intros Hx k Hk. unfold fundual. f_equal. apply Hx. apply cpl_lt. Qed.

Lemma g_dense_meet (x y : arr T) : valid A x -> valid A y -> gives A (dense_meet A x y) (fmeet (rd x) (rd y)).
Proof.
  intros Hx Hy. unfold dense_meet. destruct (Nat.ltb_spec d 6) as [H6|H6]; [apply g_meet; auto|].
  pose proof Hx as (Hd & Dx & Lx).
  destruct (arr_zero_len (T := T) A Hd) as (z & E & Dz & Lz). rewrite E. cbn [bind].
  apply (gives_bind A _ _ (fdual A (rd x)) _ (g_dual A sg D x Hx)). intros dx Hdx Cx.
  apply (gives_bind A _ _ (fdual A (rd y)) _ (g_dual A sg D y Hy)). intros dy Hdy Cy.
  pose proof Hdx as (_ & _ & Ldx). pose proof Hdy as (_ & _ & Ldy). rewrite Ldx.
  destruct (wedge_impl_ok d (2 ^ d) (arr_data dx) (arr_data dy) (arr_data z)) as (r & -> & Lr & Cr); auto.
  { apply Nat.pow_gt_lin_r. lia. }
  cbn [bind fst snd]. set (w := mkArr (arr_dim z) r).
  assert (Hw : valid A w) by (split; [exact Hd|split; [exact Dz|exact Lr]]).
  eapply gives_ext; [apply (g_undual A sg D w Hw)|]. unfold fmeet. apply fundual_ext.
  intros k Hk. rewrite (rd_coef d w k Hw Hk). change (st_coef w k) with (lc r k).
  rewrite Cr by auto. apply gp_ext; auto; eapply feq_trans; [|exact Cx| |exact Cy]; apply feq_sym;
  [exact (rd_feq d dx Hdx)|exact (rd_feq d dy Hdy)].
Qed.
End Meet.
