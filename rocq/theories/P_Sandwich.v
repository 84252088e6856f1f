(** Automorphisms of the Clifford algebra that map vectors to vectors, and the sandwich by a
    product of vectors: lemmas behind C82. *)
From Verif Require Export P_Props6.
Local Open Scope nat_scope.

Section Auto.
Context {T : Type} {RO : RingOps T} {L : RingLaws T} {CL : CommLaws T} {DV : DivOps T} {F : FieldLaws T}.
Add Ring TRS : comm_ring_theory.
Variables (d : nat) (Q P : N).
Local Notation gpd := (gp d Q P).
Local Notation wp := (gp d 0 (ones d)).
Local Open Scope rg_scope.
Hypothesis two : (1 + 1 : T) <> 0.
Implicit Types x y v w : N -> T.

(** Linear, multiplicative, unital, vectors to vectors. *)
Record auto (f : (N -> T) -> N -> T) : Prop := {
  au_feq : forall x y, feq d x y -> feq d (f x) (f y);
  au_exp : forall x k, (k < pow2 d)%N -> f x k = sumI d (fun i => x i * f (del i 1) k);
  au_mul : forall x y, feq d (f (gpd x y)) (gpd (f x) (f y));
  au_one : feq d (f (del 0 1)) (del 0 1);
  au_vec : forall v, homog d 1 v -> homog d 1 (f v)
}.

Definition gpart (g : nat) x : N -> T := fun k => if Nat.eqb (popcount k) g then x k else 0.

(** *** Composition *)
Lemma auto_id : auto (fun x => x).
Proof.
  split; auto.
  - intros x k Hk. rewrite (sumI_single d _ k); auto; [rewrite del_eq; ring|]. intros j Hj Hne. rewrite del_neq by auto. ring.
  - intros. apply feq_refl.
  - apply feq_refl.
Qed.
Lemma auto_comp f g : auto f -> auto g -> auto (fun x => f (g x)).
Proof.
  intros Hf Hg. split.
  - intros x y E. apply (au_feq f Hf), (au_feq g Hg), E.
  - intros x k Hk. rewrite (au_exp f Hf) by auto.
    transitivity (sumI d (fun j => sumI d (fun i => x i * g (del i 1) j * f (del j 1) k))).
    { apply sumI_ext. intros j Hj. rewrite (au_exp g Hg) by auto. rewrite sumI_mul_r. reflexivity. }
    rewrite sumI_swap. apply sumI_ext. intros i Hi. rewrite (au_exp f Hf (g (del i 1))) by auto.
    rewrite sumI_mul_l. apply sumI_ext. intros j Hj. ring.
  - intros x y. eapply feq_trans; [apply (au_feq f Hf), (au_mul g Hg)|]. apply (au_mul f Hf).
  - eapply feq_trans; [apply (au_feq f Hf), (au_one g Hg)|]. apply (au_one f Hf).
  - intros v Hv. apply (au_vec f Hf), (au_vec g Hg), Hv.
Qed.
Lemma auto_ext f g : (forall x, feq d (f x) (g x)) -> auto f -> auto g.
Proof.
  intros E Hf. split.
  - intros x y Exy i Hi. rewrite <- !E by auto. apply (au_feq f Hf); auto.
  - intros x k Hk. rewrite <- E, (au_exp f Hf) by auto. apply sumI_ext. intros i Hi. rewrite E by auto. reflexivity.
  - intros x y k Hk. rewrite <- E, (au_mul f Hf) by auto. apply gp_ext; auto.
  - intros k Hk. rewrite <- E by auto. apply (au_one f Hf); auto.
  - intros v Hv i Hi Hne. rewrite <- E by auto. apply (au_vec f Hf); auto.
Qed.

(** *** Linearity *)
Section One.
Variable f : (N -> T) -> N -> T.
Hypothesis Hf : auto f.

Lemma au_scale c x : feq d (f (fun i => c * x i)) (fun i => c * f x i).
Proof. intros k Hk. cbv beta. rewrite !(au_exp f Hf _ k Hk), sumI_mul_l. apply sumI_ext. intros; ring. Qed.
Lemma au_neg x : feq d (f (fneg x)) (fneg (f x)).
Proof. intros k Hk. unfold fneg at 2. rewrite !(au_exp f Hf _ k Hk), <- sumI_neg. apply sumI_ext. intros; unfold fneg; ring. Qed.
Lemma au_add x y : feq d (f (fadd x y)) (fadd (f x) (f y)).
Proof. intros k Hk. unfold fadd at 2. rewrite !(au_exp f Hf _ k Hk), <- sumI_add. apply sumI_ext. intros; unfold fadd; ring. Qed.
Lemma au_del i c : feq d (f (del i c)) (fun k => c * f (del i 1) k).
Proof.
  eapply feq_trans; [|apply au_scale]. apply (au_feq f Hf). intros k Hk. unfold del. destruct (k =? i)%N; ring.
Qed.

(** *** Grades *)
Lemma au_orth v w : homog d 1 v -> homog d 1 w -> dotv d Q P v w = 0 -> dotv d Q P (f v) (f w) = 0.
Proof.
  intros Hv Hw E. apply (cancel2 two). rewrite add_0_r.
  pose proof (au_vec f Hf v Hv) as Fv. pose proof (au_vec f Hf w Hw) as Fw.
  assert (A : dotv d Q P (f v) (f w) = - dotv d Q P (f w) (f v)).
  { unfold dotv. rewrite <- !(au_mul f Hf _ _ 0%N (pow2_pos d)).
    rewrite (au_feq f Hf _ _ (vec_anti d Q P v w Hv Hw E) 0%N (pow2_pos d)). rewrite (au_neg _ 0%N (pow2_pos d)). reflexivity. }
  rewrite A at 1. rewrite (dotv_comm d Q P (f w)) by auto. ring.
Qed.
Lemma au_fprod ws : feq d (f (fprod d Q P ws)) (fprod d Q P (map f ws)).
Proof.
  induction ws as [|w ws IH]; cbn [fprod map]; [apply (au_one f Hf)|].
  eapply feq_trans; [apply (au_mul f Hf)|]. apply gp_feq; [apply feq_refl|exact IH].
Qed.
Lemma au_orths ws : vecs d ws -> orth d Q P ws -> vecs d (map f ws) /\ orth d Q P (map f ws).
Proof.
  induction ws as [|w ws IH]; intros Hv Ho; cbn [map].
  - split; constructor.
  - inversion Hv as [|? ? Hw Hv']; subst. inversion Ho as [|? ? H0 Ho']; subst. destruct (IH Hv' Ho') as [A B].
    split; constructor; auto; [apply (au_vec f Hf); auto|]. apply Forall_map.
    rewrite Forall_forall in H0 |- *. unfold vecs in Hv'. rewrite Forall_forall in Hv'. intros a Ha. apply au_orth; auto.
Qed.
End One.

Lemma fprod_homog ws : vecs d ws -> orth d Q P ws -> homog d (length ws) (fprod d Q P ws).
Proof.
  induction ws as [|w ws IH]; intros Hv Ho; cbn [length fprod].
  - intros i Hi Hne. unfold del. destruct (N.eqb_spec i 0) as [->|]; auto. exfalso; apply Hne; reflexivity.
  - inversion Hv as [|? ? Hw Hv']; subst. inversion Ho as [|? ? H0 Ho']; subst.
    eapply homog_feq; [apply (wedge_orth d Q P two w ws Hw Hv' H0)|]. apply (homog_wp d 1 (length ws)); auto.
Qed.

(** Every blade is, up to sign, a product of orthogonal vectors. *)
Lemma blade_fprod n : (n <= d)%nat -> forall I, (I < pow2 n)%N -> exists ws b, length ws = popcount I /\
  Forall (fun w => exists j, (j < n)%nat /\ w = del (pow2 j) 1) ws /\ vecs d ws /\ orth d Q P ws /\ feq d (fprod d Q P ws) (del I (sgb b 1)).
Proof.
  induction n as [|n IH]; intros Hn I HI.
  - change (pow2 0) with 1%N in HI. assert (I = 0%N) by lia. subst. exists [], false. repeat split; try constructor; auto.
  - destruct (N.lt_ge_cases I (pow2 n)) as [Hlt|Hge].
    + destruct (IH ltac:(lia) I Hlt) as (ws & b & H1 & H2 & H3 & H4 & H5). exists ws, b. repeat split; auto.
      eapply Forall_impl; [|exact H2]. intros w (j & Hj & E). exists j. split; [lia|auto].
    + rewrite pow2_S in HI. set (I' := (I - pow2 n)%N). assert (EI : I = (pow2 n + I')%N) by (unfold I'; lia).
      assert (HI' : (I' < pow2 n)%N) by lia. destruct (IH ltac:(lia) I' HI') as (ws & b & H1 & H2 & H3 & H4 & H5).
      assert (Hnd : (pow2 n < pow2 d)%N).
      { unfold pow2. apply N.pow_lt_mono_r; lia. }
      assert (Hpn : popcount (pow2 n) = 1%nat) by (rewrite <- (N.add_0_r (pow2 n)), popcount_add_pow2 by apply pow2_pos; reflexivity).
      assert (Hvn : homog d 1 (del (pow2 n) 1)).
      { intros i Hi Hne. unfold del. destruct (N.eqb_spec i (pow2 n)) as [->|]; auto. contradiction. }
      assert (X0 : N.land (pow2 n) I' = 0%N).
      { apply N.bits_inj. intros k. rewrite N.land_spec, N.bits_0, testbit_pow2. destruct (N.eqb_spec k (N.of_nat n)) as [E|E]; [|reflexivity].
        cbn. rewrite E. destruct (N.eq_dec I' 0) as [->|Hz]; [apply N.bits_0|]. apply N.bits_above_log2. apply N.log2_lt_pow2; [lia|exact HI']. }
      exists (del (pow2 n) 1 :: ws), (xorb (beta d (pow2 n) I') b). split; [|split; [|split; [|split]]].
      * cbn [length]. rewrite EI, popcount_add_pow2 by auto. congruence.
      * constructor; [exists n; split; [lia|reflexivity]|]. eapply Forall_impl; [|exact H2]. intros w (j & Hj & E). exists j. split; [lia|auto].
      * constructor; auto.
      * constructor; auto. eapply Forall_impl; [|exact H2]. intros w (j & Hj & ->). unfold dotv.
        rewrite gp_del_del by auto. apply del_neq. intros E. symmetry in E. apply N.lxor_eq in E.
        unfold pow2 in E. apply N.pow_inj_r in E; lia.
      * cbn [fprod]. intros k Hk. rewrite (gp_ext d Q P _ (del (pow2 n) 1) _ (del I' (sgb b 1))) by (auto using feq_refl).
        rewrite gp_del_del by auto. rewrite EI, add_pow2_lxor by auto. f_equal. unfold gsign, qpar. rewrite X0, !N.land_0_l.
        cbn [N.eqb negb]. rewrite par_0, xorb_false_r, act_of_bool, mul_1_l, sgb_sgb. reflexivity.
Qed.

Section Two.
Variable f : (N -> T) -> N -> T.
Hypothesis Hf : auto f.

Lemma au_blade I : (I < pow2 d)%N -> homog d (popcount I) (f (del I 1)).
Proof.
  intros HI. destruct (blade_fprod d (le_n d) I HI) as (ws & b & H1 & _ & H3 & H4 & H5).
  destruct (au_orths f Hf ws H3 H4) as [V O]. pose proof (fprod_homog _ V O) as Hh. rewrite map_length, H1 in Hh.
  intros i Hi Hne. apply (sgb_eq0 b).
  assert (E : feq d (f (del I (sgb b 1))) (fprod d Q P (map f ws))).
  { eapply feq_trans; [|apply (au_fprod f Hf)]. apply (au_feq f Hf), feq_sym, H5. }
  specialize (Hh i Hi Hne). rewrite <- E in Hh by auto. rewrite (au_del f Hf I _ i Hi) in Hh. rewrite sgb_mul_l, mul_1_l in Hh. exact Hh.
Qed.
(** f commutes with the projections onto the grades. *)
Lemma au_grade g x : feq d (f (gpart g x)) (gpart g (f x)).
Proof.
  intros k Hk. unfold gpart at 2. destruct (Nat.eqb_spec (popcount k) g) as [E|E].
  - rewrite !(au_exp f Hf _ k Hk). apply sumI_ext. intros i Hi. unfold gpart.
    destruct (Nat.eqb_spec (popcount i) g) as [Ei|Ei]; [reflexivity|]. rewrite (au_blade i Hi) by (auto; congruence). ring.
  - rewrite (au_exp f Hf _ k Hk). apply sumI_0. intros i Hi. unfold gpart.
    destruct (Nat.eqb_spec (popcount i) g) as [Ei|Ei]; [|ring]. rewrite (au_blade i Hi) by (auto; congruence). ring.
Qed.
Lemma au_homog g x : homog d g x -> homog d g (f x).
Proof.
  intros Hx i Hi Hne. rewrite (au_exp f Hf _ i Hi). apply sumI_0. intros j Hj.
  destruct (Nat.eq_dec (popcount j) g) as [E|E]; [|rewrite Hx by auto; ring]. rewrite (au_blade j Hj) by (auto; congruence). ring.
Qed.
Lemma au_sign (s : nat -> bool) x : feq d (f (fun i => sgb (s (popcount i)) (x i))) (fun i => sgb (s (popcount i)) (f x i)).
Proof.
  intros k Hk. cbv beta. rewrite !(au_exp f Hf _ k Hk), <- sumI_sgb. apply sumI_ext. intros i Hi.
  destruct (Nat.eq_dec (popcount i) (popcount k)) as [E|E]; [rewrite E; apply sgb_mul_l|].
  rewrite (au_blade i Hi k) by (auto; congruence). rewrite !mul_0_r, sgb_0. reflexivity.
Qed.
(** ... with the exterior product ... *)
Lemma gpart_sum x k : (k < pow2 d)%N -> x k = sumI d (fun i => x i * del i 1 k).
Proof. intros Hk. rewrite (sumI_single d _ k); auto; [rewrite del_eq; ring|]. intros j Hj Hne. rewrite del_neq by auto. ring. Qed.
Lemma au_wedge_blades i j : (i < pow2 d)%N -> (j < pow2 d)%N -> feq d (f (wp (del i 1) (del j 1))) (wp (f (del i 1)) (f (del j 1))).
Proof.
  intros Hi Hj k Hk.
  assert (B : forall l, homog d (popcount l) (del l (1 : T))) by (intros l a Ha Hne; apply del_neq; congruence).
  rewrite (gp_top_grade d Q P (popcount i) (popcount j)) by (auto using au_blade).
  transitivity (f (gpart (popcount i + popcount j) (gpd (del i 1) (del j 1))) k).
  - apply (au_feq f Hf); auto. intros a Ha. unfold gpart. apply (gp_top_grade d Q P); auto.
  - rewrite au_grade by auto. unfold gpart. destruct (Nat.eqb _ _); auto. apply (au_mul f Hf); auto.
Qed.
Lemma wp_exp x y k : (k < pow2 d)%N -> wp x y k = sumI d (fun i => sumI d (fun j => x i * y j * wp (del i 1) (del j 1) k)).
Proof.
  intros Hk. unfold gp at 1. apply sumI_ext. intros i Hi. rewrite (sumI_single d _ (N.lxor i k)); auto using lxor_lt.
  - rewrite gp_del_del by auto. rewrite lxor_cancel, del_eq, act_mul_r. f_equal. ring.
  - intros j Hj Hne. rewrite gp_del_del by auto. rewrite del_neq; [ring|]. intros E. apply Hne. rewrite E, lxor_cancel. reflexivity.
Qed.
Lemma gp_sum_l Q' P' (c : N -> T) (h : N -> N -> T) y k : gp d Q' P' (fun a => sumI d (fun i => c i * h i a)) y k = sumI d (fun i => c i * gp d Q' P' (h i) y k).
Proof.
  unfold gp. transitivity (sumI d (fun a => sumI d (fun i => c i * act (gsign d Q' P' a (N.lxor a k)) (h i a * y (N.lxor a k))))).
  - apply sumI_ext. intros a Ha. rewrite sumI_mul_r, act_sum. apply sumI_ext. intros i Hi. rewrite act_mul_r. f_equal. ring.
  - rewrite sumI_swap. apply sumI_ext. intros i Hi. rewrite sumI_mul_l. reflexivity.
Qed.
Lemma gp_sum_r Q' P' (c : N -> T) (h : N -> N -> T) x k : gp d Q' P' x (fun a => sumI d (fun i => c i * h i a)) k = sumI d (fun i => c i * gp d Q' P' x (h i) k).
Proof.
  unfold gp. transitivity (sumI d (fun a => sumI d (fun i => c i * act (gsign d Q' P' a (N.lxor a k)) (x a * h i (N.lxor a k))))).
  - apply sumI_ext. intros a Ha. rewrite sumI_mul_l, act_sum. apply sumI_ext. intros i Hi. rewrite act_mul_r. f_equal. ring.
  - rewrite sumI_swap. apply sumI_ext. intros i Hi. rewrite sumI_mul_l. reflexivity.
Qed.
Lemma au_sum (c : N -> T) (h : N -> N -> T) k : (k < pow2 d)%N -> f (fun a => sumI d (fun i => c i * h i a)) k = sumI d (fun i => c i * f (h i) k).
Proof.
  intros Hk. rewrite (au_exp f Hf _ k Hk). transitivity (sumI d (fun a => sumI d (fun i => c i * (h i a * f (del a 1) k)))).
  - apply sumI_ext. intros a Ha. rewrite sumI_mul_r. apply sumI_ext. intros; ring.
  - rewrite sumI_swap. apply sumI_ext. intros i Hi. rewrite (au_exp f Hf (h i) k Hk), sumI_mul_l. reflexivity.
Qed.
Lemma au_wedge x y : feq d (f (wp x y)) (wp (f x) (f y)).
Proof.
  intros k Hk.
  transitivity (f (fun a => sumI d (fun i => x i * (fun b => sumI d (fun j => y j * wp (del i 1) (del j 1) b)) a)) k).
  { apply (au_feq f Hf); auto. intros a Ha. rewrite wp_exp by auto. apply sumI_ext. intros i Hi. rewrite sumI_mul_l. apply sumI_ext. intros; ring. }
  rewrite (au_sum x (fun i b => sumI d (fun j => y j * wp (del i 1) (del j 1) b))) by auto.
  rewrite (gp_ext d 0 (ones d) (f x) (fun a => sumI d (fun i => x i * f (del i 1) a)) (f y) (f y)) by (auto using feq_refl; intros a Ha; apply (au_exp f Hf); auto).
  rewrite gp_sum_l. apply sumI_ext. intros i Hi. f_equal.
  rewrite (au_sum y (fun j b => wp (del i 1) (del j 1) b)) by auto.
  rewrite (gp_ext d 0 (ones d) (f (del i 1)) (f (del i 1)) (f y) (fun a => sumI d (fun j => y j * f (del j 1) a))) by (auto using feq_refl; intros a Ha; apply (au_exp f Hf); auto).
  rewrite gp_sum_r. apply sumI_ext. intros j Hj. f_equal. apply au_wedge_blades; auto.
Qed.
(** ... the reverse, the grade involution, the scalar part and mag2. *)
Lemma au_rev x : feq d (f (frev x)) (frev (f x)).
Proof. intros k Hk. unfold frev. apply (au_sign _ x k Hk). Qed.
Lemma au_alpha x : feq d (f (alpha x)) (alpha (f x)).
Proof. intros k Hk. unfold alpha, par. apply (au_sign Nat.odd x k Hk). Qed.
Lemma au_scal x : f x 0%N = x 0%N.
Proof.
  rewrite (au_exp f Hf _ 0%N (pow2_pos d)). rewrite (sumI_single d _ 0%N) by (auto using pow2_pos; intros j Hj Hne;
    rewrite (au_blade j Hj 0%N) by (auto using pow2_pos; intros E; symmetry in E; apply popcount_eq0 in E; contradiction); ring).
  rewrite (au_one f Hf 0%N (pow2_pos d)), del_eq. ring.
Qed.
Lemma au_mag2 x : gpd (frev (f x)) (f x) 0%N = gpd (frev x) x 0%N.
Proof.
  rewrite <- (au_scal (gpd (frev x) x)). rewrite (au_mul f Hf _ _ 0%N (pow2_pos d)). apply gp_ext; auto using pow2_pos, feq_refl. apply feq_sym, au_rev.
Qed.
End Two.
End Auto.
