(** Gram determinants: lemmas behind C88. *)
From Verif Require Export P_Sandwich5 P_Det.
Local Open Scope nat_scope.

Section Gram.
Context {T : Type} {RO : RingOps T} {W : NumLaws T} {L : RingLaws T} {CL : CommLaws T} {DV : DivOps T} {F : FieldLaws T}.
Add Ring TRG : comm_ring_theory.
Variables (d : nat) (Q P : N).
Local Notation gm := (gp d Q P).
Local Notation wp := (gp d 0 (ones d)).
Local Notation dot := (dotv d Q P).
Local Open Scope rg_scope.
Hypothesis two : (1 + 1 : T) <> 0.
Implicit Types x y u a h : N -> T.

(** Twice the contraction by a vector. *)
Definition lcm a x : N -> T := fsub (gm a x) (gm (alpha x) a).
Lemma lcm_feq a b x y : feq d a b -> feq d x y -> feq d (lcm a x) (lcm b y).
Proof. intros Ea Ex k Hk. unfold lcm, fsub. f_equal; apply gp_ext; auto. intros i Hi. unfold alpha. rewrite Ex; auto. Qed.
Lemma lcm_add a x y : feq d (lcm a (fadd x y)) (fadd (lcm a x) (lcm a y)).
Proof.
  intros k Hk. change (fadd (lcm a x) (lcm a y) k) with (lcm a x k + lcm a y k). unfold lcm, fsub. rewrite gp_add_r.
  rewrite (gp_ext d Q P (alpha (fadd x y)) (fadd (alpha x) (alpha y)) a a) by (auto using feq_refl; intros i Hi; unfold alpha, fadd; apply sgb_add).
  rewrite gp_add_l. ring.
Qed.
Lemma vecm_sum a u : homog d 1 a -> homog d 1 u -> feq d (fadd (gm a u) (gm u a)) (del 0 (dot a u + dot a u)).
Proof.
  intros Ha Hu k Hk. unfold fadd.
  assert (Hau : homog d 1 (fadd a u)) by (intros i Hi Hne; unfold fadd; rewrite Ha, Hu by auto; ring).
  pose proof (vec_sq d Q P _ Hau k Hk) as E. pose proof (vec_sq d Q P _ Ha k Hk) as Ea. pose proof (vec_sq d Q P _ Hu k Hk) as Eu.
  rewrite gp_add_l, !gp_add_r, Ea, Eu in E. unfold dotv in E. rewrite gp_add_l, !gp_add_r in E. fold (dot a a) (dot a u) (dot u a) (dot u u) in E.
  rewrite (dotv_comm d Q P u a) in E by auto. unfold del in *. destruct (k =? 0)%N.
  - transitivity (dot a a + gm a u k + (gm u a k + dot u u) - dot a a - dot u u); [ring|]. rewrite E. ring.
  - transitivity (0 + gm a u k + (gm u a k + 0)); [ring|exact E].
Qed.
Lemma lcm_mul_l a u y : homog d 1 a -> homog d 1 u ->
  feq d (lcm a (gm u y)) (fun k => (dot a u + dot a u) * y k - gm u (lcm a y) k).
Proof.
  intros Ha Hu k Hk. unfold lcm at 1. unfold fsub.
  rewrite (gp_ext d Q P (alpha (gm u y)) (fneg (gm u (alpha y))) a a); auto using feq_refl.
  2:{ intros i Hi. rewrite alpha_gp by auto. rewrite (gp_ext d Q P (alpha u) (fneg u) _ (alpha y)) by (auto using feq_refl, alpha_vec). apply gp_neg_l. }
  rewrite gp_neg_l, gp_assoc, <- gp_assoc by auto. unfold lcm. rewrite gp_sub_r, <- (gp_assoc d Q P u a y) by auto.
  rewrite (gp_ext d Q P (gm a u) (fsub (del 0 (dot a u + dot a u)) (gm u a)) y y) by (auto using feq_refl; intros i Hi; unfold fsub; rewrite <- (vecm_sum a u Ha Hu i Hi); unfold fadd; ring).
  rewrite gp_sub_l, gp_scalar_l. ring.
Qed.
Lemma lcm_mul_r a u y : homog d 1 a -> homog d 1 u ->
  feq d (lcm a (gm (alpha y) u)) (fun k => (dot a u + dot a u) * y k - gm (alpha (lcm a y)) u k).
Proof.
  intros Ha Hu k Hk. unfold lcm at 1. unfold fsub.
  rewrite (gp_ext d Q P (alpha (gm (alpha y) u)) (fneg (gm y u)) a a); auto using feq_refl.
  2:{ intros i Hi. rewrite alpha_gp by auto. rewrite (gp_ext d Q P _ y (alpha u) (fneg u)) by (auto using alpha_vec; intros j Hj; apply alpha_invol). apply gp_neg_r. }
  rewrite gp_neg_l, (gp_assoc d Q P y u a) by auto. rewrite <- (gp_assoc d Q P a (alpha y) u) by auto.
  rewrite (gp_ext d Q P y y (gm u a) (fsub (del 0 (dot a u + dot a u)) (gm a u))) by (auto using feq_refl; intros i Hi; unfold fsub; rewrite <- (vecm_sum a u Ha Hu i Hi); unfold fadd; ring).
  rewrite gp_sub_r, gp_scalar_r by auto. rewrite <- (gp_assoc d Q P y a u) by auto.
  rewrite (gp_ext d Q P (alpha (lcm a y)) (fsub (gm y a) (gm a (alpha y))) u u); auto using feq_refl.
  2:{ intros i Hi. unfold alpha at 1. unfold lcm, fsub. rewrite sub_def, sgb_add, sgb_neg. fold (alpha (gm a y) i) (alpha (gm (alpha y) a) i).
      rewrite !alpha_gp by auto. rewrite (gp_ext d Q P (alpha a) (fneg a) (alpha y) (alpha y)) by (auto using feq_refl, alpha_vec).
      rewrite (gp_ext d Q P (alpha (alpha y)) y (alpha a) (fneg a)) by (auto using alpha_vec; intros j Hj; apply alpha_invol). rewrite gp_neg_l, gp_neg_r. ring. }
  rewrite gp_sub_l. ring.
Qed.
Lemma lcm_wedge a u y : homog d 1 a -> homog d 1 u ->
  feq d (lcm a (wp u y)) (fun k => (dot a u + dot a u) * y k - wp u (lcm a y) k).
Proof.
  intros Ha Hu k Hk. apply (cancel2 two). pose proof (two_wedge d Q P u (lcm a y) Hu k Hk) as E2. cbv beta in E2.
  transitivity (lcm a (fadd (gm u y) (gm (alpha y) u)) k).
  - rewrite <- (lcm_feq a a (fadd (wp u y) (wp u y)) (fadd (gm u y) (gm (alpha y) u)) (feq_refl _ _)) by (auto; intros i Hi; apply (two_wedge d Q P u y Hu i Hi)).
    rewrite lcm_add by auto. reflexivity.
  - rewrite lcm_add by auto. unfold fadd. rewrite lcm_mul_l, lcm_mul_r by auto.
    transitivity ((dot a u + dot a u) * y k + (dot a u + dot a u) * y k - (gm u (lcm a y) k + gm (alpha (lcm a y)) u k)); [ring|]. rewrite <- E2. ring.
Qed.
Lemma lcm_one a c : homog d 1 a -> feq d (lcm a (del 0 c)) (fun _ => 0).
Proof.
  intros Ha k Hk. unfold lcm, fsub. rewrite (gp_ext d Q P (alpha (del 0 c)) (del 0 c) a a) by (auto using feq_refl; (intros i Hi; unfold alpha, del; destruct (N.eqb_spec i 0) as [->|]; [reflexivity|apply sgb_0])).
  rewrite gp_scalar_l, gp_scalar_r by auto. ring.
Qed.

(** ** Contraction of a wedge *)
Lemma gp_suml_r {Y} Q' P' x (f : Y -> N -> T) l k : gp d Q' P' x (fun i => suml (fun z : Y => f z i) l) k = suml (fun z : Y => gp d Q' P' x (f z) k) l.
Proof.
  induction l as [|z l IH]; cbn [suml]; [apply gp_0_r|]. rewrite <- IH. apply (gp_add_r d Q' P' x (f z) (fun i => suml (fun z0 : Y => f z0 i) l)).
Qed.
Lemma gp_comm0 x y : gm x y 0%N = gm y x 0%N.
Proof. rewrite !gp_scalar. apply sumI_ext. intros i Hi. rewrite mul_comm. reflexivity. Qed.
Lemma lcm_fwedge a us : homog d 1 a -> vecs d us ->
  feq d (lcm a (fwedge d us)) (fun k => suml (fun j => sgb (Nat.odd j) ((dot a (nth j us (fun _ => 0)) + dot a (nth j us (fun _ => 0))) * fwedge d (drop j us) k)) (seq 0 (length us))).
Proof.
  intros Ha. induction us as [|u us IH]; intros Hv.
  - cbn [fwedge length seq suml]. apply lcm_one; auto.
  - pose proof (Forall_inv Hv) as Hu. pose proof (Forall_inv_tail Hv) as Hus. intros k Hk. cbn [fwedge]. rewrite (lcm_wedge a u _ Ha Hu k Hk).
    cbn [length]. change (seq 0 (S (length us))) with (0%nat :: seq 1 (length us)). cbn [suml nth]. rewrite <- seq_shift, suml_map. rewrite sub_def. f_equal.
    rewrite (gp_ext d 0 (ones d) u u _ _ k Hk (feq_refl _ _) (IH Hus)).
    rewrite gp_suml_r. rewrite <- suml_neg. apply suml_ext. intros j _. cbn [nth]. rewrite Nat.odd_succ, <- Nat.negb_odd.
    change (drop (S j) (u :: us)) with (u :: drop j us). cbn [fwedge].
    set (c := dot a _ + dot a _).
    rewrite (gp_ext d 0 (ones d) u u (fun k => sgb (Nat.odd j) (c * fwedge d (drop j us) k)) (fun k => fwedge d (drop j us) k * sgb (Nat.odd j) c) k Hk (feq_refl _ _)) by (intros i Hi; destruct (Nat.odd j); cbn [sgb]; ring).
    rewrite gp_scale_r. destruct (Nat.odd j); cbn [sgb negb]; ring.
Qed.
(** ** The scalar product of two wedges *)
Lemma vecs_drop j us : vecs d us -> vecs d (drop j us).
Proof. intros Hv. unfold vecs, drop. apply Forall_app. unfold vecs in Hv. split; rewrite Forall_forall in *; intros v Hin; apply Hv; [rewrite <- (firstn_skipn j us)|rewrite <- (firstn_skipn (S j) us)]; apply in_or_app; auto. Qed.
Lemma alpha_homog r x : homog d r x -> feq d (alpha x) (fun k => sgb (Nat.odd r) (x k)).
Proof.
  intros Hx i Hi. unfold alpha, par. destruct (Nat.eq_dec (popcount i) r) as [->|Hn]; [reflexivity|]. rewrite Hx by auto. rewrite !sgb_0. reflexivity.
Qed.
Lemma adjoint r u x w : homog d 1 u -> homog d r x -> homog d (S r) w ->
  gm (frev (wp u x)) w 0%N + gm (frev (wp u x)) w 0%N = gm (frev x) (lcm u w) 0%N.
Proof.
  intros Hu Hx Hw. assert (H0 : (0 < pow2 d)%N) by apply pow2_pos.
  rewrite <- gp_add_l.
  rewrite (gp_ext d Q P _ (fadd (gm (frev x) u) (fun k => sgb (Nat.odd r) (gm u (frev x) k))) w w 0%N H0); [|intros i Hi|apply feq_refl].
  2:{ unfold fadd. transitivity (sgb (rbit (popcount i)) (wp u x i + wp u x i)); [unfold frev; rewrite sgb_add; reflexivity|]. rewrite (two_wedge d Q P u x Hu i Hi).
      rewrite sgb_add. fold (frev (gm u x) i) (frev (gm (alpha x) u) i). rewrite !frev_gp by auto.
      assert (Eu : feq d (frev u) u) by (apply frev_vec; auto).
      rewrite (gp_ext d Q P (frev x) (frev x) (frev u) u i Hi (feq_refl _ _) Eu).
      rewrite (gp_ext d Q P (frev u) u (frev (alpha x)) (fun k => frev x k * sgb (Nat.odd r) 1) i Hi Eu).
      - rewrite gp_scale_r, sgb_mul_r. f_equal. f_equal. ring.
      - intros k Hk. unfold frev. rewrite (alpha_homog r x Hx k Hk), !sgb_sgb, sgb_mul_r, sgb_mul_l, sgb_sgb. f_equal; [apply xorb_comm|ring]. }
  rewrite gp_add_l. unfold lcm. rewrite gp_sub_r, gp_assoc by auto. rewrite sub_def. f_equal.
  rewrite (gp_ext d Q P (fun k => sgb (Nat.odd r) (gm u (frev x) k)) (fun k => sgb (Nat.odd r) 1 * gm u (frev x) k) w w 0%N H0) by (auto using feq_refl; intros k Hk; rewrite sgb_mul_l; f_equal; ring).
  rewrite gp_scale_l, gp_assoc, gp_comm0, gp_assoc by auto.
  rewrite <- gp_neg_r.
  rewrite (gp_ext d Q P (frev x) (frev x) (fneg (gm (alpha w) u)) (fun k => gm w u k * sgb (Nat.odd r) 1) 0%N H0 (feq_refl _ _)).
  - rewrite gp_scale_r. ring.
  - intros k Hk. unfold fneg. rewrite (gp_ext d Q P (alpha w) (fun k => sgb (negb (Nat.odd r)) 1 * w k) u u k Hk); auto using feq_refl.
    + rewrite gp_scale_l. destruct (Nat.odd r); cbn [sgb negb]; ring.
    + intros i Hi. rewrite (alpha_homog (S r) w Hw i Hi), Nat.odd_succ, <- Nat.negb_odd, sgb_mul_l. f_equal. ring.
Qed.
Lemma gram us : forall vs, length vs = length us -> vecs d us -> vecs d vs ->
  gm (frev (fwedge d us)) (fwedge d vs) 0%N = det (length us) (fun a b : nat => dot (nth a us (fun _ => 0)) (nth b vs (fun _ => 0))).
Proof.
  induction us as [|u us IH]; intros vs El Hus Hvs.
  - destruct vs; [|discriminate]. cbn [fwedge length det].
    rewrite (gp_ext d Q P _ (del 0 1) (del 0 1) (del 0 1)); auto using feq_refl, pow2_pos.
    + rewrite gp_1_l. reflexivity.
    + intros i Hi. unfold frev, del. destruct (N.eqb_spec i 0) as [->|]; [reflexivity|apply sgb_0].
  - pose proof (Forall_inv Hus) as Hu. pose proof (Forall_inv_tail Hus) as Hus'. assert (H0 : (0 < pow2 d)%N) by apply pow2_pos.
    apply (cancel2 two). cbn [fwedge]. rewrite (adjoint (length us)); auto using homog_fwedge.
    2:{ change (S (length us)) with (length (u :: us)). rewrite <- El. apply homog_fwedge; auto. }
    rewrite (gp_ext d Q P _ (frev (fwedge d us)) _ _ 0%N H0 (feq_refl _ _) (lcm_fwedge u vs Hu Hvs)).
    rewrite gp_suml_r, El. cbn [length det]. rewrite <- suml_add. apply suml_ext. intros j Hj. apply in_seq in Hj. cbn [length] in El.
    set (c := dot u _).
    rewrite (gp_ext d Q P _ (frev (fwedge d us)) _ (fun k => fwedge d (drop j vs) k * sgb (Nat.odd j) (c + c)) 0%N H0 (feq_refl _ _)) by (intros i Hi; destruct (Nat.odd j); cbn [sgb]; ring).
    rewrite gp_scale_r, IH; auto using vecs_drop; [|rewrite length_drop by lia; lia].
    cbv zeta. cbn [nth]. fold c.
    rewrite (det_ext _ _ (fun a b : nat => dot (nth a us (fun _ => 0)) (nth (if b <? j then b else S b) vs (fun _ => 0)))).
    + destruct (Nat.odd j); cbn [sgb]; ring.
    + intros a b Ha Hb. rewrite nth_drop by lia. reflexivity.
Qed.
End Gram.
