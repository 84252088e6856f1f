(** The arrays of one shape form a ring under the operations of [FFTRepr]. *)
From Verif Require Export P_Props9.
Local Open Scope nat_scope.

Section Ring.
Context {F : Type} {RF : RingOps F} {LF : RingLaws F} {CF : CommLaws F} {DV : DivOps F} {FL : FieldLaws F} {FRl : FormallyReal F} {md : Mode}.
Local Notation C := (cplx F).
Variables (m s : nat).
Hypothesis Hm : m <= 32.
Local Notation e := (2 * m).
Let P := N.ldiff (ones (e + s)) (ones e).
Local Notation G := (gp (e + s) idx_mask P).
Local Notation eqc := (feq (e + s)).

(** The array with the coefficients c in the algebra of [e] generators and [s] null ones. *)
Definition crep (r : fftrepr F) (c : N -> C) : Prop := arep m s r (fun w => cl m (blk_of e c w)).

Lemma crep_ex r X : arep m s r X -> exists c, crep r c.
Proof.
  intros H. exists (fun k => icl m (X (k / pow2 e)%N) (k mod pow2 e)%N). eapply arep_ext; [exact H|]. intros w Hw. destruct (has_half cplx_two) as (H1 & H2).
  eapply meq_trans; [apply meq_sym; apply (cl_icl _ H1 H2)|]. apply cl_ext. intros i Hi. unfold blk_of. pose proof (pow2_pos e).
  rewrite (N.add_comm (_ * w)), (N.mul_comm (pow2 e)), N.mod_add, N.mod_small, N.div_add, N.div_small by lia. reflexivity.
Qed.
Lemma crep_ext r c c' : crep r c -> eqc c c' -> crep r c'.
Proof. intros H E. eapply arep_ext; [exact H|]. intros w Hw. apply cl_ext. intros i Hi. apply E. apply block_lt; auto. Qed.
Lemma crep_eq r r' c c' : crep r c -> crep r' c' -> eqc c c' -> r = r'.
Proof. intros H H' E. eapply arep_eq; [eapply crep_ext; [exact H|exact E]|exact H']. Qed.

Lemma P_high j : j < s -> N.testbit P (N.of_nat (e + j)) = true.
Proof.
  intros Hj. unfold P. rewrite N.ldiff_spec, !testbit_ones. destruct (N.ltb_spec (N.of_nat (e + j)) (N.of_nat (e + s))); [|lia]. destruct (N.ltb_spec (N.of_nat (e + j)) (N.of_nat e)); [lia|]. reflexivity.
Qed.
Lemma crep_mul a b c c' : crep a c -> crep b c' -> exists z, fr_mul a b = Ok z /\ crep z (G c c').
Proof.
  intros Ha Hb. destruct (wmul_ok _ _ a b _ _ Ha Hb) as (z & E & Hz). exists z. split; [exact E|]. eapply arep_ext; [exact Hz|]. intros w Hw. apply meq_sym.
  eapply meq_trans.
  { apply (cl_ext _ _ (wm (gp e idx_mask 0) fadd fneg alpha s (blk_of e c) (blk_of e c') w)). intros k Hk. unfold blk_of at 1. rewrite (gp_blocks e idx_mask P s P_high) by auto.
    refine (wm_hom (gp e idx_mask P) fadd fneg alpha (gp e idx_mask 0) fadd fneg alpha (feq e) _ _ _ _ _ _ (fun f => f) _ _ _ _ s _ _ w Hw k Hk); try (intros; intros ? ?; reflexivity).
    - intros ? ? ? E1 E2 t Ht. rewrite E1, E2; auto.
    - intros. apply gp_feq; auto.
    - intros ? ? ? ? E1 E2 t Ht. unfold fadd. rewrite E1, E2; auto.
    - intros ? ? E1 t Ht. unfold fneg. rewrite E1; auto.
    - intros ? ? E1 t Ht. unfold alpha. rewrite E1; auto.
    - intros x y t Ht. apply gp_masks; auto. apply low_bits. intros b0 Hb0. unfold P. rewrite N.bits_0, N.ldiff_spec, !testbit_ones. destruct (N.ltb_spec (N.of_nat b0) (N.of_nat e)); [|lia]. apply Bool.andb_false_r. }
  apply (wm_hom (gp e idx_mask 0) fadd fneg alpha (mmul m) madd mneg malpha (meq m)).
  - intros x i j _ _. reflexivity.
  - intros x y z'. apply meq_trans.
  - intros x x' y y' E1 E2 i j Hi Hj. unfold mmul. apply sumI_ext. intros k Hk. rewrite E1, E2; auto.
  - intros x x' y y' E1 E2 i j Hi Hj. unfold madd. rewrite E1, E2; auto.
  - intros x x' E1 i j Hi Hj. unfold mneg. rewrite E1; auto.
  - intros x x'. apply malpha_ext.
  - intros x y. apply cl_mul, mask_odd, Hm.
  - intros x y i j _ _. apply cl_add.
  - intros x i j _ _. apply cl_neg.
  - intros x. apply cl_alpha.
  - exact Hw.
Qed.
Lemma crep_add a b c c' : crep a c -> crep b c' -> exists z, fr_add a b = Ok z /\ crep z (fadd c c').
Proof.
  intros Ha Hb. destruct (a3_zip_ok _ _ radd a b _ _ Ha Hb) as (z & E & Hz). exists z. split; [exact E|]. eapply arep_ext; [exact Hz|]. intros w Hw i j _ _. cbn beta. symmetry. apply (cl_add m (blk_of e c w) (blk_of e c' w)).
Qed.
Lemma crep_neg a c : crep a c -> crep (fr_neg a) (fneg c).
Proof. intros Ha. eapply arep_ext; [apply (a3_map_ok _ _ rneg _ _ Ha)|]. intros w Hw i j _ _. symmetry. apply (cl_neg m (blk_of e c w)). Qed.
Lemma crep_sub a b c c' : crep a c -> crep b c' -> exists z, fr_sub a b = Ok z /\ crep z (fsub c c').
Proof.
  intros Ha Hb. destruct (a3_zip_ok _ _ rsub a b _ _ Ha Hb) as (z & E & Hz). exists z. split; [exact E|]. eapply arep_ext; [exact Hz|]. intros w Hw i j _ _. cbn beta. rewrite sub_def, <- (cl_neg m (blk_of e c' w)), <- cl_add.
  apply cl_ext0. intros t. unfold blk_of, fsub. symmetry. apply sub_def.
Qed.
Lemma crep_zero r : arep m s r (fun _ _ _ => r0) -> crep r (fun _ => r0).
Proof. intros H. eapply arep_ext; [exact H|]. intros w Hw i j _ _. cbn beta. symmetry. transitivity (cl m (fun _ => (r0 : C)) i j); [|apply cl_0]. apply cl_ext0. reflexivity. Qed.
Lemma crep_one r : arep m s r (fun w i j => if ((w =? 0) && (i =? j))%N%bool then r1 else r0) -> crep r (del 0 r1).
Proof.
  intros H. eapply arep_ext; [exact H|]. intros w Hw. apply meq_sym. destruct (N.eqb_spec w 0) as [->|Hw0]; cbn [andb].
  - eapply meq_trans with (Y := cl m (del 0 r1)); [|apply cl_one]. apply cl_ext. intros t Ht. unfold blk_of. rewrite N.mul_0_r. reflexivity.
  - intros i j _ _. transitivity (cl m (fun _ => (r0 : C)) i j); [|apply cl_0]. apply cl_ext0. intros t. unfold blk_of, del.
    destruct (N.eqb_spec (pow2 e * w + t) 0) as [E|E]; auto. pose proof (pow2_pos e). nia.
Qed.
Lemma crep_shape r : a3_ok r -> a3_dim r = (2 ^ s, 2 ^ m, 2 ^ m) -> exists c, crep r c.
Proof. intros H1 H2. destruct (a3_ok_arep _ _ _ H1 H2) as (X & HX). eapply crep_ex; eauto. Qed.

(** *** Ring laws *)
Lemma ring_mul_assoc a b c x y z : crep a x -> crep b y -> crep c z ->
  both_ok (ab <- fr_mul a b ;; fr_mul ab c) (bc <- fr_mul b c ;; fr_mul a bc).
Proof.
  intros Ha Hb Hc. destruct (crep_mul _ _ _ _ Ha Hb) as (ab & -> & Hab). destruct (crep_mul _ _ _ _ Hb Hc) as (bc & -> & Hbc). cbn [bind].
  destruct (crep_mul _ _ _ _ Hab Hc) as (p & -> & Hp). destruct (crep_mul _ _ _ _ Ha Hbc) as (q & -> & Hq). exists p. split; auto. f_equal. eapply crep_eq; [exact Hq|exact Hp|]. intros k Hk. symmetry. apply gp_assoc; auto.
Qed.
Lemma ring_add_assoc a b c x y z : crep a x -> crep b y -> crep c z ->
  both_ok (ab <- fr_add a b ;; fr_add ab c) (bc <- fr_add b c ;; fr_add a bc).
Proof.
  intros Ha Hb Hc. destruct (crep_add _ _ _ _ Ha Hb) as (ab & -> & Hab). destruct (crep_add _ _ _ _ Hb Hc) as (bc & -> & Hbc). cbn [bind].
  destruct (crep_add _ _ _ _ Hab Hc) as (p & -> & Hp). destruct (crep_add _ _ _ _ Ha Hbc) as (q & -> & Hq). exists p. split; auto. f_equal. eapply crep_eq; [exact Hq|exact Hp|]. intros k Hk. unfold fadd. apply add_assoc.
Qed.
Lemma ring_add_comm a b x y : crep a x -> crep b y -> both_ok (fr_add a b) (fr_add b a).
Proof.
  intros Ha Hb. destruct (crep_add _ _ _ _ Ha Hb) as (p & -> & Hp). destruct (crep_add _ _ _ _ Hb Ha) as (q & -> & Hq). exists p. split; auto. f_equal. eapply crep_eq; [exact Hq|exact Hp|]. intros k Hk. apply add_comm.
Qed.
Lemma ring_dist_l a b c x y z : crep a x -> crep b y -> crep c z ->
  both_ok (bc <- fr_add b c ;; fr_mul a bc) (ab <- fr_mul a b ;; ac <- fr_mul a c ;; fr_add ab ac).
Proof.
  intros Ha Hb Hc. destruct (crep_add _ _ _ _ Hb Hc) as (bc & -> & Hbc). destruct (crep_mul _ _ _ _ Ha Hb) as (ab & -> & Hab). destruct (crep_mul _ _ _ _ Ha Hc) as (ac & -> & Hac). cbn [bind].
  destruct (crep_mul _ _ _ _ Ha Hbc) as (p & -> & Hp). destruct (crep_add _ _ _ _ Hab Hac) as (q & -> & Hq). exists p. split; auto. f_equal. eapply crep_eq; [exact Hq|exact Hp|]. intros k Hk. symmetry. apply gp_add_r.
Qed.
Lemma ring_dist_r a b c x y z : crep a x -> crep b y -> crep c z ->
  both_ok (ab <- fr_add a b ;; fr_mul ab c) (ac <- fr_mul a c ;; bc <- fr_mul b c ;; fr_add ac bc).
Proof.
  intros Ha Hb Hc. destruct (crep_add _ _ _ _ Ha Hb) as (ab & -> & Hab). destruct (crep_mul _ _ _ _ Hb Hc) as (bc & -> & Hbc). destruct (crep_mul _ _ _ _ Ha Hc) as (ac & -> & Hac). cbn [bind].
  destruct (crep_mul _ _ _ _ Hab Hc) as (p & -> & Hp). destruct (crep_add _ _ _ _ Hac Hbc) as (q & -> & Hq). exists p. split; auto. f_equal. eapply crep_eq; [exact Hq|exact Hp|]. intros k Hk. symmetry. apply gp_add_l.
Qed.
Lemma ring_one a o x : crep a x -> crep o (del 0 r1) -> fr_mul o a = Ok a /\ fr_mul a o = Ok a.
Proof.
  intros Ha Ho. destruct (crep_mul _ _ _ _ Ho Ha) as (p & -> & Hp). destruct (crep_mul _ _ _ _ Ha Ho) as (q & -> & Hq). split; f_equal; eapply crep_eq; eauto; intros k Hk; [apply gp_1_l|apply gp_1_r; auto].
Qed.
Lemma ring_zero a o x : crep a x -> crep o (fun _ => r0) -> fr_add o a = Ok a /\ fr_add a o = Ok a /\ fr_mul o a = Ok o /\ fr_mul a o = Ok o.
Proof.
  intros Ha Ho. destruct (crep_add _ _ _ _ Ho Ha) as (p & -> & Hp). destruct (crep_add _ _ _ _ Ha Ho) as (q & -> & Hq).
  destruct (crep_mul _ _ _ _ Ho Ha) as (p' & -> & Hp'). destruct (crep_mul _ _ _ _ Ha Ho) as (q' & -> & Hq').
  repeat split; f_equal; eapply crep_eq; eauto; intros k Hk; [apply add_0_l|apply add_0_r|apply gp_0_l|apply gp_0_r].
Qed.
Lemma ring_neg a o x : crep a x -> crep o (fun _ => r0) -> fr_add a (fr_neg a) = Ok o /\ fr_sub a a = Ok o.
Proof.
  intros Ha Ho. destruct (crep_add _ _ _ _ Ha (crep_neg _ _ Ha)) as (p & -> & Hp). destruct (crep_sub _ _ _ _ Ha Ha) as (q & -> & Hq). split; f_equal; eapply crep_eq; eauto; intros k Hk; [apply add_neg_r|apply sub_diag].
Qed.
Lemma ring_sub a b x y : crep a x -> crep b y -> both_ok (fr_sub a b) (fr_add a (fr_neg b)).
Proof.
  intros Ha Hb. destruct (crep_sub _ _ _ _ Ha Hb) as (p & -> & Hp). destruct (crep_add _ _ _ _ Ha (crep_neg _ _ Hb)) as (q & -> & Hq). exists p. split; auto. f_equal. eapply crep_eq; eauto. intros k Hk. unfold fadd, fneg, fsub. symmetry. apply sub_def.
Qed.

(** *** Powers *)
Fixpoint cpow (x : N -> C) (k : nat) : N -> C := match k with O => del 0 r1 | S k => G (cpow x k) x end.
Lemma cpow_add x a b : eqc (cpow x (a + b)) (G (cpow x a) (cpow x b)).
Proof.
  induction b as [|b IH]; intros k Hk.
  - rewrite Nat.add_0_r. symmetry. apply gp_1_r; auto.
  - rewrite Nat.add_succ_r. cbn [cpow]. rewrite <- gp_assoc by auto. apply gp_ext; auto. intros i Hi; auto.
Qed.
Variable A : algebra.
Variable o : fftrepr F.
Hypothesis Eo : fr_one A = Ok o.
Hypothesis Ho : crep o (del 0 r1).
Lemma crep_pow_fuel a x : crep a x -> forall fuel k, k < fuel -> exists z, fr_pow_fuel A fuel a k = Ok z /\ crep z (cpow x k).
Proof.
  intros Ha. induction fuel as [|fuel IH]; intros k Hk; [lia|]. cbn [fr_pow_fuel]. destruct k as [|[|k]].
  - exists o. split; [exact Eo|exact Ho].
  - exists a. split; auto. eapply crep_ext; [exact Ha|]. intros i Hi. cbn [cpow]. symmetry. apply gp_1_l.
  - set (h := Nat.div2 (S (S k))). assert (Hh : h < fuel) by (pose proof (Nat.lt_div2 (S (S k)) ltac:(lia)); unfold h; lia).
    destruct (IH h Hh) as (z & -> & Hz). cbn [bind]. destruct (crep_mul _ _ _ _ Hz Hz) as (zz & -> & Hzz). cbn [bind].
    pose proof (Nat.div2_odd (S (S k))) as Eh. fold h in Eh. rewrite <- Nat.negb_even in Eh. destruct (Nat.even (S (S k))); cbn [negb Nat.b2n] in Eh.
    + exists zz. split; auto. eapply crep_ext; [exact Hzz|]. intros i Hi. rewrite Eh. replace (2 * h + 0) with (h + h) by lia. symmetry. apply cpow_add; auto.
    + destruct (crep_mul _ _ _ _ Hzz Ha) as (p & -> & Hp). exists p. split; auto. eapply crep_ext; [exact Hp|]. intros i Hi. rewrite Eh. replace (2 * h + 1) with (S (h + h)) by lia. cbn [cpow].
      apply gp_ext; auto; intros j Hj; auto. symmetry. apply cpow_add; auto.
Qed.
Lemma crep_pow a x k : crep a x -> exists z, fr_pow A a k = Ok z /\ crep z (cpow x k).
Proof. intros Ha. apply crep_pow_fuel; auto. Qed.
Lemma crep_times a x k : crep a x -> exists z, Nat.iter k (fun r => u <- r ;; fr_mul u a) (fr_one A) = Ok z /\ crep z (cpow x k).
Proof.
  intros Ha. induction k as [|k IH]; [exists o; split; auto|]. change (Nat.iter (S k) (fun r => u <- r ;; fr_mul u a) (fr_one A)) with (u <- Nat.iter k (fun r => u <- r ;; fr_mul u a) (fr_one A) ;; fr_mul u a).
  destruct IH as (z & -> & Hz). cbn [bind cpow]. apply crep_mul; auto.
Qed.
Lemma ring_pow a x k l : crep a x ->
  both_ok (fr_pow A a k) (Nat.iter k (fun r => u <- r ;; fr_mul u a) (fr_one A)) /\
  both_ok (fr_pow A a (k + l)) (u <- fr_pow A a k ;; v <- fr_pow A a l ;; fr_mul u v).
Proof.
  intros Ha. destruct (crep_pow a x k Ha) as (p & Ep & Hp). destruct (crep_pow a x l Ha) as (q & Eq & Hq). destruct (crep_pow a x (k + l) Ha) as (pq & Epq & Hpq). rewrite Ep, Eq, Epq. cbn [bind]. split.
  - destruct (crep_times a x k Ha) as (t & -> & Ht). exists p. split; auto. f_equal. eapply crep_eq; eauto. intros i Hi; auto.
  - destruct (crep_mul _ _ _ _ Hp Hq) as (t & -> & Ht). exists pq. split; auto. f_equal. eapply crep_eq; eauto. intros i Hi. symmetry. apply cpow_add; auto.
Qed.
End Ring.

Section RingThms.
Context {F : Type} {RF : RingOps F} {LF : RingLaws F} {CF : CommLaws F} {DV : DivOps F} {FL : FieldLaws F} {FRl : FormallyReal F} {md : Mode}.
Variables (sg : list tok) (A : algebra).
Hypothesis D : declared sg A.
Hypothesis Hl : length sg < 63.
Local Notation h := (half (nonnull sg)).
Local Notation s := (a_dim A - nonnull sg).
Let Hh : h <= 32.
Proof. pose proof (std_nn A _ (declared_nn sg A D)) as Hn. pose proof (declared_dim _ _ D). unfold half. apply Nat.div_le_upper_bound; lia. Qed.
Lemma shape_rep r : repr_shape (F := F) sg r -> exists c, crep h s r c.
Proof. intros (H1 & H2). apply crep_shape; auto. unfold fr_shape, mats_of, side_of in H2. rewrite <- (declared_dim _ _ D) in H2. exact H2. Qed.
Lemma rep_shape r X : arep h s r X -> repr_shape (F := F) sg r.
Proof. intros H. destruct (arep_ok _ _ _ _ H) as (H1 & H2). split; auto. unfold fr_shape, mats_of, side_of. rewrite H2, (declared_dim _ _ D). reflexivity. Qed.
Lemma zero_rep : exists o, fr_zero (F := F) A = Ok o /\ crep h s o (fun _ => r0).
Proof. rewrite (fr_zero_eq sg A D Hl). eexists. split; [reflexivity|]. apply crep_zero, arep_zeros. Qed.
Lemma one_rep : exists o, fr_one (F := F) A = Ok o /\ crep h s o (del 0 r1).
Proof. destruct (one_arep (F := F) sg A D Hl) as (z & E & Hz). exists z. split; auto. apply crep_one; [exact Hh|exact Hz]. Qed.

Lemma t_mul_shape a b : repr_shape sg a -> repr_shape sg b -> exists c, fr_mul (F := F) a b = Ok c /\ repr_shape sg c.
Proof. intros (x & Ha)%shape_rep (y & Hb)%shape_rep. destruct (crep_mul h s Hh _ _ _ _ Ha Hb) as (z & E & Hz). exists z. split; auto. eapply rep_shape; exact Hz. Qed.
Lemma t_add_shape a b : repr_shape sg a -> repr_shape sg b -> exists c, fr_add (F := F) a b = Ok c /\ repr_shape sg c.
Proof. intros (x & Ha)%shape_rep (y & Hb)%shape_rep. destruct (crep_add h s _ _ _ _ Ha Hb) as (z & E & Hz). exists z. split; auto. eapply rep_shape; exact Hz. Qed.
Lemma t_assoc a b c : repr_shape (F := F) sg a -> repr_shape sg b -> repr_shape sg c ->
  both_ok (ab <- fr_mul a b ;; fr_mul ab c) (bc <- fr_mul b c ;; fr_mul a bc).
Proof. intros (x & Ha)%shape_rep (y & Hb)%shape_rep (z & Hc)%shape_rep. apply (ring_mul_assoc h s Hh _ _ _ _ _ _ Ha Hb Hc). Qed.
Lemma t_add_assoc a b c : repr_shape (F := F) sg a -> repr_shape sg b -> repr_shape sg c ->
  both_ok (ab <- fr_add a b ;; fr_add ab c) (bc <- fr_add b c ;; fr_add a bc).
Proof. intros (x & Ha)%shape_rep (y & Hb)%shape_rep (z & Hc)%shape_rep. apply (ring_add_assoc h s _ _ _ _ _ _ Ha Hb Hc). Qed.
Lemma t_add_comm a b : repr_shape (F := F) sg a -> repr_shape sg b -> both_ok (fr_add a b) (fr_add b a).
Proof. intros (x & Ha)%shape_rep (y & Hb)%shape_rep. apply (ring_add_comm h s _ _ _ _ Ha Hb). Qed.
Lemma t_dist_l a b c : repr_shape (F := F) sg a -> repr_shape sg b -> repr_shape sg c ->
  both_ok (bc <- fr_add b c ;; fr_mul a bc) (ab <- fr_mul a b ;; ac <- fr_mul a c ;; fr_add ab ac).
Proof. intros (x & Ha)%shape_rep (y & Hb)%shape_rep (z & Hc)%shape_rep. apply (ring_dist_l h s Hh _ _ _ _ _ _ Ha Hb Hc). Qed.
Lemma t_dist_r a b c : repr_shape (F := F) sg a -> repr_shape sg b -> repr_shape sg c ->
  both_ok (ab <- fr_add a b ;; fr_mul ab c) (ac <- fr_mul a c ;; bc <- fr_mul b c ;; fr_add ac bc).
Proof. intros (x & Ha)%shape_rep (y & Hb)%shape_rep (z & Hc)%shape_rep. apply (ring_dist_r h s Hh _ _ _ _ _ _ Ha Hb Hc). Qed.
Lemma t_one a : repr_shape (F := F) sg a -> exists o, fr_one A = Ok o /\ repr_shape sg o /\ fr_mul o a = Ok a /\ fr_mul a o = Ok a.
Proof. intros (x & Ha)%shape_rep. destruct one_rep as (o & E & Ho). exists o. split; auto. split; [eapply rep_shape; exact Ho|]. apply (ring_one h s Hh _ _ _ Ha Ho). Qed.
Lemma t_one_unique : exists o : fftrepr F, fr_one A = Ok o /\ repr_shape sg o /\
  (forall a : fftrepr F, repr_shape sg a -> fr_mul o a = Ok a /\ fr_mul a o = Ok a) /\
  (forall o' : fftrepr F, repr_shape sg o' -> fr_mul o' o = Ok o -> o' = o).
Proof.
  destruct one_rep as (o & E & Ho). exists o. assert (Hs : repr_shape sg o) by (eapply rep_shape; exact Ho). split; auto. split; auto.
  assert (H : forall a : fftrepr F, repr_shape sg a -> fr_mul o a = Ok a /\ fr_mul a o = Ok a).
  { intros a Ha. destruct (t_one a Ha) as (o1 & E1 & _ & H). congruence. }
  split; [exact H|]. intros o' Ho' E'. destruct (H o' Ho') as [_ H']. congruence.
Qed.
Lemma t_zero a : repr_shape (F := F) sg a -> exists o, fr_zero A = Ok o /\ repr_shape sg o /\ fr_add o a = Ok a /\ fr_add a o = Ok a /\ fr_mul o a = Ok o /\ fr_mul a o = Ok o /\
  fr_add a (fr_neg a) = Ok o /\ fr_sub a a = Ok o.
Proof.
  intros (x & Ha)%shape_rep. destruct zero_rep as (o & E & Ho). exists o. split; auto. split; [eapply rep_shape; exact Ho|]. destruct (ring_zero h s Hh _ _ _ Ha Ho) as (H1 & H2 & H3 & H4). destruct (ring_neg h s _ _ _ Ha Ho). auto 10.
Qed.
Lemma t_sub a b : repr_shape (F := F) sg a -> repr_shape sg b -> both_ok (fr_sub a b) (fr_add a (fr_neg b)).
Proof. intros (x & Ha)%shape_rep (y & Hb)%shape_rep. apply (ring_sub h s _ _ _ _ Ha Hb). Qed.
Lemma t_pow a k l : repr_shape (F := F) sg a ->
  both_ok (fr_pow A a k) (Nat.iter k (fun r => u <- r ;; fr_mul u a) (fr_one A)) /\
  both_ok (fr_pow A a (k + l)) (u <- fr_pow A a k ;; v <- fr_pow A a l ;; fr_mul u v).
Proof. intros (x & Ha)%shape_rep. destruct one_rep as (o & E & Ho). apply (ring_pow h s Hh A o E Ho a x k l Ha). Qed.
End RingThms.
