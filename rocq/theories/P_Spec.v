(** The word-level specification agrees with the bit-level sign functions. *)
From Verif Require Export P_Algebra.
Local Open Scope nat_scope.

Lemma gens_ext n a b : (forall i, i < n -> N.testbit a (N.of_nat i) = N.testbit b (N.of_nat i)) -> gens n a = gens n b.
Proof.
  intros H. unfold gens. apply filter_ext_in. intros i Hi. apply in_rev, in_seq in Hi. apply H. lia.
Qed.

Lemma gens_S n a : gens (S n) a = if N.testbit a (N.of_nat n) then n :: gens n a else gens n a.
Proof. unfold gens. rewrite seq_S, rev_app_distr. simpl. reflexivity. Qed.

Lemma gens_low n a : (a < pow2 n)%N -> gens (S n) a = gens n a.
Proof. intros Ha. rewrite gens_S, (testbit_high a n) by lia. reflexivity. Qed.

Lemma gens_add n a : (a < pow2 n)%N -> gens n (pow2 n + a) = gens n a.
Proof.
  intros Ha. apply gens_ext. intros i Hi. rewrite testbit_add_pow2 by auto.
  destruct (N.eqb_spec (N.of_nat i) (N.of_nat n)); [lia|reflexivity].
Qed.

Lemma gens_top n a : (a < pow2 n)%N -> gens (S n) (pow2 n + a) = n :: gens n a.
Proof.
  intros Ha. rewrite gens_S, testbit_add_pow2, N.eqb_refl by auto. rewrite gens_add; auto.
Qed.

Lemma in_gens n a i : In i (gens n a) <-> i < n /\ N.testbit a (N.of_nat i) = true.
Proof. unfold gens. rewrite filter_In, <- in_rev, in_seq. split; intros [H1 H2]; split; auto; lia. Qed.

Lemma gens_0 n : gens n 0 = [].
Proof. induction n; [reflexivity|]. rewrite gens_S, N.bits_0. auto. Qed.

(** Splitting an index below 2^(n+1). *)
Lemma index_split n a : (a < pow2 (S n))%N ->
  (a < pow2 n)%N \/ exists a', (a' < pow2 n)%N /\ a = (pow2 n + a')%N.
Proof.
  intros Ha. rewrite pow2_S in Ha. destruct (N.lt_ge_cases a (pow2 n)); [left; auto|].
  right. exists (a - pow2 n)%N. lia.
Qed.

Definition zsign (d : nat) (Q P a b : N) : Z := sign_i8 (gsign d Q P a b).

Lemma sign_i8_mul s t : sign_i8 (sign_mul s t) = (sign_i8 s * sign_i8 t)%Z.
Proof. destruct s, t; reflexivity. Qed.

Lemma land_pow2_bit i c : N.land (pow2 i) c = if N.testbit c (N.of_nat i) then pow2 i else 0%N.
Proof.
  apply N.bits_inj. intros k. rewrite N.land_spec, testbit_pow2.
  destruct (N.eqb_spec k (N.of_nat i)) as [->|Hne]; simpl.
  - destruct (N.testbit c (N.of_nat i)); rewrite ?testbit_pow2, ?N.eqb_refl, ?N.bits_0; reflexivity.
  - destruct (N.testbit c (N.of_nat i)); rewrite ?testbit_pow2, ?N.bits_0; auto.
    symmetry. apply N.eqb_neq. auto.
Qed.

(** Sign of a generator against a blade. *)
Lemma gsign_gen q d Q P i c : metric q d Q P -> i < d ->
  zsign d Q P (pow2 i) c = ((if N.testbit c (N.of_nat i) then q i else 1) * sign_i8 (of_bool (beta d (pow2 i) c)))%Z.
Proof.
  intros Hq Hi. unfold zsign, gsign. rewrite land_pow2_bit. specialize (Hq i Hi).
  destruct (N.testbit c (N.of_nat i)).
  - rewrite Hq, !land_pow2_bit.
    destruct (N.testbit P (N.of_nat i)).
    + destruct (N.eqb_spec (pow2 i) 0); [pose proof (pow2_pos i); lia|]. reflexivity.
    + simpl. destruct (N.testbit Q (N.of_nat i)); rewrite ?par_pow2, ?par_0, ?xorb_true_r, ?xorb_false_r;
        destruct (beta d (pow2 i) c); reflexivity.
  - rewrite !N.land_0_l. simpl. rewrite par_0, xorb_false_r. destruct (beta d (pow2 i) c); reflexivity.
Qed.

Lemma pow2_lt_iff i n : i < n -> (pow2 i < pow2 n)%N.
Proof. apply pow2_lt. Qed.

Lemma beta_self_top n c : (c < pow2 n)%N -> beta (S n) (pow2 n) c = false.
Proof.
  intros Hc. rewrite <- (N.add_0_r (pow2 n)). rewrite beta_S_10 by (auto; apply pow2_pos). apply beta_0_l.
Qed.
Lemma beta_self_top2 n c : (c < pow2 n)%N -> beta (S n) (pow2 n) (pow2 n + c) = false.
Proof.
  intros Hc. rewrite <- (N.add_0_r (pow2 n)) at 1. rewrite beta_S_11 by (auto; apply pow2_pos).
  rewrite par_0, beta_0_l. reflexivity.
Qed.

(** Inserting a generator. *)
Lemma insert_ok q n : forall i c, i < n -> (c < pow2 n)%N ->
  insert_gen q i (gens n c) =
   (((if N.testbit c (N.of_nat i) then q i else 1) * sign_i8 (of_bool (beta n (pow2 i) c)))%Z,
     gens n (N.lxor (pow2 i) c)).
Proof.
  induction n as [|n IH]; intros i c Hi Hc; [lia|].
  destruct (index_split n c Hc) as [Hc'|(c' & Hc' & ->)].
  - rewrite gens_low by auto. destruct (Nat.eq_dec i n) as [->|Hne].
    + rewrite beta_self_top, (testbit_high c n) by lia.
      rewrite <- add_pow2_lxor, gens_top by auto. simpl sign_i8.
      destruct (gens n c) as [|j r] eqn:E; [reflexivity|].
      assert (Hj : j < n) by (apply (in_gens n c); rewrite E; simpl; auto).
      simpl. apply Nat.ltb_lt in Hj. rewrite Hj. reflexivity.
    + assert (Hin : i < n) by lia. pose proof (pow2_lt i n Hin) as Hp.
      rewrite IH by auto. rewrite beta_S_00 by auto. rewrite gens_low by (apply lxor_lt; auto). reflexivity.
  - rewrite gens_top by auto. cbn [insert_gen]. rewrite testbit_add_pow2 by auto.
    destruct (Nat.eq_dec i n) as [->|Hne].
    + rewrite Nat.ltb_irrefl, Nat.eqb_refl, N.eqb_refl, beta_self_top2 by auto. simpl. rewrite Z.mul_1_r. f_equal.
      rewrite add_pow2_lxor, lxor_cancel by auto. rewrite gens_low; auto.
    + assert (Hin : i < n) by lia. pose proof (pow2_lt i n Hin) as Hp.
      destruct (Nat.ltb_spec n i); [lia|]. destruct (Nat.eqb_spec i n); [lia|].
      destruct (N.eqb_spec (N.of_nat i) (N.of_nat n)); [lia|].
      rewrite IH by auto. rewrite beta_S_01, par_pow2 by auto.
      f_equal.
      * simpl. destruct (beta n (pow2 i) c'); simpl; lia.
      * rewrite add_pow2_lxor by auto.
        replace (N.lxor (pow2 i) (N.lxor (pow2 n) c')) with (N.lxor (pow2 n) (N.lxor (pow2 i) c'))
          by (rewrite <- !N.lxor_assoc; f_equal; apply N.lxor_comm).
        rewrite <- (add_pow2_lxor (N.lxor (pow2 i) c') n) by (apply lxor_lt; auto).
        rewrite gens_top by (apply lxor_lt; auto). reflexivity.
Qed.

Lemma beta_pow2_low n d m a : m <= d -> n = m -> (a < pow2 m)%N -> m < d -> beta d (pow2 m) a = false.
Proof.
  intros _ _ Ha Hd. unfold beta. 
  assert (G : forall e, (inv e (pow2 m) a = 0)); [|rewrite G; reflexivity].
  induction e as [|e IH]; [reflexivity|]. simpl. rewrite IH.
  destruct (N.testbit a (N.of_nat e)) eqn:E; [|reflexivity].
  destruct (Nat.lt_ge_cases e m) as [Hem|Hem].
  - rewrite Nat.add_0_r.
    assert (G2 : forall k, k <= m -> bitsum k (pow2 m) = 0).
    { induction k as [|k IHk]; intros Hk; simpl; auto. rewrite testbit_pow2.
      destruct (N.eqb_spec (N.of_nat k) (N.of_nat m)); [lia|]. rewrite IHk; lia. }
    apply G2. lia.
  - rewrite (testbit_high a m) in E by (auto; lia). discriminate.
Qed.

Lemma gsign_top_plus d Q P m a : m < d -> (a < pow2 m)%N -> gsign d Q P (pow2 m) a = Plus.
Proof.
  intros Hm Ha. unfold gsign. rewrite land_pow2_bit, (testbit_high a m) by (auto; lia).
  rewrite !N.land_0_l. simpl. rewrite par_0, (beta_pow2_low m) by (auto; lia). reflexivity.
Qed.

Lemma reduce_app q d Q P u s b : metric q d Q P -> (b < pow2 d)%N -> reduce q u = (s, gens d b) ->
  forall m, m <= d -> forall a, (a < pow2 m)%N ->
  reduce q (gens m a ++ u) = ((s * zsign d Q P a b)%Z, gens d (N.lxor a b)).
Proof.
  intros Hq Hb Hu. induction m as [|m IH]; intros Hm a Ha.
  - assert (a = 0%N) by (rewrite pow2_0 in Ha; lia). subst a. rewrite gens_0. cbn [app].
    rewrite Hu. unfold zsign. rewrite gsign_0_l, N.lxor_0_l. cbn [sign_i8]. rewrite Z.mul_1_r. reflexivity.
  - destruct (index_split m a Ha) as [Ha'|(a' & Ha' & ->)].
    + rewrite gens_low by auto. apply IH; auto; lia.
    + rewrite gens_top by auto. cbn [reduce app]. rewrite IH by (auto; lia).
      assert (Had : (a' < pow2 d)%N) by (pose proof (pow2_le m d); lia).
      rewrite insert_ok by (auto using lxor_lt; lia).
      rewrite <- (gsign_gen q d Q P) by (auto; lia).
      rewrite <- Z.mul_assoc. unfold zsign. rewrite <- !sign_i8_mul.
      rewrite add_pow2_lxor by auto.
      pose proof (gsign_cocycle d Q P (pow2 m) a' b) as Hc.
      rewrite gsign_top_plus, sign_mul_plus_l in Hc by (auto; lia).
      rewrite Hc. rewrite N.lxor_assoc. reflexivity.
Qed.

Lemma reduce_gens q d Q P b : metric q d Q P -> (b < pow2 d)%N -> reduce q (gens d b) = (1%Z, gens d b).
Proof.
  intros Hq Hb. rewrite <- (app_nil_r (gens d b)).
  rewrite (reduce_app q d Q P [] 1%Z 0%N Hq) by (auto using pow2_pos; simpl; rewrite gens_0; reflexivity).
  unfold zsign. rewrite gsign_0_r, N.lxor_0_r, app_nil_r. reflexivity.
Qed.

Lemma reduce_product q d Q P a b : metric q d Q P -> (a < pow2 d)%N -> (b < pow2 d)%N ->
  reduce q (gens d a ++ gens d b) = (zsign d Q P a b, gens d (N.lxor a b)).
Proof.
  intros Hq Ha Hb. rewrite (reduce_app q d Q P _ 1%Z b Hq) by (auto; apply (reduce_gens q d Q P); auto).
  rewrite Z.mul_1_l. reflexivity.
Qed.

Lemma csign_ok q d Q P a b : metric q d Q P -> (a < pow2 d)%N -> (b < pow2 d)%N ->
  csign q d a b = zsign d Q P a b.
Proof. intros Hq Ha Hb. unfold csign. rewrite (reduce_product q d Q P); auto. Qed.

Lemma metric_q0 d : metric q0 d 0 (ones d).
Proof. intros i Hi. rewrite testbit_ones. replace (N.of_nat i <? N.of_nat d)%N with true; auto. symmetry. apply N.ltb_lt. lia. Qed.

Lemma csign0_ok d a b : (a < pow2 d)%N -> (b < pow2 d)%N ->
  csign q0 d a b = sign_i8 (wsign d a b).
Proof. intros Ha Hb. rewrite (csign_ok _ _ _ _ _ _ (metric_q0 d)) by auto. unfold zsign. rewrite <- wsign_gsign; auto. Qed.

(** *** Soundness of the reduction for the congruence *)
Lemma cl_ctx q : forall a b, cl_eq q a b -> forall k w,
  cl_eq q ((k * fst a)%Z, w ++ snd a) ((k * fst b)%Z, w ++ snd b).
Proof.
  induction 1 as [s u i j v Hne|s u i v|u v|a|a b _ IH|a b c _ IH1 _ IH2]; intros k w; cbn [fst snd].
  - rewrite Z.mul_opp_r, !app_assoc. apply cl_swap. auto.
  - rewrite Z.mul_assoc, !app_assoc. apply cl_square.
  - rewrite Z.mul_0_r. apply cl_zero.
  - apply cl_refl.
  - apply cl_sym. auto.
  - eapply cl_trans; eauto.
Qed.

Lemma insert_sound q i w : cl_eq q (1%Z, i :: w) (insert_gen q i w).
Proof.
  induction w as [|j r IH]; cbn [insert_gen].
  - apply cl_refl.
  - destruct (Nat.ltb_spec j i); [apply cl_refl|].
    destruct (Nat.eqb_spec i j) as [->|Hne].
    + pose proof (cl_square q 1 [] j r) as X. rewrite Z.mul_1_l in X. exact X.
    + destruct (insert_gen q i r) as [s w'].
      eapply cl_trans; [apply (cl_swap q 1 [] i j r Hne)|]. cbn [app].
      pose proof (cl_ctx q _ _ IH (-1)%Z [j]) as X. cbn [fst snd app] in X.
      replace (- s)%Z with (-1 * s)%Z by lia. exact X.
Qed.

Lemma reduce_sound q w : cl_eq q (1%Z, w) (reduce q w).
Proof.
  induction w as [|i r IH]; cbn [reduce]; [apply cl_refl|].
  destruct (reduce q r) as [s w']. pose proof (insert_sound q i w') as Hi.
  destruct (insert_gen q i w') as [t w''].
  pose proof (cl_ctx q _ _ IH 1%Z [i]) as X1. cbn [fst snd app] in X1. rewrite !Z.mul_1_l in X1.
  pose proof (cl_ctx q _ _ Hi s []) as X2. cbn [fst snd app] in X2. rewrite Z.mul_1_r in X2.
  eapply cl_trans; eauto.
Qed.

(** *** Uniqueness of the reduced form: evaluation in integer coefficient functions *)
Global Program Instance ZOps : RingOps Z := {
  r0 := 0%Z; r1 := 1%Z; radd := Z.add; rsub := Z.sub; rmul := Z.mul; rneg := Z.opp;
  ris0 := fun z => Z.eqb z 0; reqb := Z.eqb }.
Global Instance ZLaws : RingLaws Z.
Proof.
  constructor; unfold radd, rsub, rmul, rneg, r0, r1, ris0, reqb; cbn [ZOps]; intros; try ring; apply Z.eqb_eq.
Qed.
Global Instance ZComm : CommLaws Z.
Proof. constructor. intros; simpl; ring. Qed.

Section Eval.
Variables (q : nat -> Z) (d : nat) (Q P : N).
Hypothesis Hq : metric q d Q P.
Hypothesis Hout : forall i, d <= i -> q i = 0%Z.

Definition letter (i : nat) : N -> Z := if Nat.ltb i d then del (pow2 i) r1 else fun _ => r0.
Fixpoint ev (w : list nat) : N -> Z :=
  match w with [] => del 0 r1 | i :: r => gp d Q P (letter i) (ev r) end.
Definition evz (a : Z * list nat) (k : N) : Z := (fst a * ev (snd a) k)%Z.

Lemma gsign_sq i : i < d -> sign_i8 (gsign d Q P (pow2 i) (pow2 i)) = q i.
Proof.
  intros Hi. change (zsign d Q P (pow2 i) (pow2 i) = q i). rewrite (gsign_gen q) by auto.
  rewrite testbit_pow2, N.eqb_refl.
  assert (G : forall m, inv m (pow2 i) (pow2 i) = 0).
  { induction m as [|m IH]; [reflexivity|]. simpl. rewrite IH, testbit_pow2.
    destruct (N.eqb_spec (N.of_nat m) (N.of_nat i)) as [E|]; [|reflexivity].
    apply Nat2N.inj in E. subst m. rewrite Nat.add_0_r.
    assert (G2 : forall k, k <= i -> bitsum k (pow2 i) = 0).
    { induction k as [|k IHk]; intros Hk; simpl; auto. rewrite testbit_pow2.
      destruct (N.eqb_spec (N.of_nat k) (N.of_nat i)); [lia|]. rewrite IHk; lia. }
    apply G2. lia. }
  unfold beta. rewrite G. simpl. ring.
Qed.

Lemma bitsum_pow2 m i : bitsum m (pow2 i) = if Nat.ltb i m then 1 else 0.
Proof.
  induction m as [|m IH]; [reflexivity|]. simpl. rewrite IH, testbit_pow2.
  destruct (N.eqb_spec (N.of_nat m) (N.of_nat i)) as [E|E]; destruct (Nat.ltb_spec i m), (Nat.ltb_spec i (S m)); simpl; lia.
Qed.

Lemma inv_pow2 m i j : inv m (pow2 i) (pow2 j) = if (Nat.ltb i j && Nat.ltb j m)%bool then 1 else 0.
Proof.
  induction m as [|m IH]; [rewrite andb_false_r; reflexivity|]. simpl. rewrite IH, testbit_pow2, bitsum_pow2.
  destruct (N.eqb_spec (N.of_nat m) (N.of_nat j)) as [E|E];
    destruct (Nat.ltb_spec i j), (Nat.ltb_spec j m), (Nat.ltb_spec i m), (Nat.ltb_spec j (S m)); simpl; lia.
Qed.

Lemma gsign_anti i j : i <> j -> i < d -> j < d ->
  gsign d Q P (pow2 j) (pow2 i) = sign_mul Minus (gsign d Q P (pow2 i) (pow2 j)).
Proof.
  intros Hne Hi Hj. unfold gsign.
  assert (E : N.land (pow2 i) (pow2 j) = 0%N).
  { rewrite land_pow2_bit, testbit_pow2. destruct (N.eqb_spec (N.of_nat i) (N.of_nat j)); [lia|reflexivity]. }
  rewrite (N.land_comm (pow2 j)), E, !N.land_0_l. simpl. rewrite par_0, !xorb_false_r. unfold beta.
  rewrite !inv_pow2. destruct (Nat.ltb_spec i j), (Nat.ltb_spec j i), (Nat.ltb_spec i d), (Nat.ltb_spec j d); simpl; try lia; reflexivity.
Qed.

Lemma act_Z s (x : Z) : act s x = (sign_i8 s * x)%Z.
Proof. destruct s; unfold act, r0, rneg; cbn [sign_i8 ZOps]; ring. Qed.

Lemma letter_sq i : feq d (gp d Q P (letter i) (letter i)) (fun k => (q i * del 0 r1 k)%Z).
Proof.
  intros k Hk. unfold letter. destruct (Nat.ltb_spec i d) as [Hi|Hi].
  - rewrite gp_del_del by (apply pow2_lt; auto). rewrite N.lxor_nilpotent, act_Z, gsign_sq by auto.
    unfold del. destruct (k =? 0)%N; unfold rmul, r1, r0; cbn [ZOps]; ring.
  - rewrite gp_0_l, Hout by auto. reflexivity.
Qed.

Lemma letter_anti i j : i <> j -> feq d (gp d Q P (letter i) (letter j)) (fun k => (- gp d Q P (letter j) (letter i) k)%Z).
Proof.
  intros Hne k Hk. unfold letter. destruct (Nat.ltb_spec i d) as [Hi|Hi], (Nat.ltb_spec j d) as [Hj|Hj];
    rewrite ?gp_0_l, ?gp_0_r; auto.
  rewrite !gp_del_del by (apply pow2_lt; auto). rewrite (N.lxor_comm (pow2 j)), !act_Z.
  rewrite (gsign_anti i j) by auto. rewrite sign_i8_mul. unfold del. destruct (k =? N.lxor (pow2 i) (pow2 j))%N; [unfold rmul, r1; cbn [sign_i8 ZOps]; ring|reflexivity].
Qed.

Lemma ev_app u v : feq d (ev (u ++ v)) (gp d Q P (ev u) (ev v)).
Proof.
  induction u as [|i u IH]; intros k Hk; cbn [ev app].
  - symmetry. apply gp_1_l.
  - rewrite gp_assoc by auto. apply gp_ext; auto using feq_refl.
Qed.

Lemma evz_ctx u v s t x y : feq d (fun k => (s * ev x k)%Z) (fun k => (t * ev y k)%Z) ->
  feq d (evz (s, u ++ x ++ v)) (evz (t, u ++ y ++ v)).
Proof.
  intros H k Hk. unfold evz. cbn [fst snd].
  assert (G : forall s x k, (k < pow2 d)%N -> (s * ev (u ++ x ++ v) k)%Z = gp d Q P (ev u) (gp d Q P (fun k => (s * ev x k)%Z) (ev v)) k).
  { clear. intros s x k Hk. rewrite ev_app by auto.
    change (s * gp d Q P (ev u) (ev (x ++ v)) k)%Z with (rmul s (gp d Q P (ev u) (ev (x ++ v)) k)).
    rewrite mul_comm, <- gp_scale_r. apply gp_ext; auto using feq_refl. intros i Hi.
    change (fun k0 : N => (s * ev x k0)%Z) with (fun k0 : N => (rmul s (ev x k0))).
    rewrite gp_scale_l, mul_comm. f_equal. apply ev_app; auto. }
  rewrite !G by auto. apply gp_ext; auto using feq_refl. apply gp_feq; auto using feq_refl.
Qed.

Lemma evz_sound a b : cl_eq q a b -> feq d (evz a) (evz b).
Proof.
  induction 1 as [s u i j v Hne|s u i v|u v|a|a b _ IH|a b c _ IH1 _ IH2].
  - change (i :: j :: v) with ([i; j] ++ v). change (j :: i :: v) with ([j; i] ++ v). apply evz_ctx.
    intros k Hk. cbn [ev app].
    rewrite (gp_ext d Q P (letter i) (letter i) _ (letter j)) by (auto using feq_refl; intros l Hl; apply gp_1_r; auto).
    rewrite (gp_ext d Q P (letter j) (letter j) _ (letter i)) by (auto using feq_refl; intros l Hl; apply gp_1_r; auto).
    rewrite (letter_anti i j) by auto. ring.
  - change (i :: i :: v) with ([i; i] ++ v). change (u ++ v) with (u ++ [] ++ v). apply evz_ctx.
    intros k Hk. cbn [ev app].
    rewrite (gp_ext d Q P (letter i) (letter i) _ (letter i)) by (auto using feq_refl; intros l Hl; apply gp_1_r; auto).
    rewrite letter_sq by auto. ring.
  - intros k Hk. reflexivity.
  - apply feq_refl.
  - apply feq_sym; auto.
  - eapply feq_trans; eauto.
Qed.

Lemma ev_gens m : m <= d -> forall a, (a < pow2 m)%N -> feq d (ev (gens m a)) (del a r1).
Proof.
  induction m as [|m IH]; intros Hm a Ha.
  - assert (a = 0%N) by (rewrite pow2_0 in Ha; lia). subst a. apply feq_refl.
  - destruct (index_split m a Ha) as [Ha'|(a' & Ha' & ->)].
    + rewrite gens_low by auto. apply IH; auto; lia.
    + rewrite gens_top by auto. cbn [ev]. intros k Hk.
      rewrite (gp_ext d Q P _ (letter m) _ (del a' r1)) by (auto using feq_refl; apply IH; auto; lia).
      unfold letter. destruct (Nat.ltb_spec m d); [|lia].
      rewrite gp_del_del by (apply pow2_lt; auto).
      rewrite gsign_top_plus by auto. rewrite <- add_pow2_lxor by auto. reflexivity.
Qed.

Lemma cl_unique s t a b : (a < pow2 d)%N -> (b < pow2 d)%N ->
  cl_eq q (s, gens d a) (t, gens d b) -> (a = b /\ s = t) \/ (s = 0 /\ t = 0)%Z.
Proof.
  intros Ha Hb H. apply evz_sound in H.
  pose proof (H a Ha) as H1. pose proof (H b Hb) as H2. unfold evz in H1, H2. cbn [fst snd] in *.
  rewrite !(ev_gens d) in H1, H2 by auto. unfold del in *. rewrite !N.eqb_refl in *.
  rewrite (N.eqb_sym b a) in *. destruct (N.eqb_spec a b) as [->|Hne].
  - left. split; auto. change (s * 1 = t * 1)%Z in H1. lia.
  - right. change (s * 1 = t * 0)%Z in H1. change (s * 0 = t * 1)%Z in H2. lia.
Qed.
End Eval.
