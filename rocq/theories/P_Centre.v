(** The centre, and versors with the same sandwich: lemmas behind C89. *)
From Verif Require Export P_Frames P_Det.
Local Open Scope nat_scope.

Lemma land_pow2 g k : N.land (pow2 g) k = if N.testbit k (N.of_nat g) then pow2 g else 0%N.
Proof.
  apply N.bits_inj. intros j. rewrite N.land_spec, testbit_pow2'. destruct (N.eqb_spec (N.of_nat g) j) as [<-|Hn].
  - destruct (N.testbit k (N.of_nat g)); [rewrite testbit_pow2', N.eqb_refl|rewrite N.bits_0]; reflexivity.
  - cbn [andb]. destruct (N.testbit k (N.of_nat g)); [|rewrite N.bits_0; reflexivity]. rewrite testbit_pow2'. symmetry. apply N.eqb_neq. auto.
Qed.
Lemma pop_ones n : popcount (ones n) = n.
Proof. destruct (ones_low_spec n n (le_n n)) as [_ E]. exact E. Qed.
Lemma par_pow2' g : par (pow2 g) = true. Proof. unfold par. rewrite popcount_pow2. reflexivity. Qed.

Section Centre.
Context {T : Type} {RO : RingOps T} {L : RingLaws T}.
Variables (d : nat) (Q P : N).
Local Notation gm := (gp d Q P).
Local Open Scope rg_scope.
Implicit Types x y : N -> T.

Definition commutes x y : Prop := feq d (gm y x) (gm x y).
Lemma gsign_swap i I : (i < d)%nat -> (I < pow2 d)%N ->
  gsign d Q P I (pow2 i) = sign_mul (of_bool (xorb (par I) (N.testbit I (N.of_nat i)))) (gsign d Q P (pow2 i) I).
Proof.
  intros Hi HI. unfold gsign. rewrite (N.land_comm I (pow2 i)). destruct (_ =? 0)%N; [|destruct (xorb _ _); reflexivity].
  rewrite (beta_comm d (pow2 i) I) by auto using pow2_lt. rewrite par_pow2', land_pow2.
  destruct (N.testbit I (N.of_nat i)).
  - rewrite par_pow2'. cbn [andb]. destruct (beta d (pow2 i) I), (par I), (par (N.land (pow2 i) Q)); reflexivity.
  - cbn [N.land]. rewrite par_0. cbn [andb]. destruct (beta d (pow2 i) I), (par I); reflexivity.
Qed.
Lemma commutes_gen x i : (forall a : T, a + a = 0 -> a = 0) -> (i < d)%nat ->
  (commutes x (del (pow2 i) 1) <->
   forall I, (I < pow2 d)%N -> (N.testbit P (N.of_nat i) && N.testbit I (N.of_nat i))%bool = false -> xorb (par I) (N.testbit I (N.of_nat i)) = true -> x I = 0).
Proof.
  intros two Hi. assert (Hp : (pow2 i < pow2 d)%N) by (apply pow2_lt; auto).
  assert (G : forall I, (I < pow2 d)%N -> (gsign d Q P (pow2 i) I = Null <-> (N.testbit P (N.of_nat i) && N.testbit I (N.of_nat i))%bool = true)).
  { intros I HI. unfold gsign. rewrite land_pow2. destruct (N.testbit I (N.of_nat i)).
    - rewrite land_pow2. destruct (N.testbit P (N.of_nat i)).
      + destruct (N.eqb_spec (pow2 i) 0) as [E|]; [pose proof (pow2_pos i); lia|]. split; auto.
      + cbn [N.eqb]. destruct (xorb _ _); cbn; split; discriminate.
    - rewrite andb_false_r. cbn [N.land N.eqb]. destruct (xorb _ _); cbn; split; discriminate. }
  split.
  - intros C I HI Hn Hx. specialize (C (N.lxor (pow2 i) I) (lxor_lt _ _ _ Hp HI)).
    rewrite gp_del_l, gp_del_r in C by (auto using lxor_lt). rewrite lxor_cancel in C.
    replace (N.lxor (N.lxor (pow2 i) I) (pow2 i)) with I in C by (rewrite (N.lxor_comm (pow2 i) I), lxor_cancel_r; reflexivity).
    rewrite mul_1_l, mul_1_r, gsign_swap, Hx in C by auto. specialize (G I HI). rewrite Hn in G. apply two.
    destruct (gsign d Q P (pow2 i) I); cbn in C.
    all: first [exfalso; destruct G as [G _]; discriminate (G eq_refl) | rewrite C at 1; apply add_neg_l | rewrite <- C at 2; apply add_neg_r].
  - intros C k Hk. rewrite gp_del_l, gp_del_r by auto. rewrite (N.lxor_comm k (pow2 i)). set (I := N.lxor (pow2 i) k). assert (HI : (I < pow2 d)%N) by (apply lxor_lt; auto).
    rewrite mul_1_l, mul_1_r, gsign_swap by auto. destruct (xorb (par I) (N.testbit I (N.of_nat i))) eqn:Ex; [|destruct (gsign d Q P (pow2 i) I); reflexivity].
    destruct (N.testbit P (N.of_nat i) && N.testbit I (N.of_nat i))%bool eqn:En.
    + apply G in En; auto. rewrite En. reflexivity.
    + rewrite (C I HI En Ex), !act_0. reflexivity.
Qed.
End Centre.

Section All.
Context {T : Type} {RO : RingOps T} {L : RingLaws T} {CL : CommLaws T}.
Add Ring TRCe : comm_ring_theory.
Variables (d : nat) (Q P : N).
Local Notation gm := (gp d Q P).
Local Open Scope rg_scope.
Implicit Types x y : N -> T.
Local Notation comm := (commutes d Q P).

Lemma commutes_mul x y z : comm x y -> comm x z -> comm x (gm y z).
Proof.
  intros Cy Cz k Hk. rewrite gp_assoc by auto. rewrite (gp_ext d Q P y y _ (gm x z)) by (auto using feq_refl).
  rewrite <- gp_assoc by auto. rewrite (gp_ext d Q P _ (gm x y) z z) by (auto using feq_refl). rewrite gp_assoc by auto. reflexivity.
Qed.
Lemma commutes_ext x y y' : feq d y y' -> comm x y -> comm x y'.
Proof.
  intros E C k Hk. rewrite (gp_ext d Q P y' y x x k Hk (feq_sym _ _ _ E) (feq_refl _ _)), (gp_ext d Q P x x y' y k Hk (feq_refl _ _) (feq_sym _ _ _ E)). apply C; auto.
Qed.
Lemma commutes_scale x y c : comm x y -> comm x (fun i => c * y i).
Proof.
  intros C k Hk. rewrite gp_scale_l. rewrite (gp_ext d Q P x x (fun i => c * y i) (fun i => y i * c)) by (auto using feq_refl; intros i Hi; ring).
  rewrite gp_scale_r, C by auto. ring.
Qed.
Lemma commutes_blades x : (forall i, (i < d)%nat -> comm x (del (pow2 i) 1)) -> forall n, (n <= d)%nat -> forall I, (I < pow2 n)%N -> comm x (del I 1).
Proof.
  intros C. induction n as [|n IH]; intros Hn I HI.
  - assert (I = 0%N) by (rewrite pow2_0 in HI; lia). subst I. intros k Hk. rewrite gp_1_l, gp_1_r by auto. reflexivity.
  - rewrite pow2_S in HI. destruct (N.lt_ge_cases I (pow2 n)) as [Hl|Hl]; [apply IH; auto; lia|].
    set (J := (I - pow2 n)%N). assert (HJ : (J < pow2 n)%N) by (unfold J; lia). assert (EI : I = N.lxor (pow2 n) J) by (rewrite <- add_pow2_lxor by auto; unfold J; lia).
    assert (Hp : (pow2 n < pow2 d)%N) by (apply pow2_lt; lia).
    assert (Es : gsign d Q P (pow2 n) J <> Null).
    { unfold gsign. rewrite land_pow2, (testbit_high J n) by (auto; lia). cbn [N.land N.eqb]. destruct (xorb _ _); discriminate. }
    assert (CC : comm x (gm (del (pow2 n) 1) (del J 1))) by (apply commutes_mul; [apply C; lia|apply IH; auto; lia]).
    assert (EE : feq d (gm (del (pow2 n) 1) (del J 1)) (del I (act (gsign d Q P (pow2 n) J) 1))).
    { intros k Hk. rewrite gp_del_del by auto. rewrite <- EI, mul_1_l. reflexivity. }
    apply (commutes_ext x _ _ EE) in CC. destruct (gsign d Q P (pow2 n) J); cbn [act] in CC; try congruence; try exact CC.
    apply (commutes_ext x (fun i => (- (1)) * del I (- (1)) i)); [|apply commutes_scale; exact CC].
    intros k Hk. unfold del. destruct (k =? I)%N; ring.
Qed.
Lemma commutes_all x y : (forall i, (i < d)%nat -> comm x (del (pow2 i) 1)) -> comm x y.
Proof.
  intros C k Hk. assert (Ey : feq d y (fun a => sumI d (fun i => y i * del i 1 a))).
  { intros a Ha. rewrite (sumI_single d _ a); auto; [rewrite del_eq; ring|]. intros j Hj Hne. rewrite del_neq by auto. ring. }
  rewrite (gp_ext d Q P y _ x x k Hk Ey (feq_refl _ _)), (gp_ext d Q P x x y _ k Hk (feq_refl _ _) Ey).
  rewrite (gp_sum_l d Q P y (fun i => del i 1) x k), (gp_sum_r d Q P y (fun i => del i 1) x k). apply sumI_ext. intros i Hi. f_equal.
  apply (commutes_blades x C d (le_n d) i Hi k Hk).
Qed.
End All.

Section Unique.
Context {T : Type} {RO : RingOps T} {L : RingLaws T} {CL : CommLaws T} {DV : DivOps T} {F : FieldLaws T}.
Add Ring TRCu : comm_ring_theory.
Variables (d : nat) (Q P : N).
Local Notation gm := (gp d Q P).
Local Notation dot := (dotv d Q P).
Local Notation fp := (fprod d Q P).
Local Notation np := (normp d Q P).
Local Open Scope rg_scope.
Implicit Types x y : N -> T.
Hypothesis two : (1 + 1 : T) <> 0.
Hypothesis nonnull : forall i, (i < d)%nat -> N.testbit P (N.of_nat i) = false.

Definition good (ws : list (N -> T)) : Prop := vecs d ws /\ Forall (fun w => dot w w <> 0) ws.
Lemma np_neq ws : good ws -> np ws <> 0.
Proof.
  intros [Hv Hn]. clear Hv. induction Hn as [|w ws Hw _ IH]; cbn [normp]; [apply one_neq_zero|]. intros E. apply IH. apply (mul_cancel_r _ _ _ Hw). rewrite E. ring.
Qed.
Lemma alpha_fprod ws : vecs d ws -> feq d (alpha (fp ws)) (fun k => sgb (Nat.odd (length ws)) 1 * fp ws k).
Proof.
  induction ws as [|w ws IH]; intros Hv k Hk; cbn [fprod length].
  - unfold alpha, del. destruct (N.eqb_spec k 0) as [->|]; [cbn; ring|rewrite sgb_0; ring].
  - pose proof (Forall_inv Hv) as Hw. rewrite alpha_gp by auto.
    rewrite (gp_ext d Q P _ (fneg w) _ (fun k => fp ws k * sgb (Nat.odd (length ws)) 1)); auto using alpha_vec.
    + rewrite gp_neg_l, gp_scale_r, Nat.odd_succ, <- Nat.negb_odd. destruct (Nat.odd (length ws)); cbn [sgb negb]; ring.
    + intros i Hi. rewrite (IH (Forall_inv_tail Hv) i Hi). ring.
Qed.
(** The versor moves past x. *)
Lemma pass_l ws x : good ws -> feq d (gm (fp ws) x) (gm (chain d Q P ws x) (fp ws)).
Proof.
  intros Hg k Hk. destruct Hg as [Hv Hn]. pose proof (np_neq ws (conj Hv Hn)) as Hn0. apply (mul_cancel_r _ _ (np ws) Hn0).
  transitivity (gm (gm (fp ws) (gm x (frev (fp ws)))) (fp ws) k).
  - rewrite gp_assoc by auto. rewrite <- gp_scale_r. apply gp_ext; auto using feq_refl. intros i Hi. rewrite gp_assoc by auto.
    rewrite (gp_ext d Q P x x _ (del 0 (np ws))) by (auto using feq_refl, rev_versor). rewrite gp_scalar_r by auto. reflexivity.
  - rewrite (gp_ext d Q P _ (fun k => np ws * chain d Q P ws x k) (fp ws) (fp ws)) by (auto using feq_refl; apply chain_fprod; auto).
    rewrite gp_scale_l. ring.
Qed.
Lemma pass_r ws x : good ws -> feq d (gm (frev (fp ws)) (chain d Q P ws x)) (gm x (frev (fp ws))).
Proof.
  intros Hg k Hk. destruct Hg as [Hv Hn]. pose proof (np_neq ws (conj Hv Hn)) as Hn0. apply (mul_cancel_r _ _ (np ws) Hn0).
  transitivity (gm (frev (fp ws)) (gm (fp ws) (gm x (frev (fp ws)))) k).
  - rewrite <- gp_scale_r. apply gp_ext; auto using feq_refl. intros i Hi. rewrite (chain_fprod d Q P ws x Hv Hn i Hi). ring.
  - rewrite <- gp_assoc by auto. rewrite (gp_ext d Q P _ (del 0 (np ws)) (gm x (frev (fp ws))) (gm x (frev (fp ws)))) by (auto using feq_refl, rev_versor).
    rewrite gp_scalar_l. ring.
Qed.
Lemma central_scalar x : (forall i, (i < d)%nat -> commutes d Q P x (del (pow2 i) 1)) -> (Nat.odd d = true -> x (ones d) = 0) -> feq d x (del 0 (x 0%N)).
Proof.
  intros C Ho I HI. unfold del. destruct (N.eqb_spec I 0) as [->|H0]; [reflexivity|].
  assert (two' : forall a : T, a + a = 0 -> a = 0) by (intros a Ea; apply (cancel2 two); rewrite Ea; ring).
  assert (G : forall i, (i < d)%nat -> x I = 0 \/ N.testbit I (N.of_nat i) = par I).
  { intros i Hi. pose proof (proj1 (commutes_gen d Q P x i two' Hi) (C i Hi) I HI) as G. rewrite nonnull in G by auto.
    destruct (par I), (N.testbit I (N.of_nat i)); auto. }
  destruct (is0_dec (x I)) as [|Hx]; auto. assert (G' : forall i, (i < d)%nat -> N.testbit I (N.of_nat i) = par I) by (intros i Hi; destruct (G i Hi); auto; contradiction).
  destruct (par I) eqn:Ep.
  - assert (EI : I = ones d).
    { apply N.bits_inj. intros j. rewrite testbit_ones. destruct (N.ltb_spec j (N.of_nat d)) as [Hj|Hj]; [rewrite <- (N2Nat.id j); apply G'; lia|].
      rewrite <- (N2Nat.id j). apply (testbit_high I d); auto. lia. }
    subst I. apply Ho. unfold par in Ep. rewrite pop_ones in Ep. exact Ep.
  - exfalso. apply H0. apply N.bits_inj. intros j. rewrite N.bits_0. destruct (N.ltb_spec j (N.of_nat d)) as [Hj|Hj]; [rewrite <- (N2Nat.id j); apply G'; lia|].
    rewrite <- (N2Nat.id j). apply (testbit_high I d); auto. lia.
Qed.
Lemma same_sandwich vs ws : good vs -> good ws -> (Nat.odd d = true -> Nat.odd (length vs) = Nat.odd (length ws)) ->
  (forall i, (i < d)%nat -> feq d (chain d Q P vs (del (pow2 i) 1)) (chain d Q P ws (del (pow2 i) 1))) ->
  exists c, c <> 0 /\ feq d (fp vs) (fun k => c * fp ws k).
Proof.
  intros Gv Gw Ho E. pose proof (np_neq ws Gw) as Nw. pose proof (np_neq vs Gv) as Nv. set (z := gm (frev (fp ws)) (fp vs)).
  assert (Cz : forall i, (i < d)%nat -> commutes d Q P z (del (pow2 i) 1)).
  { intros i Hi k Hk. unfold z. symmetry. rewrite gp_assoc by auto.
    rewrite (gp_ext d Q P _ (frev (fp ws)) _ (gm (chain d Q P ws (del (pow2 i) 1)) (fp vs)) k Hk (feq_refl _ _)).
    - rewrite <- gp_assoc by auto. rewrite (gp_ext d Q P _ _ (fp vs) (fp vs) k Hk (pass_r ws (del (pow2 i) 1) Gw) (feq_refl _ _)). rewrite gp_assoc by auto. reflexivity.
    - eapply feq_trans; [apply pass_l; auto|]. apply gp_feq; auto using feq_refl. }
  assert (Ez : feq d z (del 0 (z 0%N))).
  { apply central_scalar; auto. intros Hd. assert (Ea : alpha z (ones d) = z (ones d)).
    { unfold z. rewrite alpha_gp by (apply ones_lt).
      rewrite (gp_ext d Q P _ (fun k => sgb (Nat.odd (length ws)) 1 * frev (fp ws) k) _ (fun k => fp vs k * sgb (Nat.odd (length vs)) 1)).
      - rewrite gp_scale_l, gp_scale_r, Ho by auto. destruct (Nat.odd (length ws)); cbn [sgb]; ring.
      - apply ones_lt.
      - intros i Hi. transitivity (frev (alpha (fp ws)) i); [unfold frev, alpha; rewrite !sgb_sgb, xorb_comm; reflexivity|].
        unfold frev at 1. rewrite (alpha_fprod ws (proj1 Gw) i Hi). rewrite <- sgb_mul_r. reflexivity.
      - intros i Hi. rewrite (alpha_fprod vs (proj1 Gv) i Hi). ring. }
    unfold alpha, par in Ea. rewrite pop_ones, Hd in Ea. cbn [sgb] in Ea. apply (cancel2 two). rewrite <- Ea at 1. ring. }
  assert (Es : feq d (fun k => np ws * fp vs k) (fun k => z 0%N * fp ws k)).
  { intros k Hk. cbv beta. transitivity (gm (gm (fp ws) (frev (fp ws))) (fp vs) k).
    - rewrite (gp_ext d Q P _ (del 0 (np ws)) (fp vs) (fp vs)) by (auto using feq_refl; apply versor_rev; apply Gw). rewrite gp_scalar_l. reflexivity.
    - rewrite gp_assoc by auto. fold z. rewrite (gp_ext d Q P _ (fp ws) _ _ k Hk (feq_refl _ _) Ez). rewrite gp_scalar_r by auto. ring. }
  assert (Ec : feq d (fp vs) (fun k => z 0%N / np ws * fp ws k)).
  { intros k Hk. apply (mul_cancel_r _ _ (np ws) Nw). transitivity (np ws * fp vs k); [ring|]. rewrite (Es k Hk).
    transitivity ((z 0%N / np ws * np ws) * fp ws k); [rewrite div_mul by auto|]; ring. }
  exists (z 0%N / np ws). split; [|exact Ec]. intros E0. apply Nv.
  pose proof (rev_versor d Q P vs (proj1 Gv) 0%N (pow2_pos d)) as R. rewrite del_eq in R. rewrite <- R.
  rewrite (gp_ext d Q P _ (frev (fp vs)) (fp vs) (fun _ => 0)) by (auto using feq_refl, pow2_pos; intros k Hk; rewrite Ec, E0 by auto; ring). apply gp_0_r.
Qed.
Lemma scaled_sandwich vs ws c x : good vs -> good ws -> feq d (fp vs) (fun k => c * fp ws k) -> feq d (chain d Q P vs x) (chain d Q P ws x).
Proof.
  intros Gv Gw E. pose proof (np_neq vs Gv) as Nv.
  assert (En : np vs = c * c * np ws).
  { pose proof (rev_versor d Q P vs (proj1 Gv) 0%N (pow2_pos d)) as R. rewrite del_eq in R. rewrite <- R.
    pose proof (rev_versor d Q P ws (proj1 Gw) 0%N (pow2_pos d)) as R'. rewrite del_eq in R'. rewrite <- R'.
    rewrite (gp_ext d Q P _ (fun k => c * frev (fp ws) k) (fp vs) (fun k => fp ws k * c)); auto using pow2_pos.
    - rewrite gp_scale_l, gp_scale_r. ring.
    - intros i Hi. unfold frev. rewrite E by auto. rewrite <- sgb_mul_r. reflexivity.
    - intros i Hi. rewrite E by auto. ring. }
  intros k Hk. apply (mul_cancel_r _ _ (np vs) Nv). transitivity (np vs * chain d Q P vs x k); [ring|].
  rewrite <- (chain_fprod d Q P vs x (proj1 Gv) (proj2 Gv) k Hk).
  transitivity (c * c * gm (fp ws) (gm x (frev (fp ws))) k).
  - rewrite (gp_ext d Q P (fp vs) _ _ (fun k => gm x (frev (fp ws)) k * c) k Hk E); [rewrite gp_scale_l, gp_scale_r; ring|].
    intros i Hi. rewrite <- gp_scale_r. apply gp_ext; auto using feq_refl. intros j Hj. unfold frev. rewrite E by auto. rewrite <- sgb_mul_r. ring.
  - rewrite (chain_fprod d Q P ws x (proj1 Gw) (proj2 Gw) k Hk), En. ring.
Qed.
End Unique.
