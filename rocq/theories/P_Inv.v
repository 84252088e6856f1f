(** Involutions, duality, grades and scalar parts of coefficient functions. *)
From Verif Require Export P_Laws.
Local Open Scope nat_scope.

(** ** Sign identities *)
Lemma beta_comm_odd d a b : xorb (beta d a b) (beta d b a) =
  xorb (Nat.odd (bitsum d a) && Nat.odd (bitsum d b)) (Nat.odd (bitsum d (N.land a b))).
Proof.
  induction d as [|d IH]; [reflexivity|].
  rewrite !beta_S. cbn [bitsum]. rewrite N.land_spec, !Nat.odd_add.
  assert (E : forall c, Nat.odd (Nat.b2n c) = c) by (intros []; reflexivity). rewrite !E.
  set (an := N.testbit a _) in *. set (bn := N.testbit b _) in *.
  set (X := Nat.odd (bitsum d a)) in *. set (Y := Nat.odd (bitsum d b)) in *.
  set (Z := Nat.odd (bitsum d (N.land a b))) in *.
  destruct (beta d a b), (beta d b a), X, Y, Z, an, bn; simpl in *; congruence.
Qed.

Lemma beta_comm d a b : (a < pow2 d)%N -> (b < pow2 d)%N ->
  beta d b a = xorb (beta d a b) (xorb (par a && par b) (par (N.land a b))).
Proof.
  intros Ha Hb. unfold par. rewrite (popcount_bitsum d a), (popcount_bitsum d b) by auto.
  rewrite (popcount_bitsum d (N.land a b)) by (apply land_lt_l; auto).
  rewrite <- beta_comm_odd. destruct (beta d a b), (beta d b a); reflexivity.
Qed.

Lemma rbit_add x y : rbit (x + y) = xorb (xorb (rbit x) (rbit y)) (Nat.odd x && Nat.odd y).
Proof.
  assert (G : forall x q r, x = 4 * q + r -> r < 4 -> rbit x = Nat.leb 2 r /\ Nat.odd x = Nat.odd r).
  { intros z q r -> Hr. unfold rbit. split.
    - rewrite Nat.add_comm, Nat.mul_comm, Nat.mod_add, Nat.mod_small by lia.
      destruct r as [|[|[|[|]]]]; auto; lia.
    - rewrite Nat.odd_add, Nat.odd_mul. destruct (Nat.odd r); reflexivity. }
  pose proof (Nat.div_mod x 4 ltac:(lia)) as Ex. pose proof (Nat.mod_upper_bound x 4 ltac:(lia)) as Hx.
  pose proof (Nat.div_mod y 4 ltac:(lia)) as Ey. pose proof (Nat.mod_upper_bound y 4 ltac:(lia)) as Hy.
  destruct (G x _ _ Ex Hx) as [-> ->]. destruct (G y _ _ Ey Hy) as [-> ->].
  remember (x / 4) as qx. remember (y / 4) as qy. remember (x mod 4) as rx. remember (y mod 4) as ry.
  assert (Hs : exists q r, x + y = 4 * q + r /\ r < 4 /\ r = (if Nat.leb 4 (rx + ry) then rx + ry - 4 else rx + ry)).
  { destruct (Nat.leb_spec 4 (rx + ry)).
    - exists (qx + qy + 1), (rx + ry - 4). lia.
    - exists (qx + qy), (rx + ry). lia. }
  destruct Hs as (q & r & E & Hr & Er). destruct (G _ _ _ E Hr) as [-> _]. rewrite Er. clear -Hx Hy.
  destruct rx as [|[|[|[|]]]]; try lia; destruct ry as [|[|[|[|]]]]; try lia; reflexivity.
Qed.

Lemma rbit_double k : rbit (2 * k) = Nat.odd k.
Proof.
  induction k as [|k IH]; [reflexivity|]. replace (2 * S k) with (2 * k + 2) by lia.
  rewrite rbit_add, IH, Nat.odd_mul. rewrite (Nat.odd_succ k), <- Nat.negb_odd. simpl.
  destruct (Nat.odd k); reflexivity.
Qed.

Lemma rbit_lxor a b : rbit (popcount (N.lxor a b)) =
  xorb (xorb (rbit (popcount a)) (rbit (popcount b))) (xorb (par a && par b) (par (N.land a b))).
Proof.
  pose proof (popcount_lxor a b) as H. apply (f_equal rbit) in H.
  rewrite !rbit_add, rbit_double, Nat.odd_mul in H. simpl in H. rewrite andb_false_r, xorb_false_r in H.
  unfold par. destruct (rbit (popcount (N.lxor a b))), (Nat.odd (popcount (N.land a b))); simpl in *;
  rewrite <- ?H; destruct (rbit (popcount a)), (rbit (popcount b)), (Nat.odd (popcount a)), (Nat.odd (popcount b)); simpl in *; congruence.
Qed.

(** Reversing the factors of a blade product. *)
Lemma beta_rev d a b : (a < pow2 d)%N -> (b < pow2 d)%N ->
  xorb (beta d b a) (xorb (rbit (popcount a)) (rbit (popcount b))) = xorb (beta d a b) (rbit (popcount (N.lxor a b))).
Proof.
  intros Ha Hb. rewrite (beta_comm d a b), rbit_lxor by auto.
  destruct (beta d a b), (rbit (popcount a)), (rbit (popcount b)), (par a && par b), (par (N.land a b)); reflexivity.
Qed.

Lemma beta_self d a : (a < pow2 d)%N -> beta d a a = rbit (popcount a).
Proof.
  revert a. induction d as [|d IH]; intros a Ha.
  - unfold pow2 in Ha. simpl in Ha. assert (a = 0%N) as -> by lia. reflexivity.
  - destruct (N.ltb_spec a (pow2 d)) as [H|H].
    + rewrite beta_S_00 by auto. auto.
    + rewrite pow2_S in Ha. replace a with (pow2 d + (a - pow2 d))%N by lia.
      rewrite beta_S_11, popcount_add_pow2, IH by lia.
      rewrite <- (Nat.add_1_r (popcount _)), rbit_add. simpl. unfold par.
      destruct (rbit _), (Nat.odd _); reflexivity.
Qed.

Section Inv.
Context {T : Type} {RO : RingOps T} {W : NumLaws T} {L : RingLaws T}.
Variable d : nat.
Variables Q P : N.
Local Notation gpd := (gp d Q P).

(** ** Reversal, possibly with a conjugation of the coefficients *)
Definition frevc (c : T -> T) (x : N -> T) (i : N) : T := sgb (rbit (popcount i)) (c (x i)).

Record anti_conj (c : T -> T) : Prop := {
  ac_add : forall a b, c (radd a b) = radd (c a) (c b);
  ac_mul : forall a b, c (rmul a b) = rmul (c b) (c a);
  ac_one : c r1 = r1;
  ac_inv : forall a, c (c a) = a }.

Lemma ac_0 c : anti_conj c -> c r0 = r0.
Proof.
  intros H. apply (add_cancel_l (c r0)). rewrite <- (ac_add c H), !add_0_r. reflexivity.
Qed.
Lemma ac_neg c a : anti_conj c -> c (rneg a) = rneg (c a).
Proof. intros H. apply neg_unique. rewrite <- (ac_add c H), add_neg_r. apply ac_0; auto. Qed.
Lemma ac_sgb c b a : anti_conj c -> c (sgb b a) = sgb b (c a).
Proof. intros H. destruct b; simpl; auto. apply ac_neg; auto. Qed.
Lemma ac_act c s a : anti_conj c -> c (act s a) = act s (c a).
Proof. intros H. destruct s; simpl; auto; [apply ac_0; auto|apply ac_neg; auto]. Qed.
Lemma ac_sum c f : anti_conj c -> c (sumI d f) = sumI d (fun i => c (f i)).
Proof.
  intros H. unfold sumI. induction (idxs d) as [|i l IH]; simpl; [apply ac_0; auto|].
  rewrite (ac_add c H), IH. reflexivity.
Qed.
Lemma ac_id {CL : CommLaws T} : anti_conj (fun x => x).
Proof. constructor; auto. intros; apply mul_comm. Qed.

Lemma sgb_act b s (x : T) : sgb b (act s x) = act (sign_mul (of_bool b) s) x.
Proof. rewrite <- act_of_bool, act_mul. reflexivity. Qed.

Lemma frevc_gp c x y k : anti_conj c -> (k < pow2 d)%N ->
  frevc c (gpd x y) k = gpd (frevc c y) (frevc c x) k.
Proof.
  intros Hc Hk. unfold frevc, gp. rewrite (ac_sum c) by auto. rewrite <- sumI_sgb.
  rewrite (sumI_lxor d k) by auto. apply sumI_ext. intros i Hi.
  rewrite lxor_cancel_r, (ac_act c), (ac_mul c) by auto.
  set (j := N.lxor i k). assert (Hj : (j < pow2 d)%N) by (apply lxor_lt; auto).
  rewrite sgb_mul_l, sgb_mul_r, sgb_sgb, sgb_act.
  rewrite <- (act_of_bool (xorb _ _)), act_mul. f_equal.
  assert (Ek : N.lxor j i = k). { unfold j. rewrite N.lxor_comm. apply lxor_cancel. }
  unfold gsign. rewrite (N.land_comm i j). destruct (N.land (N.land j i) P =? 0)%N.
  - rewrite !sign_mul_of_bool. f_equal. rewrite <- Ek.
    pose proof (beta_rev d j i Hj Hi) as R.
    set (rk := rbit (popcount (N.lxor j i))) in *. set (r1' := rbit (popcount i)) in *.
    set (r2' := rbit (popcount j)) in *. set (q := par _).
    destruct rk, r1', r2', q, (beta d j i), (beta d i j); simpl in *; congruence.
  - rewrite sign_mul_null_l, sign_mul_null_r. reflexivity.
Qed.

Lemma frevc_invol c x k : anti_conj c -> frevc c (frevc c x) k = x k.
Proof. intros Hc. unfold frevc. rewrite ac_sgb, (ac_inv c), sgb_invol by auto. reflexivity. Qed.

Lemma frev_gp {CL : CommLaws T} x y k : (k < pow2 d)%N -> frev (gpd x y) k = gpd (frev y) (frev x) k.
Proof. apply (frevc_gp (fun x => x)). apply ac_id. Qed.

Lemma frev_invol (x : N -> T) k : frev (frev x) k = x k.
Proof. apply sgb_invol. Qed.

(** ** Grade involutions *)
Lemma alpham_gp mask x y k : alpham mask (gpd x y) k = gpd (alpham mask x) (alpham mask y) k.
Proof.
  unfold alpham, gp. rewrite <- sumI_sgb. apply sumI_ext. intros i Hi.
  rewrite sgb_mul_l, sgb_mul_r, sgb_sgb. rewrite <- !(act_of_bool (xorb _ _)), <- act_of_bool, !act_mul.
  rewrite sign_mul_comm. f_equal. f_equal. f_equal. rewrite par_land_lxor_l.
  destruct (par (N.land i mask)), (par (N.land k mask)); reflexivity.
Qed.
Lemma alpham_invol mask (x : N -> T) k : alpham mask (alpham mask x) k = x k.
Proof. apply sgb_invol. Qed.
Lemma alpha_alpham (x : N -> T) k : (k < pow2 d)%N -> alpha x k = alpham (ones d) x k.
Proof. intros Hk. unfold alpha, alpham. rewrite land_ones_lt by auto. reflexivity. Qed.
Lemma alpha_gp x y k : (k < pow2 d)%N -> alpha (gpd x y) k = gpd (alpha x) (alpha y) k.
Proof.
  intros Hk. rewrite alpha_alpham, alpham_gp by auto. apply gp_ext; auto;
  intros i Hi; symmetry; apply alpha_alpham; auto.
Qed.
Lemma alpha_invol (x : N -> T) k : alpha (alpha x) k = x k.
Proof. apply sgb_invol. Qed.
End Inv.

(** ** Duality *)
Section Dual.
Context {T : Type} {RO : RingOps T} {W : NumLaws T} {L : RingLaws T}.
Variable A : algebra.
Local Notation d := (a_dim A).

Lemma cpl_lxor k : (k < pow2 d)%N -> N.lxor (cpl A k) k = ones d.
Proof. apply cmpl_lxor. Qed.
Lemma cpl_lxor' k : (k < pow2 d)%N -> cpl A k = N.lxor (ones d) k.
Proof. intros Hk. rewrite <- (cpl_lxor k Hk), lxor_cancel_r. reflexivity. Qed.
Lemma cpl_disj k : N.land (cpl A k) k = 0%N.
Proof. apply cmpl_disj. Qed.

Lemma fdual_fundual (x : N -> T) k : (k < pow2 d)%N -> fdual A (fundual A x) k = x k.
Proof. intros Hk. unfold fdual, fundual. rewrite cpl_invol by auto. apply sgb_invol. Qed.
Lemma fundual_fdual (x : N -> T) k : (k < pow2 d)%N -> fundual A (fdual A x) k = x k.
Proof. intros Hk. unfold fdual, fundual. rewrite cpl_invol by auto. apply sgb_invol. Qed.

Lemma popcount_cpl k : (k < pow2 d)%N -> popcount (cpl A k) = d - popcount k.
Proof.
  intros Hk. pose proof (popcount_lxor (cpl A k) k) as H. rewrite cpl_lxor, cpl_disj in H by auto.
  rewrite popcount_ones in H. change (popcount 0) with 0 in H. lia.
Qed.

Lemma fdual_fdual (x : N -> T) k : (k < pow2 d)%N ->
  fdual A (fdual A x) k = sgb (Nat.odd (popcount k * (d - popcount k))) (x k).
Proof.
  intros Hk. unfold fdual. rewrite cpl_invol, sgb_sgb by auto. f_equal.
  rewrite (beta_comm d (cpl A k) k) by (auto; apply cpl_lt).
  rewrite cpl_disj. change (par 0) with false. rewrite Nat.odd_mul, <- popcount_cpl by auto.
  unfold par. destruct (beta d (cpl A k) k), (Nat.odd (popcount k)), (Nat.odd (popcount (cpl A k))); reflexivity.
Qed.

(** In Euclidean signature the dual is multiplication of the reversal by the pseudoscalar. *)
Lemma fdual_pseudo (x : N -> T) k : (k < pow2 d)%N ->
  fdual A x k = gp d 0 0 (del (ones d) r1) (frev x) k.
Proof.
  intros Hk. rewrite gp_del_l by apply ones_lt. rewrite mul_1_l. rewrite <- cpl_lxor' by auto.
  unfold gsign. rewrite N.land_0_r. simpl. rewrite act_of_bool. unfold frev. rewrite sgb_sgb.
  unfold fdual. f_equal. rewrite xorb_false_r.
  rewrite <- (cpl_lxor (cpl A k)) by apply cpl_lt. rewrite cpl_invol by auto.
  rewrite beta_lxor_l, beta_self by apply cpl_lt. 
  destruct (beta d k (cpl A k)), (rbit (popcount (cpl A k))); reflexivity.
Qed.
End Dual.
