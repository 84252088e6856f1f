(** Signs of blade products: the loop and the table compute the parity of the
    number of inversions, which is bilinear over xor. *)
From Verif Require Export M_Algebra RingDef.
Local Open Scope nat_scope.

(** Number of pairs i < k < n with bit i of a and bit k of b set. *)
Fixpoint inv (n : nat) (a b : N) : nat :=
  match n with
  | O => 0
  | S n => (if N.testbit b (N.of_nat n) then bitsum n a else 0) + inv n a b
  end.

Definition beta (n : nat) (a b : N) : bool := Nat.odd (inv n a b).

Definition of_bool (b : bool) : sign := if b then Minus else Plus.

(** Metric sign of e_a e_b in dimension d, imaginary mask Q, null mask P. *)
Definition gsign (d : nat) (Q P a b : N) : sign :=
  if (N.land (N.land a b) P =? 0)%N
  then of_bool (xorb (beta d a b) (par (N.land (N.land a b) Q)))
  else Null.

Definition wsign (d : nat) (a b : N) : sign :=
  if (N.land a b =? 0)%N then of_bool (beta d a b) else Null.

Definition ones (n : nat) : N := N.ones (N.of_nat n).

Lemma testbit_ones n k : N.testbit (ones n) k = (k <? N.of_nat n)%N.
Proof.
  unfold ones. destruct (N.ltb_spec k (N.of_nat n)).
  - apply N.ones_spec_low; auto.
  - apply N.ones_spec_high; auto.
Qed.

Lemma ones_lt n : (ones n < pow2 n)%N.
Proof. apply lt_pow2_bits. intros k Hk. rewrite testbit_ones. apply N.ltb_ge; auto. Qed.

Lemma ones_pow2 n : ones n = (pow2 n - 1)%N.
Proof. unfold ones. rewrite N.ones_equiv. unfold pow2. lia. Qed.

Lemma ones_add1 n : (ones n + 1)%N = pow2 n.
Proof. rewrite ones_pow2. pose proof (pow2_pos n). lia. Qed.

Lemma land_ones_lt a n : (a < pow2 n)%N -> N.land a (ones n) = a.
Proof.
  intros Ha. apply N.bits_inj. intros k. rewrite N.land_spec, testbit_ones.
  destruct (N.ltb_spec k (N.of_nat n)); [apply andb_true_r|].
  rewrite (testbit_high a n); auto.
Qed.

Lemma popcount_ones n : popcount (ones n) = n.
Proof.
  rewrite (popcount_bitsum n) by apply ones_lt.
  assert (G : forall m, m <= n -> bitsum m (ones n) = m).
  { induction m as [|m IH]; intros Hm; simpl; [reflexivity|].
    rewrite testbit_ones. replace (N.of_nat m <? N.of_nat n)%N with true.
    - simpl. rewrite IH; lia.
    - symmetry. apply N.ltb_lt. lia. }
  apply G. lia.
Qed.

(** ** Parities are linear *)

Lemma odd_bitsum_lxor n a b :
  Nat.odd (bitsum n (N.lxor a b)) = xorb (Nat.odd (bitsum n a)) (Nat.odd (bitsum n b)).
Proof.
  pose proof (bitsum_lxor n a b) as H.
  rewrite <- Nat.odd_add, <- H, Nat.odd_add, Nat.odd_mul. simpl.
  rewrite xorb_false_r. reflexivity.
Qed.

Lemma beta_S n a b :
  beta (S n) a b = xorb (N.testbit b (N.of_nat n) && Nat.odd (bitsum n a)) (beta n a b).
Proof.
  unfold beta. simpl. rewrite Nat.odd_add. destruct (N.testbit b (N.of_nat n)); reflexivity.
Qed.

Lemma beta_lxor_l n a a' b : beta n (N.lxor a a') b = xorb (beta n a b) (beta n a' b).
Proof.
  induction n as [|n IH]; [reflexivity|].
  rewrite !beta_S, IH, odd_bitsum_lxor.
  destruct (N.testbit b (N.of_nat n)), (Nat.odd (bitsum n a)), (Nat.odd (bitsum n a')),
    (beta n a b), (beta n a' b); reflexivity.
Qed.

Lemma beta_lxor_r n a b b' : beta n a (N.lxor b b') = xorb (beta n a b) (beta n a b').
Proof.
  induction n as [|n IH]; [reflexivity|].
  rewrite !beta_S, IH, N.lxor_spec.
  destruct (N.testbit b (N.of_nat n)), (N.testbit b' (N.of_nat n)), (Nat.odd (bitsum n a)),
    (beta n a b), (beta n a b'); reflexivity.
Qed.

Lemma beta_0_l n b : beta n 0 b = false.
Proof. pose proof (beta_lxor_l n 0 0 b) as H. simpl in H. rewrite H. apply xorb_nilpotent. Qed.

Lemma beta_0_r n a : beta n a 0 = false.
Proof. pose proof (beta_lxor_r n a 0 0) as H. simpl in H. rewrite H. apply xorb_nilpotent. Qed.

Lemma par_land_lxor_l a a' b : par (N.land (N.lxor a a') b) = xorb (par (N.land a b)) (par (N.land a' b)).
Proof.
  rewrite <- par_lxor. f_equal. apply N.bits_inj. intros k.
  rewrite !N.lxor_spec, !N.land_spec, N.lxor_spec.
  destruct (N.testbit a k), (N.testbit a' k), (N.testbit b k); reflexivity.
Qed.

Lemma par_land_lxor_r a b b' : par (N.land a (N.lxor b b')) = xorb (par (N.land a b)) (par (N.land a b')).
Proof. rewrite N.land_comm, par_land_lxor_l, !(N.land_comm a). reflexivity. Qed.

Lemma bitsum_low n a : (a < pow2 n)%N ->
  bitsum n (pow2 n + a) = bitsum n a.
Proof.
  intros Ha. apply bitsum_ext. intros k Hk. rewrite testbit_add_pow2 by assumption.
  destruct (N.eqb_spec k (N.of_nat n)); [lia|reflexivity].
Qed.

Lemma inv_ext_l n a a' b : (forall k, (k < N.of_nat n)%N -> N.testbit a k = N.testbit a' k) ->
  inv n a b = inv n a' b.
Proof.
  induction n as [|n IH]; intros H; simpl; [reflexivity|].
  rewrite IH by (intros; apply H; lia).
  rewrite (bitsum_ext n a a') by (intros; apply H; lia). reflexivity.
Qed.

Lemma inv_ext_r n a b b' : (forall k, (k < N.of_nat n)%N -> N.testbit b k = N.testbit b' k) ->
  inv n a b = inv n a b'.
Proof.
  induction n as [|n IH]; intros H; simpl; [reflexivity|].
  rewrite IH by (intros; apply H; lia). rewrite H by lia. reflexivity.
Qed.

(** The four halves when the dimension grows by one generator. *)
Lemma beta_S_00 n a b : (b < pow2 n)%N -> beta (S n) a b = beta n a b.
Proof. intros Hb. rewrite beta_S, (testbit_high b n) by (auto; lia). destruct (beta n a b); reflexivity. Qed.

Lemma beta_top_l n a b : (a < pow2 n)%N -> beta n (pow2 n + a) b = beta n a b.
Proof.
  intros Ha. unfold beta. f_equal. apply inv_ext_l. intros k Hk.
  rewrite testbit_add_pow2 by assumption. destruct (N.eqb_spec k (N.of_nat n)); [lia|reflexivity].
Qed.
Lemma beta_top_r n a b : (b < pow2 n)%N -> beta n a (pow2 n + b) = beta n a b.
Proof.
  intros Ha. unfold beta. f_equal. apply inv_ext_r. intros k Hk.
  rewrite testbit_add_pow2 by assumption. destruct (N.eqb_spec k (N.of_nat n)); [lia|reflexivity].
Qed.

Lemma beta_S_10 n a b : (a < pow2 n)%N -> (b < pow2 n)%N -> beta (S n) (pow2 n + a) b = beta n a b.
Proof. intros Ha Hb. rewrite beta_S_00, beta_top_l; auto. Qed.

Lemma beta_S_01 n a b : (a < pow2 n)%N -> (b < pow2 n)%N ->
  beta (S n) a (pow2 n + b) = xorb (par a) (beta n a b).
Proof.
  intros Ha Hb. rewrite beta_S, testbit_add_pow2, N.eqb_refl, beta_top_r by auto.
  unfold par. rewrite (popcount_bitsum n a) by auto. reflexivity.
Qed.

Lemma beta_S_11 n a b : (a < pow2 n)%N -> (b < pow2 n)%N ->
  beta (S n) (pow2 n + a) (pow2 n + b) = xorb (par a) (beta n a b).
Proof.
  intros Ha Hb. rewrite beta_S, testbit_add_pow2, N.eqb_refl, beta_top_r, beta_top_l by auto.
  rewrite bitsum_low by auto. unfold par. rewrite (popcount_bitsum n a) by auto. reflexivity.
Qed.

(** ** The loop computes the inversion parity *)

Lemma bitsum_land_shift_out d a b : bitsum d (N.land (N.shiftl a (N.of_nat d)) b) = 0.
Proof.
  assert (G : forall n, n <= d -> bitsum n (N.land (N.shiftl a (N.of_nat d)) b) = 0).
  { induction n as [|n IH]; intros Hn; simpl; [reflexivity|].
    rewrite N.land_spec, N.shiftl_spec_low by lia. simpl. apply IH. lia. }
  apply G. lia.
Qed.

Definition nsum (l : list nat) : nat := fold_right Nat.add 0 l.

Lemma nsum_app l r : nsum (l ++ r) = nsum l + nsum r.
Proof. induction l as [|x xs IH]; simpl; lia. Qed.

Lemma nsum_ext (f g : nat -> nat) l : (forall x, In x l -> f x = g x) -> nsum (map f l) = nsum (map g l).
Proof.
  induction l as [|x xs IH]; intros H; simpl; [reflexivity|].
  rewrite H, IH; simpl; auto. intros; apply H; simpl; auto.
Qed.

Lemma nsum_add (f g : nat -> nat) l : nsum (map (fun x => f x + g x) l) = nsum (map f l) + nsum (map g l).
Proof. induction l as [|x xs IH]; simpl; lia. Qed.

Lemma sum_shift_bit d a : nsum (map (fun s => Nat.b2n (N.testbit a (N.of_nat (d - s)))) (seq 1 d)) = bitsum d a.
Proof.
  induction d as [|d IH]; [reflexivity|].
  simpl seq. simpl map. simpl nsum. rewrite Nat.sub_0_r. simpl bitsum. f_equal.
  rewrite <- IH. rewrite <- seq_shift, map_map. f_equal.
Qed.

Lemma loop_inv d a b :
  nsum (map (fun s => bitsum d (N.land (N.shiftl a (N.of_nat s)) b)) (seq 1 (d - 1))) = inv d a b.
Proof.
  induction d as [|d IH]; [reflexivity|].
  simpl. rewrite Nat.sub_0_r, nsum_add. f_equal.
  - destruct (N.testbit b (N.of_nat d)) eqn:E.
    + rewrite <- sum_shift_bit. apply nsum_ext. intros s Hs. apply in_seq in Hs.
      rewrite N.land_spec, N.shiftl_spec_high' by lia. rewrite E, andb_true_r.
      do 2 f_equal. lia.
    + assert (G : forall l, nsum (map (fun s => Nat.b2n (N.testbit (N.land (N.shiftl a (N.of_nat s)) b) (N.of_nat d))) l) = 0).
      { induction l as [|x xs IHl]; simpl; [reflexivity|].
        rewrite N.land_spec, E, andb_false_r. simpl. exact IHl. }
      apply G.
  - rewrite <- IH. destruct d as [|d]; [reflexivity|].
    rewrite (seq_S d 1), map_app, nsum_app. replace (S d - 1) with d by lia.
    rewrite <- (Nat.add_0_r (nsum (map _ (seq 1 d)))) at 2. f_equal.
    cbn [map]. unfold nsum. cbn [fold_right].
    change (1 + d) with (S d). rewrite bitsum_land_shift_out. reflexivity.
Qed.

Lemma nsum_rev l : nsum (rev l) = nsum l.
Proof. induction l as [|x xs IH]; simpl; [reflexivity|]. rewrite nsum_app, IH. simpl. lia. Qed.

Section Loop.
Context {m : Mode}.

Lemma land_shl_mod a b s d : d <= 64 -> (b < pow2 d)%N ->
  N.land (N.modulo (N.shiftl a (N.of_nat s)) (pow2 64)) b = N.land (N.shiftl a (N.of_nat s)) b.
Proof.
  intros Hd Hb. apply N.bits_inj. intros k. rewrite !N.land_spec.
  destruct (N.lt_ge_cases k (N.of_nat d)) as [L|L].
  - unfold pow2. rewrite N.mod_pow2_bits_low by lia. reflexivity.
  - rewrite (testbit_high b d k) by auto. rewrite !andb_false_r. reflexivity.
Qed.

Lemma loop_sign d a b : d <= 64 -> (a < pow2 d)%N -> (b < pow2 d)%N ->
  ac_product_sign_loop d a b = Ok (of_bool (beta d a b)).
Proof.
  intros Hd Ha Hb. unfold ac_product_sign_loop.
  assert (G : forall l t, (forall s, In s l -> s < 64) ->
    foldM (fun t s => sh <- shl a s ;; Ok (t + popcount (N.land sh b))) l t
    = Ok (t + nsum (map (fun s => bitsum d (N.land (N.shiftl a (N.of_nat s)) b)) l))).
  { induction l as [|s l IH]; intros t Hl; simpl; [rewrite Nat.add_0_r; reflexivity|].
    unfold shl. replace (Nat.ltb s 64) with true
      by (symmetry; apply Nat.ltb_lt; apply Hl; simpl; auto). simpl.
    rewrite IH by (intros; apply Hl; simpl; auto).
    rewrite (land_shl_mod a b s d), (popcount_bitsum d); auto using land_lt_r.
    f_equal. lia. }
  rewrite G.
  - simpl. rewrite map_rev, nsum_rev, loop_inv. unfold beta.
    rewrite <- Nat.negb_odd. destruct (Nat.odd (inv d a b)); reflexivity.
  - intros s Hs. apply in_rev in Hs. apply in_seq in Hs. lia.
Qed.

(** ** The table agrees with the loop *)

Definition table_check (d : nat) : bool :=
  forallb (fun a => forallb (fun b =>
    match nthr AC_PRODUCT_SIGNS d with
    | Ok row =>
      match nthr row (N.to_nat a) with
      | Ok w => ((a <? 64)%N && (b <? 64)%N && Bool.eqb (negb (N.land (N.shiftr w b) 1 =? 0)%N) (beta d a b))%bool
      | _ => false
      end
    | _ => false
    end) (idxs d)) (idxs d).

Lemma table_ok : forallb table_check (seq 0 7) = true.
Proof. vm_compute. reflexivity. Qed.

Lemma table_lookup d a b : d <= 6 -> (a < pow2 d)%N -> (b < pow2 d)%N ->
  exists row w, nthr AC_PRODUCT_SIGNS d = Ok row /\ nthr row (N.to_nat a) = Ok w
    /\ (a < 64)%N /\ (b < 64)%N
    /\ (N.land (N.shiftr w b) 1 =? 0)%N = negb (beta d a b).
Proof.
  intros Hd Ha Hb.
  pose proof (proj1 (forallb_forall _ _) table_ok d) as H.
  specialize (H (proj2 (in_seq 7 0 d) ltac:(lia))). unfold table_check in H.
  pose proof (proj1 (forallb_forall _ _) H a (proj2 (in_idxs d a) Ha)) as H1. cbv beta in H1.
  pose proof (proj1 (forallb_forall _ _) H1 b (proj2 (in_idxs d b) Hb)) as H2. cbv beta in H2.
  destruct (nthr AC_PRODUCT_SIGNS d) as [row| |]; try discriminate.
  destruct (nthr row (N.to_nat a)) as [w| |] eqn:E; try discriminate.
  apply andb_true_iff in H2. destruct H2 as [H2 H3]. apply andb_true_iff in H2. destruct H2 as [H2 H4].
  exists row, w. repeat split; auto.
  - apply N.ltb_lt; auto.
  - apply N.ltb_lt; auto.
  - apply eqb_prop in H3. rewrite <- H3. rewrite negb_involutive. reflexivity.
Qed.

Lemma ac_sign_ok A a b : a_dim A <= 64 -> (a < pow2 (a_dim A))%N -> (b < pow2 (a_dim A))%N ->
  ac_product_sign A a b = Ok (of_bool (beta (a_dim A) a b)).
Proof.
  intros Hd Ha Hb. unfold ac_product_sign. destruct (Nat.leb_spec (a_dim A) 6) as [L|L].
  - destruct (table_lookup (a_dim A) a b L Ha Hb) as (row & w & -> & E & H1 & H2 & H3).
    simpl. apply N.ltb_lt in H1. rewrite H1, E. simpl. unfold shr. apply N.ltb_lt in H2. rewrite H2.
    simpl. rewrite H3. destruct (beta (a_dim A) a b); reflexivity.
  - apply loop_sign; auto.
Qed.

Lemma ac_neg_sign_ok A a b : a_dim A <= 64 -> (a < pow2 (a_dim A))%N -> (b < pow2 (a_dim A))%N ->
  ac_negated_product_sign A a b = Ok (of_bool (negb (beta (a_dim A) a b))).
Proof.
  intros Hd Ha Hb. unfold ac_negated_product_sign. destruct (Nat.leb_spec (a_dim A) 6) as [L|L].
  - destruct (table_lookup (a_dim A) a b L Ha Hb) as (row & w & -> & E & H1 & H2 & H3).
    simpl. apply N.ltb_lt in H1. rewrite H1, E. simpl. unfold shr. apply N.ltb_lt in H2. rewrite H2.
    simpl. rewrite H3. destruct (beta (a_dim A) a b); reflexivity.
  - rewrite loop_sign by auto. simpl. destruct (beta (a_dim A) a b); reflexivity.
Qed.

Lemma wedge_sign_ok A a b : a_dim A <= 64 -> (a < pow2 (a_dim A))%N -> (b < pow2 (a_dim A))%N ->
  blade_wedge_product_sign A a b = Ok (wsign (a_dim A) a b).
Proof.
  intros Hd Ha Hb. unfold blade_wedge_product_sign, wsign.
  destruct (N.land a b =? 0)%N; simpl; [apply ac_sign_ok; auto|reflexivity].
Qed.

Lemma geo_sign_ok A a b : a_dim A <= 64 -> (a < pow2 (a_dim A))%N -> (b < pow2 (a_dim A))%N ->
  blade_geo_product_sign A a b = Ok (gsign (a_dim A) (a_imag A) (a_proj A) a b).
Proof.
  intros Hd Ha Hb. unfold blade_geo_product_sign, gsign.
  destruct (N.land (N.land a b) (a_proj A) =? 0)%N; simpl; [|reflexivity].
  unfold par. rewrite <- Nat.negb_odd.
  destruct (Nat.odd (popcount (N.land (N.land a b) (a_imag A)))); simpl.
  - rewrite ac_neg_sign_ok by auto. rewrite xorb_true_r. reflexivity.
  - rewrite ac_sign_ok by auto. rewrite xorb_false_r. reflexivity.
Qed.
End Loop.

(** ** Cocycle *)

Lemma sign_mul_of_bool a b : sign_mul (of_bool a) (of_bool b) = of_bool (xorb a b).
Proof. destruct a, b; reflexivity. Qed.
Lemma sign_mul_null_l s : sign_mul Null s = Null.
Proof. destruct s; reflexivity. Qed.
Lemma sign_mul_null_r s : sign_mul s Null = Null.
Proof. destruct s; reflexivity. Qed.
Lemma sign_mul_plus_l s : sign_mul Plus s = s.
Proof. destruct s; reflexivity. Qed.
Lemma sign_mul_plus_r s : sign_mul s Plus = s.
Proof. destruct s; reflexivity. Qed.
Lemma sign_mul_comm a b : sign_mul a b = sign_mul b a.
Proof. destruct a, b; reflexivity. Qed.
Lemma sign_mul_assoc a b c : sign_mul a (sign_mul b c) = sign_mul (sign_mul a b) c.
Proof. destruct a, b, c; reflexivity. Qed.

Lemma nul_cocycle P a b c :
  ((N.land (N.land a b) P =? 0) && (N.land (N.land (N.lxor a b) c) P =? 0))%bool%N =
  ((N.land (N.land b c) P =? 0) && (N.land (N.land a (N.lxor b c)) P =? 0))%bool%N.
Proof.
  apply eq_true_iff_eq. rewrite !andb_true_iff, !N.eqb_eq.
  split; intros [H1 H2]; split; apply N.bits_inj_0; intros k;
  apply (f_equal (fun z => N.testbit z k)) in H1; apply (f_equal (fun z => N.testbit z k)) in H2;
  rewrite ?N.bits_0, ?N.land_spec, ?N.lxor_spec in *;
  destruct (N.testbit a k), (N.testbit b k), (N.testbit c k), (N.testbit P k); simpl in *; congruence.
Qed.

Definition qpar (Q a b : N) : bool := par (N.land (N.land a b) Q).

Lemma qpar_lxor_l Q a a' b : qpar Q (N.lxor a a') b = xorb (qpar Q a b) (qpar Q a' b).
Proof.
  unfold qpar. rewrite <- !N.land_assoc. apply par_land_lxor_l.
Qed.
Lemma qpar_comm Q a b : qpar Q a b = qpar Q b a.
Proof. unfold qpar. rewrite (N.land_comm a b). reflexivity. Qed.
Lemma qpar_lxor_r Q a b b' : qpar Q a (N.lxor b b') = xorb (qpar Q a b) (qpar Q a b').
Proof. rewrite !(qpar_comm Q a). apply qpar_lxor_l. Qed.

Lemma gsign_cocycle d Q P a b c :
  sign_mul (gsign d Q P a b) (gsign d Q P (N.lxor a b) c)
  = sign_mul (gsign d Q P b c) (gsign d Q P a (N.lxor b c)).
Proof.
  unfold gsign. pose proof (nul_cocycle P a b c) as H.
  destruct (N.land (N.land a b) P =? 0)%N, (N.land (N.land (N.lxor a b) c) P =? 0)%N,
    (N.land (N.land b c) P =? 0)%N, (N.land (N.land a (N.lxor b c)) P =? 0)%N;
    simpl in H; try discriminate; rewrite ?sign_mul_null_l, ?sign_mul_null_r; auto.
  rewrite !sign_mul_of_bool. f_equal.
  fold (qpar Q a b) (qpar Q b c) (qpar Q (N.lxor a b) c) (qpar Q a (N.lxor b c)).
  rewrite beta_lxor_l, beta_lxor_r, qpar_lxor_l, qpar_lxor_r.
  destruct (beta d a b), (beta d a c), (beta d b c), (qpar Q a b), (qpar Q a c), (qpar Q b c);
    reflexivity.
Qed.

Lemma gsign_0_l d Q P b : gsign d Q P 0 b = Plus.
Proof. unfold gsign. simpl. rewrite beta_0_l. reflexivity. Qed.
Lemma gsign_0_r d Q P a : gsign d Q P a 0 = Plus.
Proof. unfold gsign. rewrite N.land_0_r. simpl. rewrite beta_0_r. reflexivity. Qed.

(** The wedge sign is the product sign of the fully degenerate metric. *)
Lemma wsign_gsign d Q a b : (a < pow2 d)%N -> wsign d a b = gsign d Q (ones d) a b.
Proof.
  intros Ha. unfold wsign, gsign. rewrite (land_ones_lt (N.land a b)) by (apply land_lt_l; auto).
  destruct (N.eqb_spec (N.land a b) 0) as [->|]; [|reflexivity].
  rewrite xorb_false_r. reflexivity.
Qed.
