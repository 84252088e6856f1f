(** Lemmas behind the algebra properties (C01 - C06). *)
From Verif Require Export P_Inv.
From Coq Require Import Sorting.Sorted.
Local Open Scope nat_scope.

Lemma declare_metric sg names A : declare_algebra sg names = Some A ->
  metric (sq sg) (a_dim A) (a_imag A) (a_proj A).
Proof.
  intros E i Hi. apply declare_inv in E. destruct E as (_ & _ & Ed & _ & Ei & Ep & _).
  rewrite Ei, Ep, minus_bits, null_bits. unfold tok_at, sq.
  destruct (nth_error sg i) as [[| |]|] eqn:E; auto. apply nth_error_None in E. lia.
Qed.

Lemma sq_out sg i : length sg <= i -> sq sg i = 0%Z.
Proof. intros H. unfold sq. apply nth_error_None in H. rewrite H. reflexivity. Qed.

Lemma tok_at_spec sg n t : tok_at sg n t = true <-> nth_error sg n = Some t.
Proof.
  unfold tok_at. destruct (nth_error sg n) as [u|]; [|split; discriminate].
  destruct t, u; simpl; split; congruence.
Qed.

Lemma masks_thm {m : Mode} sg names A : declare_algebra sg names = Some A ->
  a_dim A = length sg /\
  (forall n, (N.testbit (a_real A) (N.of_nat n) = true <-> nth_error sg n = Some Tplus) /\
             (N.testbit (a_imag A) (N.of_nat n) = true <-> nth_error sg n = Some Tminus) /\
             (N.testbit (a_proj A) (N.of_nat n) = true <-> nth_error sg n = Some Tnull)) /\
  N.land (a_real A) (a_imag A) = 0%N /\ N.land (a_real A) (a_proj A) = 0%N /\ N.land (a_imag A) (a_proj A) = 0%N /\
  (N.lor (N.lor (a_real A) (a_imag A)) (a_proj A) + 1 = 2 ^ N.of_nat (length sg))%N /\
  signature A = Ok (map (sq sg) (seq 0 (length sg))) /\
  a_real_dim A = length (filter (fun t => match t with Tplus => true | _ => false end) sg) /\
  a_imag_dim A = length (filter (fun t => match t with Tminus => true | _ => false end) sg) /\
  a_proj_dim A = length (filter (fun t => match t with Tnull => true | _ => false end) sg).
Proof.
  intros E. pose proof (declare_inv _ _ _ E) as (_ & Hl & Ed & Er & Ei & Ep & E1 & E2 & E3).
  destruct (masks_disj sg) as (H1 & H2 & H3).
  split; [auto|]. split.
  { intros n. rewrite Er, Ei, Ep, plus_bits, minus_bits, null_bits, !tok_at_spec. tauto. }
  rewrite Er, Ei, Ep. do 3 (split; [auto|]). split; [rewrite masks_cover; apply ones_add1|].
  split.
  { unfold signature. rewrite Ed. apply mapM_Ok. intros n Hn. apply in_seq in Hn.
    rewrite !has_bit_ok by lia. simpl. rewrite Er, Ei, plus_bits, minus_bits. unfold tok_at, sq.
    destruct (nth_error sg n) as [[| |]|]; reflexivity. }
  rewrite E1, E2, E3.
  assert (G : forall t sg, popcount (mask_from t 0 sg) = length (filter (is_tok t) sg)).
  { intros t s0.
    assert (B : (mask_from t 0 s0 < pow2 (length s0))%N).
    { apply lt_pow2_bits. intros k Hk. rewrite <- (N2Nat.id k), mask_bits. apply tok_at_len. lia. }
    rewrite (popcount_bitsum _ _ B).
    assert (G2 : forall l, bitsum (length s0 - l) (mask_from t 0 s0) = length (filter (is_tok t) (firstn (length s0 - l) s0))).
    { intros l. remember (length s0 - l) as k eqn:Ek. assert (Hk : k <= length s0) by lia. clear Ek B.
      induction k as [|k IH]; [reflexivity|]. cbn [bitsum]. rewrite IH, mask_bits by lia.
      destruct (tok_at_split s0 k) as (u & Hu & Ht); [lia|]. rewrite Ht.
      assert (F : firstn (S k) s0 = firstn k s0 ++ [u]).
      { clear -Hu. revert s0 Hu. induction k as [|k IH]; intros [|v s] Hu; try discriminate; simpl in *.
        - congruence.
        - f_equal. apply IH. auto. }
      rewrite F, filter_app, app_length. simpl. destruct (is_tok t u); simpl; lia. }
    specialize (G2 0). rewrite Nat.sub_0_r in G2. rewrite firstn_all in G2. exact G2. }
  unfold produce_mask_plus, produce_mask_minus, produce_mask_null.
  rewrite plus_from, minus_from, null_from, !G.
  repeat split; f_equal; apply filter_ext; intros []; reflexivity.
Qed.

Lemma geo_thm {m : Mode} sg names A a b : declare_algebra sg names = Some A ->
  (a < 2 ^ N.of_nat (length sg))%N -> (b < 2 ^ N.of_nat (length sg))%N ->
  exists s, blade_geo_product_sign A a b = Ok s /\
    cl_eq (sq sg) (1%Z, gens (length sg) a ++ gens (length sg) b) (sign_i8 s, gens (length sg) (N.lxor a b)) /\
    forall t c, (c < 2 ^ N.of_nat (length sg))%N ->
      cl_eq (sq sg) (1%Z, gens (length sg) a ++ gens (length sg) b) (t, gens (length sg) c) ->
      t = sign_i8 s /\ (t = 0%Z \/ c = N.lxor a b).
Proof.
  intros E Ha Hb. pose proof (declare_metric _ _ _ E) as Hq.
  pose proof (declare_inv _ _ _ E) as (_ & Hl & Ed & _). rewrite <- Ed in *.
  exists (gsign (a_dim A) (a_imag A) (a_proj A) a b). split; [apply geo_sign_ok; auto; lia|].
  assert (R : cl_eq (sq sg) (1%Z, gens (a_dim A) a ++ gens (a_dim A) b)
     (sign_i8 (gsign (a_dim A) (a_imag A) (a_proj A) a b), gens (a_dim A) (N.lxor a b))).
  { pose proof (reduce_sound (sq sg) (gens (a_dim A) a ++ gens (a_dim A) b)) as R.
    rewrite (reduce_product _ _ _ _ _ _ Hq) in R; auto. }
  split; auto. intros t c Hc Ht.
  assert (R2 := cl_trans _ _ _ _ (cl_sym _ _ _ R) Ht).
  apply (cl_unique (sq sg) (a_dim A) (a_imag A) (a_proj A) Hq) in R2; auto using lxor_lt.
  - destruct R2 as [(E1 & E2)|(E1 & E2)]; subst; rewrite ?E1, ?E2; auto.
  - intros i Hi. apply sq_out. lia.
Qed.

Lemma insert_indep q q' i w : ~ In i w -> insert_gen q i w = insert_gen q' i w.
Proof.
  induction w as [|j r IH]; intros Hn; [reflexivity|]. cbn [insert_gen].
  destruct (Nat.ltb j i); auto. destruct (Nat.eqb_spec i j) as [->|Hne]; [exfalso; apply Hn; left; auto|].
  rewrite IH; auto. intros Hi. apply Hn. right; auto.
Qed.
Lemma insert_incl q i w x : In x (snd (insert_gen q i w)) -> x = i \/ In x w.
Proof.
  induction w as [|j r IH]; cbn [insert_gen].
  - simpl. intuition.
  - destruct (Nat.ltb j i); [simpl; intuition|]. destruct (Nat.eqb i j); [simpl; intuition|].
    destruct (insert_gen q i r) as [s w']. simpl in *. intuition.
Qed.
Lemma reduce_incl q w x : In x (snd (reduce q w)) -> In x w.
Proof.
  revert x. induction w as [|i r IH]; intros x; cbn [reduce]; [simpl; auto|].
  destruct (reduce q r) as [s w']. pose proof (insert_incl q i w' x) as H.
  destruct (insert_gen q i w') as [t w'']. simpl in *. intros Hx. destruct (H Hx); auto.
Qed.
Lemma reduce_indep q q' w : NoDup w -> reduce q w = reduce q' w.
Proof.
  induction 1 as [|i r Hn HN IH]; [reflexivity|]. cbn [reduce]. rewrite <- IH.
  pose proof (reduce_incl q r i) as Hi. destruct (reduce q r) as [s w']. simpl in Hi.
  rewrite (insert_indep q q'); auto.
Qed.

Lemma NoDup_gens n a : NoDup (gens n a).
Proof. apply NoDup_filter, NoDup_rev, seq_NoDup. Qed.

Lemma NoDup_app_disj {X} (u v : list X) : NoDup u -> NoDup v -> (forall x, In x u -> ~ In x v) -> NoDup (u ++ v).
Proof.
  intros Hu Hv Hd. induction u as [|x xs IH]; simpl; auto.
  inversion Hu; subst. constructor.
  - rewrite in_app_iff. intros [|]; [contradiction|]. apply (Hd x); simpl; auto.
  - apply IH; auto. intros y Hy. apply Hd. simpl; auto.
Qed.

Lemma land_gens n a b : (a < pow2 n)%N -> (N.land a b = 0%N <-> forall i, In i (gens n a) -> ~ In i (gens n b)).
Proof.
  intros Ha. split.
  - intros H i Hi Hj. apply in_gens in Hi, Hj. destruct Hi as [Hi Ei], Hj as [_ Ej].
    assert (X : N.testbit (N.land a b) (N.of_nat i) = true) by (rewrite N.land_spec, Ei, Ej; auto).
    rewrite H, N.bits_0 in X. discriminate.
  - intros H. apply N.bits_inj_0. intros k. rewrite N.land_spec.
    destruct (N.testbit a k) eqn:Ea; [|reflexivity]. destruct (N.testbit b k) eqn:Eb; [|reflexivity].
    exfalso. assert (Hk : (k < N.of_nat n)%N).
    { destruct (N.lt_ge_cases k (N.of_nat n)); auto. rewrite (testbit_high a n) in Ea by auto. discriminate. }
    apply (H (N.to_nat k)); apply in_gens; rewrite N2Nat.id; split; auto; lia.
Qed.

Lemma wedge_thm {m : Mode} sg names A a b : declare_algebra sg names = Some A ->
  (a < 2 ^ N.of_nat (length sg))%N -> (b < 2 ^ N.of_nat (length sg))%N ->
  exists s, blade_wedge_product_sign A a b = Ok s /\
    (s = Null <-> exists i, In i (gens (length sg) a) /\ In i (gens (length sg) b)) /\
    (s <> Null -> forall q, reduce q (gens (length sg) a ++ gens (length sg) b)
                            = (sign_i8 s, gens (length sg) (N.lxor a b))).
Proof.
  intros E Ha Hb. pose proof (declare_inv _ _ _ E) as (_ & Hl & Ed & _). rewrite <- Ed in *.
  exists (wsign (a_dim A) a b). split; [apply wedge_sign_ok; auto; lia|].
  pose proof (land_gens (a_dim A) a b Ha) as HD. unfold wsign.
  destruct (N.eqb_spec (N.land a b) 0) as [H0|H0].
  - split.
    + split; [destruct (beta (a_dim A) a b); discriminate|]. intros (i & Hi & Hj).
      exfalso. apply (proj1 HD H0 i); auto.
    + intros _ q. rewrite (reduce_indep q q0).
      * rewrite (reduce_product _ _ _ _ _ _ (metric_q0 (a_dim A))) by auto. unfold zsign.
        rewrite <- wsign_gsign by auto. unfold wsign. rewrite H0. reflexivity.
      * apply NoDup_app_disj; auto using NoDup_gens. apply HD; auto.
  - split; [|congruence]. split; [intros _|auto].
    destruct (existsb (fun i => existsb (Nat.eqb i) (gens (a_dim A) b)) (gens (a_dim A) a)) eqn:X.
    + apply existsb_exists in X. destruct X as (i & Hi & Hj). apply existsb_exists in Hj.
      destruct Hj as (j & Hj & Eq). apply Nat.eqb_eq in Eq. subst. eauto.
    + exfalso. apply H0, HD. intros i Hi Hj.
      assert (existsb (fun i => existsb (Nat.eqb i) (gens (a_dim A) b)) (gens (a_dim A) a) = true); [|congruence].
      apply existsb_exists. exists i. split; auto. apply existsb_exists. exists i. split; auto. apply Nat.eqb_refl.
Qed.

Definition opposite (s : sign) : sign := match s with Plus => Minus | Minus => Plus | Null => Null end.

Lemma table_thm {m : Mode} A a b : a_dim A <= 64 -> (a < 2 ^ N.of_nat (a_dim A))%N -> (b < 2 ^ N.of_nat (a_dim A))%N ->
  exists s, ac_product_sign A a b = Ok s /\ ac_product_sign_loop (a_dim A) a b = Ok s /\
    ac_negated_product_sign A a b = Ok (opposite s) /\ s <> Null.
Proof.
  intros Hd Ha Hb. exists (of_bool (beta (a_dim A) a b)). split; [apply ac_sign_ok; auto|].
  split; [apply loop_sign; auto|]. rewrite ac_neg_sign_ok by auto.
  split; destruct (beta (a_dim A) a b); try reflexivity; discriminate.
Qed.

Lemma length_gens n x : length (gens n x) = bitsum n x.
Proof. induction n as [|n IH]; [reflexivity|]. rewrite gens_S. cbn [bitsum]. destruct (N.testbit x (N.of_nat n)); simpl; lia. Qed.

Lemma nexts_ok {m : Mode} n : forall w pos sub l, yields w pos sub l -> (pos < 64)%Z ->
  nexts n (GIter w pos sub) = Ok (firstn n (map Some l ++ repeat None n)).
Proof.
  induction n as [|n IH]; intros w pos sub l HY Hp; [reflexivity|].
  destruct (gi_next_ok w pos sub l HY Hp) as (p1 & s1 & E & HY1 & H1).
  cbn [nexts]. rewrite E. cbn [bind fst snd]. rewrite (IH _ _ _ _ HY1) by lia. cbn [bind].
  destruct l as [|x l]; cbn [hd_error tl map app]; simpl; [reflexivity|]. do 2 f_equal.
  rewrite repeat_cons, app_assoc, (firstn_app n (map Some l ++ repeat None n) [None]).
  replace (n - length (map Some l ++ repeat None n)) with 0; [rewrite firstn_O, app_nil_r; reflexivity|].
  rewrite app_length, repeat_length. lia.
Qed.

Lemma grade_thm {m : Mode} d k : d <= 64 ->
  exists l, grade_iter_list d k = Ok l /\
    StronglySorted (fun x y => (y < x)%N) l /\
    (forall x, In x l <-> (x < 2 ^ N.of_nat d)%N /\ length (gens d x) = k) /\
    (forall n, nexts n (grade_iter d k) = Ok (firstn n (map Some l ++ repeat None n))).
Proof.
  intros Hd. exists (glist d k). split; [apply grade_iter_list_eq; auto|].
  split; [apply glist_sorted|]. split.
  - intros x. rewrite glist_spec, length_gens. split; intros [H1 H2]; split; auto.
    + rewrite <- popcount_bitsum; auto.
    + rewrite popcount_bitsum with (n := d); auto.
  - intros n. apply nexts_ok; [apply yields_fresh|lia].
Qed.

Lemma alternating_concat k : alternating k = concat (repeat [Tplus; Tminus] k).
Proof. induction k as [|k IH]; simpl; congruence. Qed.

Lemma traits_thm sg :
  (impl_split_signature sg = true <-> exists k, k <> 0 /\ sg = concat (repeat [Tplus; Tminus] k)) /\
  (impl_non_degenerate sg = true <-> sg <> [] /\ ~ In Tnull sg) /\
  (forall n, impl_pga sg = Some n <-> n <> 0 /\ sg = repeat Tplus n ++ [Tnull]) /\
  (snd (impl_complex_or_quaternionic sg) = true <-> sg = [Tminus] \/ sg = [Tminus; Tminus]) /\
  (fst (fst (impl_complex_or_quaternionic sg)) = true <-> sg = [Tminus]) /\
  (snd (fst (impl_complex_or_quaternionic sg)) = true <-> sg = [Tminus; Tminus]).
Proof.
  split; [|split; [apply nondeg_spec|split; [apply pga_spec|split; [apply division_spec|]]]].
  - rewrite split_spec. split; intros (k & H1 & H2); exists k; split; auto; rewrite H2;
      [|symmetry]; apply alternating_concat.
  - split; destruct sg as [|[| |] [|[| |] [|u sg]]]; simpl; split; congruence.
Qed.
