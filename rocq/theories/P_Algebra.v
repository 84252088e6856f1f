(** Declared algebras: masks, acceptance, optional traits. *)
From Verif Require Export P_MV Spec.
Local Open Scope nat_scope.

Lemma count_items_length {X} (l : list X) : count_items l = length l.
Proof.
  induction l as [|x l IH]; [reflexivity|]. simpl. destruct l; [reflexivity|]. rewrite IH. reflexivity.
Qed.

Definition is_tok (t u : tok) : bool :=
  match t, u with Tplus, Tplus | Tminus, Tminus | Tnull, Tnull => true | _, _ => false end.

Definition tok_at (sg : list tok) (n : nat) (t : tok) : bool :=
  match nth_error sg n with Some u => is_tok t u | None => false end.

Fixpoint mask_from (t : tok) (shift : nat) (sg : list tok) : N :=
  match sg with
  | [] => 0%N
  | u :: r => N.lor (N.shiftl (if is_tok t u then 1 else 0) (N.of_nat shift)) (mask_from t (S shift) r)
  end.

Lemma plus_from sg : forall s, mask_plus_from s sg = mask_from Tplus s sg.
Proof. induction sg as [|[| |] sg IH]; intros s; simpl; rewrite ?IH; reflexivity. Qed.
Lemma minus_from sg : forall s, mask_minus_from s sg = mask_from Tminus s sg.
Proof. induction sg as [|[| |] sg IH]; intros s; simpl; rewrite ?IH; reflexivity. Qed.
Lemma null_from sg : forall s, mask_null_from s sg = mask_from Tnull s sg.
Proof. induction sg as [|[| |] sg IH]; intros s; simpl; rewrite ?IH; reflexivity. Qed.

Lemma mask_from_bits t sg : forall s k,
  N.testbit (mask_from t s sg) (N.of_nat k) = (Nat.leb s k && tok_at sg (k - s) t)%bool.
Proof.
  induction sg as [|u sg IH]; intros s k; cbn [mask_from].
  - unfold tok_at. rewrite N.bits_0. destruct (k - s); simpl; rewrite andb_false_r; reflexivity.
  - rewrite N.lor_spec, IH. clear IH.
    assert (E : N.testbit (N.shiftl (if is_tok t u then 1 else 0) (N.of_nat s)) (N.of_nat k)
      = (Nat.eqb k s && is_tok t u)%bool).
    { destruct (is_tok t u).
      - rewrite andb_true_r, N.shiftl_1_l. change (2 ^ N.of_nat s)%N with (pow2 s). rewrite testbit_pow2.
        destruct (Nat.eqb_spec k s), (N.eqb_spec (N.of_nat k) (N.of_nat s)); auto; lia.
      - rewrite N.shiftl_0_l, N.bits_0, andb_false_r. reflexivity. }
    rewrite E. clear E. unfold tok_at.
    destruct (Nat.eqb_spec k s) as [->|Hne].
    + rewrite (proj2 (Nat.leb_gt (S s) s)) by lia.
      rewrite Nat.leb_refl, Nat.sub_diag. simpl. apply orb_false_r.
    + cbn [andb orb]. destruct (Nat.leb_spec (S s) k) as [H|H], (Nat.leb_spec s k) as [H'|H'];
        simpl; try lia; auto.
      replace (k - s) with (S (k - S s)) by lia. reflexivity.
Qed.

Lemma mask_bits t sg k : N.testbit (mask_from t 0 sg) (N.of_nat k) = tok_at sg k t.
Proof. rewrite mask_from_bits, Nat.sub_0_r. reflexivity. Qed.

Lemma plus_bits sg k : N.testbit (produce_mask_plus sg) (N.of_nat k) = tok_at sg k Tplus.
Proof. unfold produce_mask_plus. rewrite plus_from. apply mask_bits. Qed.
Lemma minus_bits sg k : N.testbit (produce_mask_minus sg) (N.of_nat k) = tok_at sg k Tminus.
Proof. unfold produce_mask_minus. rewrite minus_from. apply mask_bits. Qed.
Lemma null_bits sg k : N.testbit (produce_mask_null sg) (N.of_nat k) = tok_at sg k Tnull.
Proof. unfold produce_mask_null. rewrite null_from. apply mask_bits. Qed.

Lemma N_bits_nat a b : (forall k, N.testbit a (N.of_nat k) = N.testbit b (N.of_nat k)) -> a = b.
Proof. intros H. apply N.bits_inj. intros k. specialize (H (N.to_nat k)). rewrite N2Nat.id in H. exact H. Qed.

Lemma tok_at_len sg k t : length sg <= k -> tok_at sg k t = false.
Proof. intros H. unfold tok_at. apply nth_error_None in H. rewrite H. reflexivity. Qed.

Lemma tok_at_split sg k : k < length sg ->
  exists t, nth_error sg k = Some t /\ forall u, tok_at sg k u = is_tok u t.
Proof.
  intros H. destruct (nth_error sg k) as [t|] eqn:E.
  - exists t. split; auto. intros u. unfold tok_at. rewrite E. reflexivity.
  - apply nth_error_None in E. lia.
Qed.

(** Shape of an accepted declaration. *)
Lemma declare_inv sg names A : declare_algebra sg names = Some A ->
  order_check sg = true /\ length sg <= 64 /\ a_dim A = length sg /\
  a_real A = produce_mask_plus sg /\ a_imag A = produce_mask_minus sg /\ a_proj A = produce_mask_null sg /\
  a_real_dim A = popcount (produce_mask_plus sg) /\ a_imag_dim A = popcount (produce_mask_minus sg) /\
  a_proj_dim A = popcount (produce_mask_null sg).
Proof.
  unfold declare_algebra, impl_algebra_base. destruct (order_check sg); [|discriminate].
  rewrite count_items_length. destruct (Nat.leb_spec (length sg) 64); [|discriminate].
  destruct (axis_name_func sg names); [|discriminate]. intros E. inversion E; subst; simpl. auto 10.
Qed.

Lemma masks_cover sg : N.lor (N.lor (produce_mask_plus sg) (produce_mask_minus sg)) (produce_mask_null sg) = ones (length sg).
Proof.
  apply N_bits_nat. intros k. rewrite !N.lor_spec, plus_bits, minus_bits, null_bits, testbit_ones.
  destruct (N.ltb_spec (N.of_nat k) (N.of_nat (length sg))) as [H|H].
  - destruct (tok_at_split sg k) as (t & _ & Ht); [lia|]. rewrite !Ht. destruct t; reflexivity.
  - rewrite !tok_at_len by lia. reflexivity.
Qed.

Lemma masks_disj sg :
  N.land (produce_mask_plus sg) (produce_mask_minus sg) = 0%N /\
  N.land (produce_mask_plus sg) (produce_mask_null sg) = 0%N /\
  N.land (produce_mask_minus sg) (produce_mask_null sg) = 0%N.
Proof.
  split; [|split]; apply N_bits_nat; intros k; rewrite N.land_spec, N.bits_0, ?plus_bits, ?minus_bits, ?null_bits;
  unfold tok_at; destruct (nth_error sg k) as [[| |]|]; reflexivity.
Qed.

Lemma declared_ok sg A : declared sg A -> alg_ok A.
Proof.
  intros [[names E] Hl]. apply declare_inv in E. destruct E as (_ & _ & Ed & Er & Ei & Ep & _).
  destruct (masks_disj sg) as (H1 & H2 & H3).
  constructor; rewrite ?Ed, ?Er, ?Ei, ?Ep; auto. apply masks_cover.
Qed.

Lemma declared_dim sg A : declared sg A -> a_dim A = length sg.
Proof. intros [[names E] Hl]. apply declare_inv in E. tauto. Qed.

(** The order check. *)
Definition nulls_last (sg : list tok) : Prop :=
  forall i j, i <= j -> nth_error sg i = Some Tnull -> j < length sg -> nth_error sg j = Some Tnull.

Lemma order_check_end_spec sg : order_check_end sg = true <-> forall j, j < length sg -> nth_error sg j = Some Tnull.
Proof.
  induction sg as [|t sg IH]; simpl.
  - split; auto. intros _ j Hj. lia.
  - destruct t.
    1,2: split; [discriminate|intros H; specialize (H 0); simpl in H; assert (X : Some _ = Some Tnull) by (apply H; lia); discriminate X].
    rewrite IH. split.
    + intros H [|j] Hj; simpl; auto. apply H. lia.
    + intros H j Hj. apply (H (S j)). lia.
Qed.

Lemma order_check_spec sg : order_check sg = true <-> sg <> [] /\ nulls_last sg.
Proof.
  unfold nulls_last. induction sg as [|t sg IH]; simpl.
  - split; [discriminate|intros [H _]; congruence].
  - destruct sg as [|u sg].
    + split; [|destruct t; auto]. intros _. split; [discriminate|]. intros [|i] [|j] Hij Hi Hj; simpl in *; auto; try lia.
    + assert (G : (forall i j, i <= j -> nth_error (t :: u :: sg) i = Some Tnull -> j < length (t :: u :: sg) -> nth_error (t :: u :: sg) j = Some Tnull)
        <-> (t = Tnull -> forall j, j < length (u :: sg) -> nth_error (u :: sg) j = Some Tnull) /\
            (forall i j, i <= j -> nth_error (u :: sg) i = Some Tnull -> j < length (u :: sg) -> nth_error (u :: sg) j = Some Tnull)).
      { split.
        - intros H. split.
          + intros -> j Hj. apply (H 0 (S j)); simpl in *; auto; lia.
          + intros i j Hij Hi Hj. apply (H (S i) (S j)); simpl in *; auto; lia.
        - intros [H1 H2] [|i] [|j] Hij Hi Hj; simpl in *; auto; try lia.
          + inversion Hi. apply H1; auto. lia.
          + apply (H2 i j); auto; simpl; lia. }
      destruct t.
      1,2: rewrite IH; split; [intros [_ H]; split; [discriminate|apply G; split; [discriminate|exact H]]
                        |intros [_ H]; split; [discriminate|apply G in H; tauto]].
      change (order_check_end (u :: sg) = true <-> Tnull :: u :: sg <> [] /\
        (forall i j, i <= j -> nth_error (Tnull :: u :: sg) i = Some Tnull -> j < length (Tnull :: u :: sg) -> nth_error (Tnull :: u :: sg) j = Some Tnull)).
      rewrite order_check_end_spec. split.
      * intros H. split; [discriminate|]. apply G. split; auto.
      * intros [_ H]. apply G in H. destruct H as [H _]. auto.
Qed.

Lemma declare_accepts sg names :
  (exists A, declare_algebra sg names = Some A) <->
  sg <> [] /\ nulls_last sg /\ length sg <= 64 /\ (names = [] \/ length names = length sg).
Proof.
  unfold declare_algebra. destruct (order_check sg) eqn:E.
  - apply order_check_spec in E. destruct E as [E1 E2].
    unfold impl_algebra_base, axis_name_func. rewrite count_items_length.
    destruct (Nat.leb_spec (length sg) 64).
    + destruct names as [|nm names].
      * split; [intros _; auto 10|intros _; eexists; reflexivity].
      * rewrite count_items_length. destruct (Nat.eqb_spec (length sg) (length (nm :: names))) as [Hl|Hl].
        -- split; [intros _; auto 10|intros _; eexists; reflexivity].
        -- split; [intros [A HA]; discriminate|]. intros (_ & _ & _ & [H'|H']); [discriminate|congruence].
    + split; [intros [A HA]; discriminate|]. intros (_ & _ & H' & _). lia.
  - split; [intros [A HA]; discriminate|]. intros (H1 & H2 & _).
    assert (order_check sg = true) by (apply order_check_spec; auto). congruence.
Qed.

(** Standard layout: the non-null generators first. *)
Lemma nulls_last_count sg : nulls_last sg -> exists nn, nn <= length sg /\
  forall k, k < length sg -> (tok_at sg k Tnull = true <-> nn <= k).
Proof.
  intros H. induction sg as [|t sg IH].
  - exists 0. split; auto. intros k Hk. simpl in Hk. lia.
  - assert (Hsub : nulls_last sg).
    { intros i j Hij Hi Hj. apply (H (S i) (S j)); simpl; auto; lia. }
    destruct (IH Hsub) as (nn & Hn & Hk). destruct t.
    1,2: exists (S nn); split; [simpl; lia|]; intros [|k] Hkl; [split; [discriminate|lia]|];
      simpl in Hkl; unfold tok_at in *; simpl; rewrite (Hk k) by lia; lia.
    exists 0. split; [lia|]. intros k Hkl. split; [lia|]. intros _.
    unfold tok_at. rewrite (H 0 k); auto; lia.
Qed.

Record alg_std (A : algebra) (nn : nat) : Prop := {
  std_ok : alg_ok A;
  std_nn : nn <= a_dim A;
  std_ri : N.lor (a_real A) (a_imag A) = ones nn;
  std_p : a_proj A = N.ldiff (ones (a_dim A)) (ones nn);
  std_dr : a_real_dim A = popcount (a_real A);
  std_di : a_imag_dim A = popcount (a_imag A);
  std_dp : a_proj_dim A = popcount (a_proj A)
}.

Lemma declared_std sg A : declared sg A -> exists nn, alg_std A nn.
Proof.
  intros H. pose proof (declared_ok sg A H) as Hok. destruct H as [[names E] Hl].
  apply declare_inv in E. destruct E as (Ho & _ & Ed & Er & Ei & Ep & E1 & E2 & E3).
  apply order_check_spec in Ho. destruct Ho as [_ Hnl]. destruct (nulls_last_count sg Hnl) as (nn & Hn & Hk).
  exists nn. constructor; auto; rewrite ?Ed, ?Er, ?Ei, ?Ep; auto.
  - apply N_bits_nat. intros k. rewrite N.lor_spec, plus_bits, minus_bits, testbit_ones.
    destruct (Nat.lt_ge_cases k (length sg)) as [Hkl|Hkl].
    + destruct (tok_at_split sg k Hkl) as (t & _ & Ht). rewrite !Ht.
      specialize (Hk k Hkl). rewrite Ht in Hk.
      destruct (N.ltb_spec (N.of_nat k) (N.of_nat nn)); destruct t; simpl in *; auto;
        destruct Hk as [Hk1 Hk2]; try (assert (X : false = true) by (apply Hk2; lia); discriminate X).
      assert (nn <= k) by auto. lia.
    + rewrite !tok_at_len by lia. symmetry. apply N.ltb_ge. lia.
  - apply N_bits_nat. intros k. rewrite null_bits, N.ldiff_spec, !testbit_ones.
    destruct (N.ltb_spec (N.of_nat k) (N.of_nat (length sg))) as [Hkl|Hkl].
    + specialize (Hk k). destruct (N.ltb_spec (N.of_nat k) (N.of_nat nn)); simpl.
      * destruct (tok_at sg k Tnull); auto. assert (nn <= k) by (apply Hk; auto; lia). lia.
      * apply Hk; lia.
    + rewrite tok_at_len by lia. reflexivity.
Qed.

(** Optional traits. *)
Fixpoint alternating (k : nat) : list tok := match k with 0 => [] | S k => Tplus :: Tminus :: alternating k end.

Lemma split_spec sg : impl_split_signature sg = true <-> exists k, k <> 0 /\ sg = alternating k.
Proof.
  assert (G : forall n sg, length sg <= n -> (impl_split_signature sg = true <-> exists k, k <> 0 /\ sg = alternating k)).
  { clear sg. induction n as [n IH] using lt_wf_ind. intros sg Hn.
    destruct sg as [|t [|u sg]].
    - split; [discriminate|]. intros ([|k] & H1 & H2); [congruence|discriminate].
    - split; [destruct t; discriminate|]. intros ([|k] & H1 & H2); [congruence|discriminate].
    - destruct t, u; try (split; [discriminate|intros ([|k] & H1 & H2); [congruence|discriminate]]).
      destruct sg as [|t sg].
      + split; auto. intros _. exists 1. split; auto.
      + change (impl_split_signature (Tplus :: Tminus :: t :: sg)) with (impl_split_signature (t :: sg)).
        rewrite (IH (length (t :: sg))); [|simpl in *; lia|lia]. split.
        * intros (k & Hk & ->). exists (S k). split; auto.
        * intros ([|k] & Hk & E); [congruence|]. simpl in E. injection E as E. exists k. split; [|exact E].
          intros ->. discriminate. }
  apply (G (length sg)). auto.
Qed.

Lemma nondeg_spec sg : impl_non_degenerate sg = true <-> sg <> [] /\ ~ In Tnull sg.
Proof.
  induction sg as [|t sg IH]; [split; [discriminate|intros [H _]; congruence]|].
  destruct t.
  3:{ split; [discriminate|]. intros [_ H]. exfalso. apply H. simpl. auto. }
  all: destruct sg as [|u sg].
  1,3: split; [intros _; split; [discriminate|simpl; intros [H|H]; [discriminate|auto]]|auto].
  1: change (impl_non_degenerate (Tplus :: u :: sg)) with (impl_non_degenerate (u :: sg)).
  2: change (impl_non_degenerate (Tminus :: u :: sg)) with (impl_non_degenerate (u :: sg)).
  all: rewrite IH; split; [intros [_ H]; split; [discriminate|simpl; intros [E|E]; [discriminate|auto]]
                    |intros [_ H]; split; [discriminate|simpl in *; tauto]].
Qed.

Lemma plus_then_null_spec sg : plus_then_null sg = true <-> exists k, sg = repeat Tplus (S k) ++ [Tnull].
Proof.
  assert (G : forall sg, plus_then_null (Tplus :: sg) = true <-> exists k, sg = repeat Tplus k ++ [Tnull]).
  { clear sg. induction sg as [|t sg IH].
    - split; [discriminate|]. intros ([|k] & E); discriminate.
    - destruct t.
      + change (plus_then_null (Tplus :: Tplus :: sg)) with (plus_then_null (Tplus :: sg)). rewrite IH. split.
        * intros (k & ->). exists (S k). reflexivity.
        * intros ([|k] & E); [discriminate|]. simpl in E. injection E as E. exists k. auto.
      + split; [destruct sg; discriminate|]. intros ([|k] & E); discriminate.
      + destruct sg as [|u sg].
        * split; auto. intros _. exists 0. reflexivity.
        * split; [discriminate|]. intros ([|k] & E); discriminate. }
  destruct sg as [|[| |] sg].
  - split; [discriminate|]. intros (k & E). discriminate.
  - rewrite G. split; intros (k & E); exists k.
    + simpl. rewrite E. reflexivity.
    + simpl in E. injection E as E. auto.
  - split; [discriminate|]. intros (k & E). discriminate.
  - split; [discriminate|]. intros (k & E). discriminate.
Qed.

Lemma pga_spec sg n : impl_pga sg = Some n <-> n <> 0 /\ sg = repeat Tplus n ++ [Tnull].
Proof.
  unfold impl_pga. destruct (plus_then_null sg) eqn:E.
  - apply plus_then_null_spec in E. destruct E as (k & ->).
    rewrite count_items_length, app_length, repeat_length. cbn [length]. split.
    + intros H. intros; injection H as H; replace n with (S k) by lia. auto.
    + intros [H1 H2]. f_equal. apply (f_equal (@length tok)) in H2.
      rewrite !app_length, !repeat_length in H2. lia.
  - split; [discriminate|]. intros [H1 H2]. destruct n as [|n]; [congruence|].
    assert (plus_then_null sg = true) by (apply plus_then_null_spec; eauto). congruence.
Qed.

Lemma division_spec sg : snd (impl_complex_or_quaternionic sg) = true <-> sg = [Tminus] \/ sg = [Tminus; Tminus].
Proof.
  destruct sg as [|[| |] [|[| |] [|u sg]]]; simpl;
    (split; [try discriminate; auto|intros [H|H]; try discriminate; auto]).
Qed.

(** Signature array and the metric. *)
Lemma has_bit_ok {m : Mode} a i : i < 64 -> has_bit a i = Ok (N.testbit a (N.of_nat i)).
Proof.
  intros Hi. unfold has_bit. rewrite shl_1 by auto. simpl. f_equal.
  unfold pow2. rewrite N.land_comm. destruct (N.testbit a (N.of_nat i)) eqn:E.
  - apply negb_true_iff, N.eqb_neq. intros H. apply (f_equal (fun x => N.testbit x (N.of_nat i))) in H.
    rewrite N.land_spec, N.pow2_bits_true, E, N.bits_0 in H. discriminate.
  - apply negb_false_iff, N.eqb_eq. apply N.bits_inj_0. intros k. rewrite N.land_spec.
    destruct (N.eq_dec (N.of_nat i) k) as [<-|Hne]; [rewrite E, andb_false_r; auto|].
    rewrite N.pow2_bits_false by auto. reflexivity.
Qed.

Lemma signature_ok {m : Mode} sg A : declared sg A -> signature A = Ok (map (sq sg) (seq 0 (length sg))).
Proof.
  intros H. pose proof (declared_dim _ _ H) as Hd. destruct H as [[names E] Hl].
  apply declare_inv in E. destruct E as (_ & _ & _ & Er & Ei & _).
  unfold signature. rewrite Hd. apply mapM_Ok. intros n Hn. apply in_seq in Hn.
  rewrite !has_bit_ok by lia. simpl. rewrite Er, Ei, plus_bits, minus_bits. unfold tok_at, sq.
  destruct (nth_error sg n) as [[| |]|]; reflexivity.
Qed.

(** The metric as a function of the masks. *)
Definition metric (q : nat -> Z) (d : nat) (Q P : N) : Prop :=
  forall i, i < d -> q i = if N.testbit P (N.of_nat i) then 0%Z
                           else if N.testbit Q (N.of_nat i) then (-1)%Z else 1%Z.

Lemma declared_metric sg A : declared sg A -> metric (sq sg) (a_dim A) (a_imag A) (a_proj A).
Proof.
  intros H i Hi. rewrite (declared_dim _ _ H) in Hi. destruct H as [[names E] Hl].
  apply declare_inv in E. destruct E as (_ & _ & _ & _ & Ei & Ep & _).
  rewrite Ei, Ep, minus_bits, null_bits. unfold tok_at, sq.
  destruct (nth_error sg i) as [[| |]|] eqn:E; auto. apply nth_error_None in E. lia.
Qed.
