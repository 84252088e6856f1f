(** Wedges of vectors and determinants: lemmas behind C88. *)
From Verif Require Export P_Indep Spec_Det.
Local Open Scope nat_scope.

(** ** Lists without one element *)
Definition drop {X} (j : nat) (us : list X) : list X := firstn j us ++ skipn (S j) us.
Lemma nth_drop {X} j (us : list X) b h : j < length us -> nth b (drop j us) h = nth (if b <? j then b else S b) us h.
Proof.
  intros Hj. unfold drop. destruct (Nat.ltb_spec b j) as [Hb|Hb].
  - rewrite app_nth1 by (rewrite firstn_length; lia). revert us b Hj Hb. induction j as [|j IH]; intros us b Hj Hb; [lia|].
    destruct us as [|u us]; cbn [length] in Hj; [lia|]. destruct b; cbn [firstn nth]; [reflexivity|]. apply IH; lia.
  - rewrite app_nth2 by (rewrite firstn_length; lia). rewrite firstn_length, Nat.min_l by lia.
    revert us b Hj Hb. induction j as [|j IH]; intros us b Hj Hb; destruct us as [|u us]; cbn [length] in Hj; try lia.
    + cbn [skipn nth]. rewrite Nat.sub_0_r. reflexivity.
    + destruct b; [lia|]. cbn [skipn nth Nat.sub]. apply IH; lia.
Qed.
Lemma length_drop {X} j (us : list X) : j < length us -> length (drop j us) = pred (length us).
Proof. intros Hj. unfold drop. rewrite app_length, firstn_length, skipn_length. lia. Qed.

(** ** The generators of a blade *)
Lemma testbit_pow2' g j : N.testbit (pow2 g) j = (N.of_nat g =? j)%N.
Proof. unfold pow2. apply N.pow2_bits_eqb. Qed.
Lemma beta_gen n k j : (k < pow2 n)%N -> j < length (gens n k) -> beta n (pow2 (nth j (gens n k) 0)) k = Nat.odd j.
Proof.
  revert k j. induction n as [|n IH]; intros k j Hk Hj; [cbn in Hj; lia|].
  rewrite pow2_S in Hk. destruct (N.lt_ge_cases k (pow2 n)) as [Hl|Hl].
  - rewrite gens_low in * by auto. rewrite beta_S_00 by auto. apply IH; auto.
  - assert (Ek : k = (pow2 n + (k - pow2 n))%N) by lia. assert (Hl' : (k - pow2 n < pow2 n)%N) by lia. revert Hj. rewrite Ek. generalize (k - pow2 n)%N Hl'. clear - IH. intros k Hk.
    rewrite gens_top by auto. intros Hj. destruct j as [|j]; cbn [nth].
    + rewrite <- (N.add_0_r (pow2 n)) at 1. rewrite beta_S_11 by (auto using pow2_pos). rewrite beta_0_l. reflexivity.
    + cbn [length] in Hj. assert (Hn : nth j (gens n k) 0 < n) by (eapply in_gens; apply nth_In; lia).
      rewrite beta_S_01 by (auto using pow2_lt). rewrite IH by (auto; lia). rewrite Nat.odd_succ, <- Nat.negb_odd.
      replace (par (pow2 (nth j (gens n k) 0))) with true; [destruct (Nat.odd j); reflexivity|]. unfold par. rewrite popcount_pow2. reflexivity.
Qed.
Lemma beta_pow2_self d g : g < d -> beta d (pow2 g) (pow2 g) = false.
Proof.
  intros Hg. pose proof (beta_gen d (pow2 g) 0 (pow2_lt _ _ Hg)) as H. rewrite gens_pow2 in H by auto. apply H. cbn. lia.
Qed.
Lemma land_lxor_pow2 g k : N.land (pow2 g) (N.lxor (pow2 g) k) = if N.testbit k (N.of_nat g) then 0%N else pow2 g.
Proof.
  apply N.bits_inj. intros j. rewrite N.land_spec, N.lxor_spec, testbit_pow2'. destruct (N.eqb_spec (N.of_nat g) j) as [<-|Hn].
  - destruct (N.testbit k (N.of_nat g)); [rewrite N.bits_0; reflexivity|]. rewrite testbit_pow2', N.eqb_refl. reflexivity.
  - cbn [andb]. destruct (N.testbit k (N.of_nat g)); [rewrite N.bits_0; reflexivity|]. rewrite testbit_pow2'. symmetry. apply N.eqb_neq. auto.
Qed.
Lemma gens_drop n k j : (k < pow2 n)%N -> j < length (gens n k) -> gens n (N.lxor (pow2 (nth j (gens n k) 0)) k) = drop j (gens n k).
Proof.
  revert k j. induction n as [|n IH]; intros k j Hk Hj; [cbn in Hj; lia|].
  rewrite pow2_S in Hk. destruct (N.lt_ge_cases k (pow2 n)) as [Hl|Hl].
  - rewrite (gens_low n k) in * by auto. assert (Hn : nth j (gens n k) 0 < n) by (eapply in_gens; apply nth_In; lia).
    rewrite gens_low by (apply lxor_lt; auto using pow2_lt). apply IH; auto.
  - assert (Ek : k = (pow2 n + (k - pow2 n))%N) by lia. assert (Hl' : (k - pow2 n < pow2 n)%N) by lia. revert Hj. rewrite Ek. generalize (k - pow2 n)%N Hl'. clear - IH. intros k Hk.
    rewrite gens_top by auto. intros Hj. destruct j as [|j]; cbn [nth].
    + unfold drop. cbn [firstn skipn app]. rewrite add_pow2_lxor, lxor_cancel by auto. apply gens_low; auto.
    + cbn [length] in Hj. assert (Hn : nth j (gens n k) 0 < n) by (eapply in_gens; apply nth_In; lia).
      change (drop (S j) (n :: gens n k)) with (n :: drop j (gens n k)). rewrite <- IH by (auto; lia).
      rewrite add_pow2_lxor by auto. rewrite <- N.lxor_assoc, (N.lxor_comm _ (pow2 n)), N.lxor_assoc, <- add_pow2_lxor by (apply lxor_lt; auto using pow2_lt).
      apply gens_top. apply lxor_lt; auto using pow2_lt.
Qed.

Lemma pop_1 n k : (k < pow2 n)%N -> popcount k = 1 -> exists g, g < n /\ k = pow2 g.
Proof.
  intros Hk E. assert (El : length (gens n k) = 1) by (rewrite length_gens, <- popcount_bitsum; auto).
  assert (Hg : nth 0 (gens n k) 0 < n) by (eapply in_gens; apply nth_In; lia).
  pose proof (gens_drop n k 0 Hk ltac:(lia)) as G. exists (nth 0 (gens n k) 0). split; auto.
  apply (f_equal (@length nat)) in G. rewrite length_drop, El, length_gens, <- popcount_bitsum in G by (try lia; apply lxor_lt; auto using pow2_lt).
  cbn [pred] in G. apply popcount_eq0, N.lxor_eq in G. auto.
Qed.

Section Det.
Context {T : Type} {RO : RingOps T} {L : RingLaws T}.
Variable d : nat.
Local Notation wp := (gp d 0 (ones d)).
Local Open Scope rg_scope.

Lemma det_ext (n : nat) (M M' : nat -> nat -> T) : (forall a b : nat, (a < n)%nat -> (b < n)%nat -> M a b = M' a b) -> det n M = det n M'.
Proof.
  revert M M'. induction n as [|n IH]; intros M M' E; [reflexivity|]. cbn [det]. apply suml_ext. intros j Hj. apply in_seq in Hj.
  rewrite (E 0%nat j) by lia. rewrite (IH _ (fun a b => M' (S a) (if b <? j then b else S b)%nat)); [reflexivity|].
  intros a b Ha Hb. apply E; destruct (Nat.ltb_spec b j); lia.
Qed.
Lemma suml_nth_list (f : nat -> T) l : suml f l = suml (fun j => f (nth j l 0%nat)) (seq 0 (length l)).
Proof.
  induction l using rev_ind; [reflexivity|]. rewrite app_length. cbn [length]. rewrite Nat.add_1_r, seq_S, !suml_app. cbn [suml Nat.add]. rewrite app_nth2, Nat.sub_diag by lia. cbn [nth]. f_equal.
  rewrite IHl. apply suml_ext. intros k Hk. apply in_seq in Hk. rewrite app_nth1 by lia. reflexivity.
Qed.
Lemma sumI_gens n (f : N -> T) : (forall k, (k < pow2 n)%N -> (forall i, (i < n)%nat -> k <> pow2 i) -> f k = r0) -> sumI n f = suml (fun i => f (pow2 i)) (seq 0 n).
Proof.
  induction n as [|n IH]; intros Hf; [rewrite sumI_O; apply Hf; [reflexivity|intros; lia]|].
  rewrite sumI_S, seq_S, suml_app. cbn [suml Nat.add fold_right map]. f_equal.
  - apply IH. intros k Hk Hn. apply Hf; [rewrite pow2_S; lia|]. intros i Hi. destruct (Nat.eq_dec i n) as [->|]; [lia|apply Hn; lia].
  - rewrite (sumI_single n _ 0%N); [rewrite N.add_0_r; unfold suml; cbn; rewrite ?add_0_r; reflexivity|apply pow2_pos|].
    intros k Hk H0. apply Hf; [rewrite pow2_S; lia|]. intros i Hi EE. destruct (Nat.eq_dec i n) as [->|]; [lia|]. pose proof (pow2_lt i n ltac:(lia)). lia.
Qed.
(** Expansion of the wedge with a vector. *)
Lemma wp_vec_l (u y : N -> T) k : homog d 1 u -> (k < pow2 d)%N ->
  wp u y k = suml (fun j => let g := nth j (gens d k) 0%nat in sgb (Nat.odd j) (u (pow2 g) * y (N.lxor (pow2 g) k))) (seq 0 (length (gens d k))).
Proof.
  intros Hu Hk. unfold gp. rewrite sumI_gens.
  2:{ intros i Hi Hn. rewrite Hu, mul_0_l, act_0; auto. intros E. destruct (pop_1 d i Hi E) as (g & Hg & ->). exact (Hn g Hg eq_refl). }
  rewrite (suml_perm _ _ (rev (seq 0 d))) by apply Permutation_rev.
  transitivity (suml (fun g => sgb (beta d (pow2 g) k) (u (pow2 g) * y (N.lxor (pow2 g) k))) (gens d k)).
  - unfold gens. rewrite suml_filter. apply suml_ext. intros g Hg. apply in_rev, in_seq in Hg.
    rewrite <- (wsign_gsign d 0) by (apply pow2_lt; lia). unfold wsign.
    assert (Ex : beta d (pow2 g) (N.lxor (pow2 g) k) = beta d (pow2 g) k).
    { rewrite beta_lxor_r. rewrite (beta_pow2_self d g) by lia. destruct (beta d (pow2 g) k); reflexivity. }
    rewrite Ex, land_lxor_pow2. destruct (N.testbit k (N.of_nat g)).
    + cbn [N.eqb]. apply act_of_bool.
    + destruct (N.eqb_spec (pow2 g) 0) as [E|]; [pose proof (pow2_pos g); lia|]. reflexivity.
  - rewrite suml_nth_list. apply suml_ext. intros j Hj. apply in_seq in Hj. cbv zeta. rewrite beta_gen by (auto; lia). reflexivity.
Qed.
Lemma fwedge_det us : forall k, (k < pow2 d)%N -> vecs d us -> length (gens d k) = length us ->
  fwedge d us k = det (length us) (fun a b => nth a us (fun _ => 0) (pow2 (nth b (gens d k) 0%nat))).
Proof.
  induction us as [|u us IH]; intros k Hk Hv El.
  - cbn [fwedge length det]. rewrite length_gens, <- popcount_bitsum in El by auto. apply popcount_eq0 in El. subst k. reflexivity.
  - pose proof (Forall_inv Hv) as Hu. pose proof (Forall_inv_tail Hv) as Hus. cbn [fwedge]. rewrite wp_vec_l by auto. rewrite El. cbn [length det] in *.
    apply suml_ext. intros j Hj. apply in_seq in Hj. cbv zeta. cbn [nth].
    assert (Hg : (nth j (gens d k) 0 < d)%nat) by (eapply in_gens; apply nth_In; lia).
    rewrite IH; auto.
    + rewrite (det_ext _ _ (fun a b => nth a us (fun _ => 0) (pow2 (nth (if (b <? j)%nat then b else S b) (gens d k) 0%nat)))).
      * unfold sgb. reflexivity.
      * intros a b _ _. rewrite gens_drop by (auto; lia). rewrite nth_drop by lia. reflexivity.
    + apply lxor_lt; auto using pow2_lt.
    + rewrite gens_drop, length_drop by (auto; lia). lia.
Qed.
End Det.
