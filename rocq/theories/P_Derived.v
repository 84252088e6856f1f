(** The derived algebras of src/complexification.rs and the maps into and out of them. *)
From Verif Require Export P_Null P_Agree.
Local Open Scope nat_scope.

(** *** Bits of a sum of two blocks *)
Lemma block_bits n w i k : (i < pow2 n)%N ->
  N.testbit (pow2 n * w + i) k = if (k <? N.of_nat n)%N then N.testbit i k else N.testbit w (k - N.of_nat n).
Proof.
  intros Hi. destruct (N.ltb_spec k (N.of_nat n)) as [Hk|Hk].
  - rewrite <- (N.mod_pow2_bits_low _ (N.of_nat n)) by auto. fold (pow2 n). rewrite N.add_comm, N.mul_comm, N.mod_add by (pose proof (pow2_pos n); lia).
    rewrite N.mod_small by auto. reflexivity.
  - replace k with ((k - N.of_nat n) + N.of_nat n)%N at 1 by lia. rewrite <- N.div_pow2_bits. fold (pow2 n). rewrite N.mul_comm, N.div_add_l by (pose proof (pow2_pos n); lia).
    rewrite N.div_small, N.add_0_r by auto. reflexivity.
Qed.
Lemma bit_high n i : (i < pow2 (S n))%N -> N.testbit i (N.of_nat n) = negb (i <? pow2 n)%N.
Proof.
  intros Hi. destruct (N.ltb_spec i (pow2 n)) as [H|H]; cbn [negb].
  - apply (testbit_high i n); auto; lia.
  - apply split_lt in Hi as [Hi|(i' & -> & Hi)]; [lia|]. replace (pow2 n + i')%N with (pow2 n * 1 + i')%N by lia. rewrite block_bits by auto.
    rewrite N.ltb_irrefl, N.sub_diag. reflexivity.
Qed.

(** Index i with a zero bit inserted at position n, and with bit n removed. *)
Definition insb (n : nat) (i : N) : N := (i mod pow2 n + pow2 (S n) * (i / pow2 n))%N.
Definition delb (n : nat) (i : N) : N := (i mod pow2 n + pow2 n * (i / pow2 (S n)))%N.
Lemma mod_lt_pow2 n i : (i mod pow2 n < pow2 n)%N.
Proof. apply N.mod_lt. pose proof (pow2_pos n). lia. Qed.
Lemma insb_block n w i : (i < pow2 n)%N -> insb n (pow2 n * w + i) = (pow2 (S n) * w + i)%N.
Proof.
  intros Hi. unfold insb. pose proof (pow2_pos n). rewrite (N.add_comm (_ * w)), (N.mul_comm (pow2 n)), N.mod_add, N.mod_small, N.div_add, N.div_small by lia. lia.
Qed.
Lemma delb_block n w i : (i < pow2 n)%N -> delb n (pow2 (S n) * w + i) = (pow2 n * w + i)%N.
Proof.
  intros Hi. unfold delb. pose proof (pow2_pos n). pose proof (low_lt _ _ Hi).
  replace ((pow2 (S n) * w + i) mod pow2 n)%N with i.
  - rewrite (N.add_comm (_ * w)), (N.mul_comm (pow2 (S n))), N.div_add, N.div_small by (pose proof (pow2_pos (S n)); lia). lia.
  - rewrite pow2_S. replace (2 * pow2 n * w + i)%N with (i + (2 * w) * pow2 n)%N by lia. rewrite N.mod_add, N.mod_small by lia. reflexivity.
Qed.

Section Masks.
Context {T : Type} {RO : RingOps T} {W : NumLaws T} {L : RingLaws T}.
(** Only the bits below n of the masks matter. *)
Lemma gp_masks n Q P Q' P' (x y : N -> T) k : N.land Q (ones n) = N.land Q' (ones n) -> N.land P (ones n) = N.land P' (ones n) ->
  (k < pow2 n)%N -> gp n Q P x y k = gp n Q' P' x y k.
Proof.
  intros HQ HP Hk. unfold gp. apply sumI_ext. intros i Hi. f_equal. unfold gsign.
  assert (G : forall a M, (a < pow2 n)%N -> N.land a M = N.land a (N.land M (ones n))).
  { intros a M Ha. apply N.bits_inj. intros j. rewrite !N.land_spec, testbit_ones. destruct (N.ltb_spec j (N.of_nat n)); [rewrite Bool.andb_true_r; auto|].
    rewrite (testbit_high a n) by auto. reflexivity. }
  assert (Ha : (N.land i (N.lxor i k) < pow2 n)%N) by (apply land_lt_l; auto).
  rewrite (G _ Q), (G _ P), HQ, HP, <- !G by auto. reflexivity.
Qed.
Lemma low_bits n P P' : (forall j, j < n -> N.testbit P (N.of_nat j) = N.testbit P' (N.of_nat j)) -> N.land P (ones n) = N.land P' (ones n).
Proof.
  intros H. apply N.bits_inj. intros j. rewrite !N.land_spec, testbit_ones. destruct (N.ltb_spec j (N.of_nat n)) as [Hj|Hj]; [|rewrite !Bool.andb_false_r; auto].
  rewrite <- (N2Nat.id j). rewrite H by lia. reflexivity.
Qed.
End Masks.

Section Std.
Context {md : Mode}.
Variables (A : algebra) (nn : nat).
Hypothesis HS : alg_std A nn.
Let AOK := std_ok A nn HS.

Lemma std_disj : N.land (ones nn) (a_proj A) = 0%N.
Proof.
  rewrite (std_p A nn HS). apply N.bits_inj_0. intros k. rewrite N.land_spec, N.ldiff_spec, !testbit_ones.
  destruct (k <? N.of_nat nn)%N; auto. rewrite Bool.andb_false_r. auto.
Qed.
Lemma compl_std : alg_std (Complexification A) nn.
Proof.
  pose proof (std_nn A nn HS). constructor; cbn [Complexification a_dim a_real a_imag a_proj a_real_dim a_imag_dim a_proj_dim]; auto.
  - constructor; cbn [Complexification a_dim a_real a_imag a_proj].
    + apply (ok_dim A AOK).
    + rewrite N.lor_0_r. apply (ok_cover A AOK).
    + apply N.land_0_r.
    + rewrite (std_ri A nn HS). apply std_disj.
    + reflexivity.
  - rewrite N.lor_0_r. apply (std_ri A nn HS).
  - apply (std_p A nn HS).
Qed.
Lemma std_base : base_non_null_dim A = nn.
Proof.
  unfold base_non_null_dim. rewrite (std_dr A nn HS), (std_di A nn HS). pose proof (popcount_lor (a_real A) (a_imag A)) as E.
  rewrite (std_ri A nn HS), popcount_ones, (ok_ri A AOK) in E. cbn in E. lia.
Qed.
Lemma std_P j : nn <= j < a_dim A -> N.testbit (a_proj A) (N.of_nat j) = true.
Proof.
  intros H. rewrite (std_p A nn HS), N.ldiff_spec, !testbit_ones. destruct (N.ltb_spec (N.of_nat j) (N.of_nat (a_dim A))); [|lia]. destruct (N.ltb_spec (N.of_nat j) (N.of_nat nn)); [lia|auto].
Qed.
Lemma std_imag_lt : (a_imag A < pow2 nn)%N.
Proof.
  assert (E : N.land (N.lor (a_real A) (a_imag A)) (a_imag A) = a_imag A) by (apply N.bits_inj; intros k; rewrite N.land_spec, N.lor_spec; destruct (N.testbit (a_imag A) k), (N.testbit (a_real A) k); auto).
  rewrite <- E, (std_ri A nn HS). apply land_lt_l, ones_lt.
Qed.
Lemma std_pp : popcount (a_proj A) = a_dim A - nn.
Proof.
  pose proof (popcount_lor (ones nn) (a_proj A)) as E. rewrite std_disj, <- (std_ri A nn HS) in E. rewrite (ok_cover A AOK), (std_ri A nn HS), !popcount_ones in E. cbn in E. lia.
Qed.

Lemma even_eq : Nat.even nn = true -> a_dim (Even A) = a_dim A /\ a_real (Even A) = a_real A /\ a_imag (Even A) = a_imag A /\ a_proj (Even A) = a_proj A.
Proof. intros E. unfold Even. cbn [a_dim a_real a_imag a_proj]. rewrite std_base, E. auto. Qed.

Lemma even_std_even : Nat.even nn = true -> alg_std (Even A) nn.
Proof.
  intros E. pose proof HS as [OK H1 H2 H3 H4 H5 H6]. destruct OK. constructor; unfold Even; cbn [a_dim a_real a_imag a_proj a_real_dim a_imag_dim a_proj_dim]; rewrite ?std_base, ?E; auto.
  constructor; cbn [a_dim a_real a_imag a_proj]; rewrite ?std_base, ?E; auto.
Qed.
Section Odd.
Hypothesis E : Nat.even nn = false.
Hypothesis Hd : a_dim A < 63.
Lemma even_dim : a_dim (Even A) = S (a_dim A).
Proof. unfold Even. cbn [a_dim]. rewrite std_base, E. lia. Qed.
Lemma even_real : a_real (Even A) = N.lor (a_real A) (pow2 nn).
Proof. unfold Even. cbn [a_real]. rewrite std_base, E, N.shiftl_1_l. reflexivity. Qed.
Lemma eproj_bit k : N.testbit (N.modulo (N.shiftl (a_proj A) 1) (pow2 64)) k = ((N.of_nat (S nn) <=? k) && (k <? N.of_nat (S (a_dim A))))%N%bool.
Proof.
  rewrite N.mod_small.
  - destruct (N.lt_ge_cases k 1) as [Hk|Hk].
    + rewrite N.shiftl_spec_low by auto. destruct (N.leb_spec (N.of_nat (S nn)) k); [lia|reflexivity].
    + rewrite N.shiftl_spec_high' by auto. rewrite (std_p A nn HS), N.ldiff_spec, !testbit_ones.
      destruct (N.ltb_spec (k - 1) (N.of_nat (a_dim A))), (N.ltb_spec (k - 1) (N.of_nat nn)), (N.leb_spec (N.of_nat (S nn)) k), (N.ltb_spec k (N.of_nat (S (a_dim A)))); auto; lia.
  - rewrite N.shiftl_mul_pow2. change (2 ^ 1)%N with 2%N. rewrite N.mul_comm.
    assert (H : (a_proj A < pow2 63)%N).
    { eapply N.lt_le_trans; [|apply (pow2_le (a_dim A) 63); lia]. rewrite (std_p A nn HS). 
      replace (N.ldiff (ones (a_dim A)) (ones nn)) with (N.land (ones (a_dim A)) (N.ldiff (ones (a_dim A)) (ones nn))); [apply land_lt_l, ones_lt|].
      apply N.bits_inj. intros j. rewrite N.land_spec, N.ldiff_spec. destruct (N.testbit (ones (a_dim A)) j); auto. }
    change 64 with (S 63). rewrite pow2_S. lia.
Qed.
Lemma even_proj k : N.testbit (a_proj (Even A)) k = ((N.of_nat (S nn) <=? k) && (k <? N.of_nat (S (a_dim A))))%N%bool.
Proof. unfold Even. cbn [a_proj]. rewrite std_base, E. apply eproj_bit. Qed.
Lemma real_bit k : N.testbit (N.lor (a_real A) (a_imag A)) k = (k <? N.of_nat nn)%N.
Proof. rewrite (std_ri A nn HS). apply testbit_ones. Qed.
Lemma pow2_bit k : N.testbit (pow2 nn) k = (k =? N.of_nat nn)%N.
Proof. unfold pow2. rewrite N.pow2_bits_eqb, N.eqb_sym. reflexivity. Qed.
Lemma even_ri : N.lor (a_real (Even A)) (a_imag (Even A)) = ones (S nn).
Proof.
  rewrite even_real. apply N.bits_inj. intros k. cbn [Even a_imag]. rewrite testbit_ones.
  replace (N.lor (N.lor (a_real A) (pow2 nn)) (a_imag A)) with (N.lor (N.lor (a_real A) (a_imag A)) (pow2 nn)).
  - rewrite N.lor_spec, real_bit, pow2_bit. destruct (N.ltb_spec k (N.of_nat nn)), (N.eqb_spec k (N.of_nat nn)), (N.ltb_spec k (N.of_nat (S nn))); auto; lia.
  - apply N.bits_inj. intros j. rewrite !N.lor_spec. destruct (N.testbit (a_real A) j), (N.testbit (a_imag A) j), (N.testbit (pow2 nn) j); auto.
Qed.
Lemma even_p : a_proj (Even A) = N.ldiff (ones (S (a_dim A))) (ones (S nn)).
Proof.
  apply N.bits_inj. intros k. rewrite even_proj, N.ldiff_spec, !testbit_ones.
  destruct (N.leb_spec (N.of_nat (S nn)) k), (N.ltb_spec k (N.of_nat (S (a_dim A)))), (N.ltb_spec k (N.of_nat (S nn))); auto; lia.
Qed.
Lemma even_std_odd : alg_std (Even A) (S nn).
Proof.
  pose proof (std_nn A nn HS) as Hnn.
  assert (Hrp : N.land (a_real (Even A)) (a_proj (Even A)) = 0%N).
  { apply N.bits_inj_0. intros k. rewrite N.land_spec, even_real, N.lor_spec, pow2_bit, even_proj.
    destruct (N.leb_spec (N.of_nat (S nn)) k) as [Hk|Hk]; [|rewrite Bool.andb_false_r; auto].
    destruct (N.eqb_spec k (N.of_nat nn)); [lia|]. pose proof (real_bit k) as Rk. rewrite N.lor_spec in Rk. destruct (N.ltb_spec k (N.of_nat nn)); [lia|]. destruct (N.testbit (a_real A) k); [discriminate|auto]. }
  assert (Hip : N.land (a_imag A) (a_proj (Even A)) = 0%N).
  { apply N.bits_inj_0. intros k. rewrite N.land_spec, even_proj.
    destruct (N.leb_spec (N.of_nat (S nn)) k) as [Hk|Hk]; [|rewrite Bool.andb_false_r; auto].
    pose proof (real_bit k) as Rk. rewrite N.lor_spec in Rk. destruct (N.ltb_spec k (N.of_nat nn)); [lia|]. destruct (N.testbit (a_imag A) k); [rewrite Bool.orb_true_r in Rk; discriminate|auto]. }
  assert (Hrn : N.land (a_real A) (pow2 nn) = 0%N).
  { apply N.bits_inj_0. intros k. rewrite N.land_spec, pow2_bit. destruct (N.eqb_spec k (N.of_nat nn)) as [->|]; [|apply Bool.andb_false_r].
    pose proof (real_bit (N.of_nat nn)) as Rk. rewrite N.lor_spec, N.ltb_irrefl in Rk. destruct (N.testbit (a_real A) (N.of_nat nn)); auto. }
  assert (Hin : N.land (pow2 nn) (a_imag A) = 0%N).
  { apply N.bits_inj_0. intros k. rewrite N.land_spec, pow2_bit. destruct (N.eqb_spec k (N.of_nat nn)) as [->|]; auto.
    pose proof (real_bit (N.of_nat nn)) as Rk. rewrite N.lor_spec, N.ltb_irrefl in Rk. destruct (N.testbit (a_imag A) (N.of_nat nn)); [rewrite Bool.orb_true_r in Rk; discriminate|auto]. }
  constructor.
  - constructor.
    + rewrite even_dim. lia.
    + rewrite even_ri, even_p, even_dim. apply N.bits_inj. intros k. rewrite N.lor_spec, N.ldiff_spec, !testbit_ones.
      destruct (N.ltb_spec k (N.of_nat (S (a_dim A)))), (N.ltb_spec k (N.of_nat (S nn))); auto; lia.
    + rewrite even_real. cbn [Even a_imag]. rewrite N.land_comm, N.land_lor_distr_r, (N.land_comm (a_imag A) (a_real A)), (ok_ri A AOK), (N.land_comm (a_imag A) (pow2 nn)), Hin. reflexivity.
    + exact Hrp.
    + exact Hip.
  - rewrite even_dim. lia.
  - exact even_ri.
  - rewrite even_dim. exact even_p.
  - rewrite even_real. pose proof (popcount_lor (a_real A) (pow2 nn)) as G. rewrite Hrn, popcount_pow2 in G. cbn [popcount] in G.
    unfold Even. cbn [a_real_dim]. rewrite std_base, E, (std_dr A nn HS). lia.
  - apply (std_di A nn HS).
  - rewrite even_p. unfold Even. cbn [a_proj_dim]. rewrite (std_dp A nn HS), (std_p A nn HS).
    assert (G : forall a b, a <= b -> popcount (N.ldiff (ones b) (ones a)) = b - a).
    { intros a b Hab. pose proof (popcount_lor (ones a) (N.ldiff (ones b) (ones a))) as G.
      replace (N.lor (ones a) (N.ldiff (ones b) (ones a))) with (ones b) in G.
      - replace (N.land (ones a) (N.ldiff (ones b) (ones a))) with 0%N in G.
        + rewrite !popcount_ones in G. rewrite popcount_0 in G. lia.
        + symmetry. apply N.bits_inj_0. intros k. rewrite N.land_spec, N.ldiff_spec. destruct (N.testbit (ones a) k), (N.testbit (ones b) k); auto.
      - apply N.bits_inj. intros k. rewrite N.lor_spec, N.ldiff_spec, !testbit_ones. destruct (N.ltb_spec k (N.of_nat b)), (N.ltb_spec k (N.of_nat a)); auto; lia. }
    rewrite !G by lia. lia.
Qed.

(** The index map of [into_original]. *)
Lemma orig_keep i : (i < pow2 (S (a_dim A)))%N ->
  N.eqb (N.ldiff i (N.lor (N.lor (N.modulo (N.shiftl (a_proj A) 1) (pow2 64)) (a_real A)) (a_imag A))) 0 = negb (N.testbit i (N.of_nat nn)).
Proof.
  intros Hi. set (M := N.lor _ _).
  assert (HM : forall k, N.testbit M k = ((k <? N.of_nat (S (a_dim A))) && negb (k =? N.of_nat nn))%N%bool).
  { intros k. unfold M. pose proof (real_bit k) as R. pose proof (std_nn A nn HS). rewrite !N.lor_spec in *. rewrite <- Bool.orb_assoc, R, eproj_bit.
    destruct (N.leb_spec (N.of_nat (S nn)) k), (N.ltb_spec k (N.of_nat (S (a_dim A)))), (N.ltb_spec k (N.of_nat nn)), (N.eqb_spec k (N.of_nat nn)); auto; lia. }
  destruct (N.testbit i (N.of_nat nn)) eqn:B; cbn [negb].
  - apply N.eqb_neq. intros Z. assert (C : N.testbit (N.ldiff i M) (N.of_nat nn) = false) by (rewrite Z; apply N.bits_0).
    rewrite N.ldiff_spec, B, HM, N.eqb_refl, Bool.andb_false_r in C. discriminate.
  - apply N.eqb_eq. apply N.bits_inj_0. intros k. rewrite N.ldiff_spec, HM.
    destruct (N.ltb_spec k (N.of_nat (S (a_dim A)))) as [Hk|Hk]; cbn [andb negb].
    + destruct (N.eqb_spec k (N.of_nat nn)) as [->|]; [rewrite B; auto|]. apply Bool.andb_false_r.
    + rewrite (testbit_high i (S (a_dim A))) by auto. reflexivity.
Qed.
Lemma orig_idx i : (i < pow2 (S (a_dim A)))%N ->
  N.lor (N.shiftr (N.land i (N.modulo (N.shiftl (a_proj A) 1) (pow2 64))) 1) (N.land i (N.lor (a_real A) (a_imag A))) = delb nn i.
Proof.
  intros Hi. unfold delb. apply N.bits_inj. intros k. rewrite N.add_comm, block_bits by apply mod_lt_pow2.
  rewrite N.lor_spec, N.shiftr_spec', !N.land_spec, eproj_bit, real_bit. unfold pow2 at 1.
  destruct (N.ltb_spec k (N.of_nat nn)) as [Hk|Hk].
  - rewrite N.mod_pow2_bits_low by auto. destruct (N.leb_spec (N.of_nat (S nn)) (k + 1)); [lia|]. cbn [andb]. rewrite Bool.andb_false_r, Bool.andb_true_r. reflexivity.
  - rewrite Bool.andb_false_r, Bool.orb_false_r. unfold pow2. rewrite N.div_pow2_bits. replace (k - N.of_nat nn + N.of_nat (S nn))%N with (k + 1)%N by lia.
    destruct (N.leb_spec (N.of_nat (S nn)) (k + 1)); [|lia]. cbn [andb]. destruct (N.ltb_spec (k + 1) (N.of_nat (S (a_dim A)))) as [H1|H1].
    + apply Bool.andb_true_r.
    + rewrite (testbit_high i (S (a_dim A))) by auto. reflexivity.
Qed.
End Odd.
End Std.

(** *** Moving coefficients to another storage and algebra *)
Section Move.
Context {T T' : Type} {RO : RingOps T} {W : NumLaws T} {L : RingLaws T} {RO' : RingOps T'} {L' : RingLaws T'} {md : Mode}
  {S' : Type} {St' : Storage T' S'} {SL' : StorageLaws T' S'}.
Variables (d : nat) (f : N -> T) (l : list (N * T)).
Hypothesis He : enum_of d f (fun _ => true) l.
Variables (keep : N -> bool) (t u : N -> N) (g : N -> T -> T').
Hypothesis g0 : forall i, g i r0 = r0.
Variable B : algebra.
Hypothesis BOK : alg_ok B.
Hypothesis DOK : st_dim_ok (StorageLaws := SL') (a_dim B).
Hypothesis Ht : forall i, (i < pow2 d)%N -> keep i = true -> (t i < pow2 (a_dim B))%N /\ u (t i) = i.
Hypothesis Hu : forall k, (k < pow2 (a_dim B))%N -> (u k < pow2 d)%N /\ keep (u k) = true /\ t (u k) = k.
Definition moved := flat_map (fun ic : N * T => if keep (fst ic) then [(t (fst ic), g (fst ic) (snd ic))] else []) l.

Lemma in_moved k c : In (k, c) moved <-> exists i, In (i, f i) l /\ (i < pow2 d)%N /\ keep i = true /\ k = t i /\ c = g i (f i).
Proof.
  destruct He as (_ & Hin & _). unfold moved. rewrite in_flat_map. split.
  - intros ([i c'] & Hi & H). destruct (Hin _ _ Hi) as (H1 & _ & ->). cbn [fst snd] in H. destruct (keep i) eqn:Ek; [|destruct H]. destruct H as [H|[]]. injection H as <- <-. eauto 8.
  - intros (i & Hi & H1 & Ek & -> & ->). exists (i, f i). split; auto. cbn [fst snd]. rewrite Ek. left. reflexivity.
Qed.
Lemma nodup_moved : NoDup (map fst moved).
Proof.
  destruct He as (HN & Hin & _). unfold moved. revert HN Hin. generalize l. clear He. induction l0 as [|[i c] l0 IH]; intros HN Hin; cbn [flat_map]; [constructor|].
  inversion HN as [|? ? H1 H2]; subst. assert (IH' := IH H2 (fun i c H => Hin i c (or_intror H))). cbn [fst snd]. destruct (keep i) eqn:Ek; [|exact IH'].
  cbn [app map fst]. constructor; auto. intros H. apply in_map_iff in H as ([k c'] & Ek' & H). cbn [fst] in Ek'. apply in_flat_map in H as ([j cj] & Hj & H). cbn [fst snd] in H.
  destruct (keep j) eqn:Ekj; [|destruct H]. destruct H as [H|[]]. injection H as E1 _.
  destruct (Hin i c (or_introl eq_refl)) as (Hi & _ & _). destruct (Hin j cj (or_intror Hj)) as (Hjl & _ & _).
  destruct (Ht i Hi Ek) as (_ & Ui). destruct (Ht j Hjl Ekj) as (_ & Uj). assert (i = j) by congruence. subst j. apply H1. apply in_map_iff. exists (i, cj). auto.
Qed.
Lemma move_ok : exists z, mv_from_indexed_iter B moved = Ok z /\ st_wf (a_dim B) z /\ forall k, (k < pow2 (a_dim B))%N -> st_coef z k = g (u k) (f (u k)).
Proof.
  destruct (from_indexed_ok B BOK DOK moved) as (z & E & Hz & Hc).
  { intros i c Hi. apply in_moved in Hi as (j & _ & Hj & Ek & -> & _). apply Ht; auto. }
  exists z. split; auto. split; auto. intros k Hk. rewrite Hc. destruct (Hu k Hk) as (U1 & U2 & U3).
  assert (HN : NoDup (map fst (rev moved))) by (rewrite map_rev; apply NoDup_rev, nodup_moved).
  destruct (hm_get (rev moved) k) as [c|] eqn:G.
  - apply hm_get_in in G; auto. apply in_rev, in_moved in G as (i & Hi & H1 & Ek & -> & ->). destruct (Ht i H1 Ek) as (_ & ->). reflexivity.
  - destruct (is0_dec (f (u k))) as [->|Hnz]; [rewrite g0; auto|]. exfalso. apply hm_get_none in G. apply G. apply in_map_iff. exists (k, g (u k) (f (u k))). split; auto.
    apply -> in_rev. apply in_moved. destruct He as (_ & _ & Hall). exists (u k). auto 8.
Qed.
End Move.

Lemma flat_map_map {X Y} (h : X -> Y) l : map h l = flat_map (fun x => [h x]) l.
Proof. induction l; cbn; congruence. Qed.

Section Maps.
Context {T F : Type} {RT : RingOps T} {LT : RingLaws T} {RF : RingOps F} {LF : RingLaws F}
  {IC : IntoCplx T F} {FC : FromCplx T F} {CV : ConvLaws T F} {md : Mode}.
Local Notation C := (cplx F).
Variables (A : algebra) (nn : nat).
Hypothesis HS : alg_std A nn.
Local Notation d := (a_dim A).
Context {S : Type} {St : Storage T S} {SL : StorageLaws T S} {S' : Type} {St' : Storage C S'} {SL' : StorageLaws C S'}.

(** The coefficients of [complexify]. *)
Definition cfun (x : N -> T) : N -> C := phi ipn (a_imag A) (fun i => into_complex (x i)).

Lemma complexify_ok (x : S) : st_wf d x -> st_dim_ok (StorageLaws := SL') d ->
  exists z : S', complexify A x = Ok z /\ st_wf d z /\ forall k, (k < pow2 d)%N -> st_coef z k = cfun (st_coef x) k.
Proof.
  intros Hx DOK. unfold complexify, complexified_iter.
  rewrite (mapM_Ok _ (fun ic => (fst ic, (fun i c => rmul (ipn (popcount (N.land i (a_imag A)))) (into_complex c)) (fst ic) (snd ic)))).
  - cbn [bind]. rewrite flat_map_map.
    destruct (move_ok d (st_coef x) (mv_coeff_enumerate x) (st_enum_ok d x Hx) (fun _ => true) (fun i => i) (fun i => i)
      (fun i c => rmul (ipn (popcount (N.land i (a_imag A)))) (into_complex c))) with (B := Complexification A) as (z & E & Hz & Hc); auto.
    { intros i. rewrite into_0. apply mul_0_r. }
    { apply (std_ok _ nn), compl_std, HS. }
    unfold moved in E. cbn beta iota in E. rewrite E. exists z. split; auto. split; auto. intros k Hk. rewrite Hc by exact Hk. unfold cfun, phi. apply (ph_c ipn ipn_phase).
  - intros [i c] _. cbn [fst snd]. rewrite (nthr_nth _ _ r0) by (cbn [i_neg_powers length]; apply Nat.mod_upper_bound; lia). reflexivity.
Qed.
Lemma from_0 : from_complex (r0 : C) = (r0 : T).
Proof. rewrite <- (into_0 (T := T) (F := F)). apply from_into. Qed.
Lemma decomplexify_ok (z : S') : st_wf d z -> st_dim_ok (StorageLaws := SL) d ->
  exists x : S, decomplexify A z = Ok x /\ st_wf d x /\ forall k, (k < pow2 d)%N -> st_coef x k = from_complex (phi ipw (a_imag A) (st_coef z) k).
Proof.
  intros Hx DOK. unfold decomplexify.
  rewrite (mapM_Ok _ (fun ic => (fst ic, (fun i c => from_complex (rmul (ipw (popcount (N.land i (a_imag A)))) c)) (fst ic) (snd ic)))).
  - cbn [bind]. rewrite flat_map_map.
    destruct (move_ok d (st_coef z) (mv_coeff_enumerate z) (st_enum_ok d z Hx) (fun _ => true) (fun i => i) (fun i => i)
      (fun i c => from_complex (rmul (ipw (popcount (N.land i (a_imag A)))) c) : T)) with (B := A) as (x & E & Hz & Hc); auto.
    { intros i. rewrite mul_0_r. apply from_0. }
    { apply (std_ok _ nn HS). }
    unfold moved in E. cbn beta iota in E. rewrite E. exists x. split; auto. split; auto. intros k Hk. rewrite Hc by exact Hk. unfold phi. f_equal. apply (ph_c ipw ipw_phase).
  - intros [i c] _. cbn [fst snd]. rewrite (nthr_nth _ _ r0) by (cbn [i_powers length]; apply Nat.mod_upper_bound; lia). reflexivity.
Qed.
Lemma cfun_inv x k : from_complex (phi ipw (a_imag A) (cfun x) k) = x k.
Proof. unfold cfun. rewrite phi_inv by apply ipn_ipw. apply from_into. Qed.
Lemma cfun_gp dd P x y k : gp dd 0 P (cfun x) (cfun y) k = cfun (gp dd (a_imag A) P x y) k.
Proof. unfold cfun. rewrite phi_gp by apply ipn_phase. rewrite N.lxor_0_l. unfold phi. f_equal. symmetry. apply into_gp. Qed.
Lemma cfun_add x y k : cfun (fadd x y) k = radd (cfun x k) (cfun y k).
Proof. unfold cfun, fadd. rewrite <- phi_add. unfold phi, fadd. rewrite into_add. reflexivity. Qed.
End Maps.

(** *** [into_original] *)
Section Orig.
Context {T : Type} {RO : RingOps T} {W : NumLaws T} {L : RingLaws T} {md : Mode} {S : Type} {St : Storage T S} {SL : StorageLaws T S}.
Variables (A : algebra) (nn : nat).
Hypothesis HS : alg_std A nn.
Local Notation d := (a_dim A).

Lemma ins_del i : N.testbit i (N.of_nat nn) = false -> insb nn (delb nn i) = i.
Proof.
  intros B. pose proof (pow2_pos nn). assert (E : i = (pow2 (Datatypes.S nn) * (i / pow2 (Datatypes.S nn)) + i mod pow2 (Datatypes.S nn))%N) by (apply N.div_mod; pose proof (pow2_pos (Datatypes.S nn)); lia).
  assert (B' : (i mod pow2 (Datatypes.S nn) < pow2 nn)%N).
  { pose proof (bit_high nn (i mod pow2 (Datatypes.S nn)) (mod_lt_pow2 _ _)) as G. unfold pow2 in G at 1. rewrite N.mod_pow2_bits_low in G by lia. rewrite B in G.
    destruct (N.ltb_spec (i mod pow2 (Datatypes.S nn)) (pow2 nn)); auto. discriminate. }
  rewrite E at 1. rewrite delb_block by auto. rewrite insb_block by auto. auto.
Qed.
Lemma del_ins i : delb nn (insb nn i) = i.
Proof.
  pose proof (pow2_pos nn). rewrite (N.div_mod i (pow2 nn)) at 1 by lia. rewrite insb_block by apply mod_lt_pow2. rewrite delb_block by apply mod_lt_pow2. symmetry. apply N.div_mod. lia.
Qed.
Lemma ins_bit i : N.testbit (insb nn i) (N.of_nat nn) = false.
Proof.
  pose proof (pow2_pos nn). unfold insb. rewrite N.add_comm, block_bits by apply low_lt, mod_lt_pow2. destruct (N.ltb_spec (N.of_nat nn) (N.of_nat (Datatypes.S nn))); [|lia].
  apply (testbit_high _ nn); [apply mod_lt_pow2|lia].
Qed.
Lemma ins_lt i : nn <= d -> (i < pow2 d)%N -> (insb nn i < pow2 (Datatypes.S d))%N.
Proof.
  intros Hn Hi. replace d with (nn + (d - nn)) in Hi by lia. apply block_split in Hi as (w & j & -> & Hw & Hj). rewrite insb_block by auto.
  replace (Datatypes.S d) with (Datatypes.S nn + (d - nn)) by lia. apply block_lt; auto. apply low_lt; auto.
Qed.
Lemma del_lt i : nn <= d -> N.testbit i (N.of_nat nn) = false -> (i < pow2 (Datatypes.S d))%N -> (delb nn i < pow2 d)%N.
Proof.
  intros Hn B Hi. replace (Datatypes.S d) with (Datatypes.S nn + (d - nn)) in Hi by lia. apply block_split in Hi as (w & j & -> & Hw & Hj).
  assert (Hj' : (j < pow2 nn)%N).
  { rewrite block_bits in B by auto. destruct (N.ltb_spec (N.of_nat nn) (N.of_nat (Datatypes.S nn))); [|lia]. rewrite bit_high in B by auto. destruct (N.ltb_spec j (pow2 nn)); auto. discriminate. }
  rewrite delb_block by auto. replace d with (nn + (d - nn)) by lia. apply block_lt; auto.
Qed.

Lemma into_original_odd (x : S) : Nat.even nn = false -> d < 63 -> st_wf (Datatypes.S d) x -> st_dim_ok (StorageLaws := SL) d ->
  exists z, into_original A x = Ok z /\ st_wf d z /\ forall k, (k < pow2 d)%N -> st_coef z k = st_coef x (insb nn k).
Proof.
  intros E Hd Hx DOK. pose proof (std_nn A nn HS) as Hn. unfold into_original. rewrite (even_dim A nn HS E Hd). destruct (Nat.eqb_spec d (Datatypes.S d)); [lia|]. cbv zeta.
  pose proof (st_enum_ok _ x Hx) as He.
  destruct (move_ok (Datatypes.S d) (st_coef x) (mv_coeff_enumerate x) He (fun i => negb (N.testbit i (N.of_nat nn))) (delb nn) (insb nn) (fun _ c => c)) with (B := A) as (z & Ez & Hz & Hc); auto.
  - apply (std_ok _ nn HS).
  - intros i Hi Hk. apply Bool.negb_true_iff in Hk. split; [apply del_lt; auto|apply ins_del; auto].
  - intros k Hk. split; [apply ins_lt; auto|]. rewrite ins_bit, del_ins. auto.
  - exists z. split; [|split; auto]. change (Ok z) with (unwrap (Ok z)). rewrite <- Ez. unfold moved. do 2 f_equal. destruct He as (_ & Hin & _). unfold mv_coeff_enumerate in *. revert Hin. generalize (st_enum x). clear - HS Hd Hn E.
    intros l. induction l as [|[i c] l IH]; intros Hin; [reflexivity|]. cbn [flat_map]. rewrite IH by (intros; apply Hin; right; auto). f_equal. cbn [fst snd].
    destruct (Hin i c (or_introl eq_refl)) as (Hi & _). rewrite (orig_keep A nn HS E Hd) by auto. rewrite (orig_idx A nn HS E Hd) by auto. destruct (N.testbit i (N.of_nat nn)); reflexivity.
Qed.
Lemma into_original_even (x : S) : Nat.even nn = true -> into_original A x = Ok x.
Proof. intros E. unfold into_original. destruct (even_eq A nn HS E) as (-> & _). rewrite Nat.eqb_refl. reflexivity. Qed.

(** Functions padded with zeros at the blades with the extra generator. *)
Definition padf (f : N -> T) (k : N) : T := if N.testbit k (N.of_nat nn) then r0 else f (delb nn k).
Definition pad (g : N -> T) (i : N) : T := if (i <? pow2 nn)%N then g i else r0.
Lemma blk_padf f w i : (i < pow2 (Datatypes.S nn))%N -> blk_of (Datatypes.S nn) (padf f) w i = pad (blk_of nn f w) i.
Proof.
  intros Hi. unfold blk_of at 1, padf, pad. rewrite block_bits by auto. destruct (N.ltb_spec (N.of_nat nn) (N.of_nat (Datatypes.S nn))); [|lia].
  rewrite bit_high by auto. destruct (N.ltb_spec i (pow2 nn)); cbn [negb]; auto. rewrite delb_block by auto. reflexivity.
Qed.
Lemma gp_padf s Q P P' x y k : (forall j, j < s -> N.testbit P (N.of_nat (nn + j)) = true) ->
  (forall j, j < s -> N.testbit P' (N.of_nat (Datatypes.S nn + j)) = true) ->
  (forall j, j < nn -> N.testbit P (N.of_nat j) = N.testbit P' (N.of_nat j)) ->
  (k < pow2 (Datatypes.S nn + s))%N -> gp (Datatypes.S nn + s) Q P' (padf x) (padf y) k = padf (gp (nn + s) Q P x y) k.
Proof.
  intros HP HP' HE Hk. apply block_split in Hk as (w & i & -> & Hw & Hi). rewrite gp_blocks by auto.
  transitivity (pad (wm (gp nn Q P) fadd fneg alpha s (blk_of nn x) (blk_of nn y) w) i).
  2: { fold (blk_of (Datatypes.S nn) (padf (gp (nn + s) Q P x y)) w i). rewrite blk_padf by auto.
    unfold pad. destruct (N.ltb_spec i (pow2 nn)); auto. unfold blk_of at 3. rewrite gp_blocks by auto. reflexivity. }
  symmetry.
  assert (PP : forall a : N -> T, (forall j, (pow2 nn <= j)%N -> pad a j = r0)) by (intros a j Hj; unfold pad; destruct (N.ltb_spec j (pow2 nn)); auto; lia).
  assert (PE : forall (a b : N -> T), feq nn a b -> feq (Datatypes.S nn) (pad a) (pad b)) by (intros a b Hab j Hj; unfold pad; destruct (N.ltb_spec j (pow2 nn)); auto).
  refine (eq_trans (wm_hom (gp nn Q P) fadd fneg alpha (gp (Datatypes.S nn) Q P') fadd fneg alpha (feq (Datatypes.S nn)) _ _ _ _ _ _ pad _ _ _ _ s (blk_of nn x) (blk_of nn y) w Hw i Hi) _).
  - intros a j Hj; reflexivity.
  - intros a b c H1 H2 j Hj. rewrite H1, H2; auto.
  - intros. apply gp_feq; auto.
  - intros ? ? ? ? E1 E2 j Hj. unfold fadd. rewrite E1, E2; auto.
  - intros ? ? E1 j Hj. unfold fneg. rewrite E1; auto.
  - intros ? ? E1 j Hj. unfold alpha. rewrite E1; auto.
  - intros a b j Hj. replace (Datatypes.S nn) with (nn + 1) in * by lia. rewrite (gp_pad nn 1) by (auto using PP). unfold pad at 1. destruct (N.ltb_spec j (pow2 nn)) as [Hj'|Hj']; auto.
    rewrite (gp_masks nn Q P' Q P) by (auto; symmetry; apply low_bits; auto). apply gp_ext; auto; intros t Ht; unfold pad; apply N.ltb_lt in Ht; rewrite Ht; reflexivity.
  - intros a b j Hj. unfold pad, fadd. destruct (j <? pow2 nn)%N; auto. symmetry. apply add_0_r.
  - intros a j Hj. unfold pad, fneg. destruct (j <? pow2 nn)%N; auto. symmetry. apply neg_0.
  - intros a j Hj. unfold pad, alpha. destruct (j <? pow2 nn)%N; auto. symmetry. apply sgb_0.
  - symmetry. refine (wm_e (gp (Datatypes.S nn) Q P') fadd fneg alpha (feq (Datatypes.S nn)) _ _ _ _ s _ _ _ _ w _ _ Hw i Hi).
    + intros. apply gp_feq; auto.
    + intros ? ? ? ? E1 E2 j Hj. unfold fadd. rewrite E1, E2; auto.
    + intros ? ? E1 j Hj. unfold fneg. rewrite E1; auto.
    + intros ? ? E1 j Hj. unfold alpha. rewrite E1; auto.
    + intros v Hv j Hj. apply blk_padf; auto.
    + intros v Hv j Hj. apply blk_padf; auto.
Qed.
End Orig.
