(** Projective geometric algebra. *)
From Verif Require Export Spec_PGA P_Agree P_Halving P_Inv P_Props1 P_Props2 P_Exp.
Local Open Scope nat_scope.

Lemma ones_S n : ones (S n) = (pow2 n + ones n)%N.
Proof. pose proof (ones_add1 n). pose proof (ones_add1 (S n)). rewrite pow2_S in *. lia. Qed.
Lemma ldiff_ones n a : (a < pow2 n)%N -> N.ldiff (ones n) a = N.lxor (ones n) a.
Proof.
  intros Ha. apply N.bits_inj. intros k. rewrite N.ldiff_spec, N.lxor_spec, testbit_ones. destruct (N.ltb_spec k (N.of_nat n)); [destruct (N.testbit a k); reflexivity|].
  replace (N.testbit a k) with false by (symmetry; rewrite <- (N2Nat.id k); apply (testbit_high a n); auto; lia). reflexivity.
Qed.
Lemma cpl_low n a : (a < pow2 n)%N -> N.ldiff (ones (S n)) a = (pow2 n + N.lxor (ones n) a)%N.
Proof. intros Ha. rewrite ldiff_ones by (rewrite pow2_S; lia). rewrite ones_S, lxor_top_l; auto using ones_lt. Qed.
Lemma cpl_high n a : (a < pow2 n)%N -> N.ldiff (ones (S n)) (pow2 n + a) = N.lxor (ones n) a.
Proof. intros Ha. rewrite ldiff_ones by (rewrite pow2_S; lia). rewrite ones_S, lxor_top_top; auto using ones_lt. Qed.
Lemma lxor_eq_ones n a : (a < pow2 n)%N -> N.lxor (ones n) a = 0%N -> a = ones n.
Proof. intros Ha H. apply N.lxor_eq in H. auto. Qed.

Section Fun.
Context {T : Type} {RO : RingOps T} {L : RingLaws T} {CL : CommLaws T}.
Variable n : nat.
Local Notation E := (ones n).
Local Notation e := (pow2 n).
Local Notation g := (gp n 0 e).
Local Notation G := (gp (S n) 0 e).
Definition fd (f : N -> T) (k : N) : T := sgb (beta (S n) k (N.ldiff (ones (S n)) k)) (f (N.ldiff (ones (S n)) k)).

(** A vector: coefficients only on the generators. *)
Definition is_vec (v : N -> T) : Prop := forall k, (k < pow2 (S n))%N -> (forall i, i < S n -> k <> pow2 i) -> v k = r0.
(** 1 + (1/2) e d. *)
Definition is_trans (t : N -> T) (u : nat -> T) : Prop :=
  t 0%N = r1 /\ (forall i, i < n -> t (e + pow2 i)%N = u i) /\
  (forall k, (k < pow2 (S n))%N -> k <> 0%N -> (forall i, i < n -> k <> (e + pow2 i)%N) -> t k = r0).

Lemma gen_null : gen_sq 0 e n = Null.
Proof. unfold gen_sq, pow2. rewrite N.pow2_bits_true. reflexivity. Qed.
Lemma G_low x y k : (k < e)%N -> G x y k = g x y k.
Proof. intros Hk. rewrite gp_S_low, gen_null by auto. cbn [act]. apply add_0_r. Qed.
Lemma pow2_ne0 i : pow2 i <> 0%N.
Proof. pose proof (pow2_pos i). lia. Qed.
Lemma t_low t u : is_trans t u -> feq n t (del 0 r1).
Proof.
  intros (H0 & _ & Hz) k Hk. unfold del. destruct (N.eqb_spec k 0) as [->|Hk0]; auto. apply Hz; auto; [rewrite pow2_S; lia|]. intros i Hi. lia.
Qed.
Lemma t_up t u k : is_trans t u -> (k < e)%N -> (forall i, i < n -> k <> pow2 i) -> up n t k = r0.
Proof.
  intros (_ & _ & Hz) Hk Hn. unfold up. apply Hz; [rewrite pow2_S; lia|pose proof (pow2_pos n); lia|]. intros i Hi EE. apply (Hn i Hi). lia.
Qed.
Lemma rev_low t u : is_trans t u -> feq n (frev t) (del 0 r1).
Proof.
  intros Ht k Hk. unfold frev. rewrite (t_low t u Ht k Hk). unfold del. destruct (N.eqb_spec k 0) as [->|]; [reflexivity|apply sgb_0].
Qed.
Lemma alpha_del0 f : feq n f (del 0 r1) -> feq n (alpha f) (del 0 r1).
Proof. intros H k Hk. unfold alpha. rewrite H by auto. unfold del. destruct (N.eqb_spec k 0) as [->|]; [reflexivity|apply sgb_0]. Qed.
Lemma popcount_top i : i < n -> popcount (e + pow2 i)%N = 2.
Proof. intros Hi. rewrite popcount_add_pow2 by (apply pow2_lt; auto). rewrite popcount_pow2. reflexivity. Qed.
Lemma rev_up t u : is_trans t u -> feq n (up n (frev t)) (fneg (up n t)).
Proof.
  intros Ht k Hk. unfold up, frev, fneg. destruct (existsb (fun i => (k =? pow2 i)%N) (seq 0 n)) eqn:Ex.
  - apply existsb_exists in Ex as (i & Hi & Ek). apply in_seq in Hi. apply N.eqb_eq in Ek as ->. rewrite popcount_top by lia. reflexivity.
  - assert (Hn : forall i, i < n -> k <> pow2 i).
    { intros i Hi ->. assert (Ex' : existsb (fun j => (pow2 i =? pow2 j)%N) (seq 0 n) = true) by (apply existsb_exists; exists i; split; [apply in_seq; lia|apply N.eqb_refl]). congruence. }
    pose proof (t_up t u k Ht Hk Hn) as Z. unfold up in Z. rewrite Z, sgb_0, neg_0. reflexivity.
Qed.

(** rev(t) * t = 1 *)
Lemma rev_trans t u : is_trans t u -> feq (S n) (G (frev t) t) (del 0 r1).
Proof.
  intros Ht k Hk. destruct (N.ltb_spec k e) as [Hl|Hl].
  - rewrite G_low by auto. rewrite (gp_ext n _ _ _ (del 0 r1) _ t) by (auto using feq_refl; eapply rev_low; eauto). rewrite gp_1_l. apply (t_low t u Ht); auto.
  - rewrite pow2_S in Hk. replace k with (e + (k - e))%N by lia. set (j := (k - e)%N). assert (Hj : (j < e)%N) by (unfold j; lia). rewrite gp_S_high by auto.
    rewrite (gp_ext n _ _ (up n (frev t)) (fneg (up n t)) t (del 0 r1)) by (first [apply (rev_up t u Ht)|apply (t_low t u Ht)|auto]).
    rewrite (gp_ext n _ _ (alpha (frev t)) (del 0 r1) (up n t) (up n t)) by (auto using feq_refl; apply alpha_del0; apply (rev_low t u Ht)).
    rewrite gp_1_l, gp_1_r by auto. unfold fneg. rewrite add_comm, add_neg_r. unfold del. destruct (N.eqb_spec (e + j) 0); [|reflexivity]. pose proof (pow2_pos n). lia.
Qed.
(** t1 * t2 *)
Lemma mul_trans t1 u1 t2 u2 : is_trans t1 u1 -> is_trans t2 u2 -> is_trans (G t1 t2) (fun i => radd (u1 i) (u2 i)).
Proof.
  intros H1 H2. assert (Hi : forall j, (j < e)%N -> G t1 t2 (e + j)%N = radd (up n t1 j) (up n t2 j)).
  { intros j Hj. rewrite gp_S_high by auto. rewrite (gp_ext n _ _ (up n t1) (up n t1) t2 (del 0 r1)) by (auto using feq_refl; apply (t_low _ _ H2)).
    rewrite (gp_ext n _ _ (alpha t1) (del 0 r1) (up n t2) (up n t2)) by (auto using feq_refl; apply alpha_del0; apply (t_low _ _ H1)). rewrite gp_1_l, gp_1_r by auto. reflexivity. }
  assert (Lo : forall j, (j < e)%N -> G t1 t2 j = del 0 r1 j).
  { intros j Hj. rewrite G_low by auto. rewrite (gp_ext n _ _ t1 (del 0 r1) t2 t2) by (auto using feq_refl; apply (t_low _ _ H1)). rewrite gp_1_l. apply (t_low _ _ H2); auto. }
  split; [rewrite Lo by apply pow2_pos; reflexivity|]. split.
  - intros i Hin. rewrite Hi by (apply pow2_lt; auto). unfold up. destruct H1 as (_ & H1 & _), H2 as (_ & H2 & _). rewrite H1, H2 by auto. reflexivity.
  - intros k Hk H0 Hn. destruct (N.ltb_spec k e) as [Hl|Hl].
    + rewrite Lo by auto. unfold del. destruct (N.eqb_spec k 0); [contradiction|reflexivity].
    + rewrite pow2_S in Hk. replace k with (e + (k - e))%N by lia. rewrite Hi by lia.
      assert (Hm : forall i, i < n -> (k - e)%N <> pow2 i) by (intros i Hin EE; apply (Hn i Hin); lia).
      rewrite (t_up _ _ _ H1), (t_up _ _ _ H2) by (auto; lia). apply add_0_l.
Qed.

(** The dual of a vector, scaled. *)
Section Point.
Variables (v : N -> T) (w : T).
Hypothesis Hv : is_vec v.
Let Pf (k : N) : T := rmul (fd v k) w.
Lemma P_low : feq n Pf (del E (sgb (par E) (rmul (v e) w))).
Proof.
  intros k Hk. unfold Pf, fd. rewrite cpl_low by auto. unfold del. destruct (N.eqb_spec k E) as [->|Hne].
  - rewrite N.lxor_nilpotent, N.add_0_r. rewrite <- (N.add_0_r e) at 1. rewrite beta_S_01, beta_0_r, xorb_false_r by (auto using ones_lt; apply pow2_pos). apply sgb_mul_l.
  - rewrite Hv, sgb_0, mul_0_l; auto; [rewrite pow2_S; pose proof (lxor_lt E k n (ones_lt n) Hk); lia|].
    intros i Hi EE. assert (Hx : N.lxor E k = 0%N); [|apply Hne; apply lxor_eq_ones; auto]. pose proof (lxor_lt E k n (ones_lt n) Hk).
    destruct (Nat.eq_dec i n) as [->|Hin]; [lia|]. pose proof (pow2_lt i n ltac:(lia)). lia.
Qed.
Lemma P_high i : i < n -> Pf (e + N.lxor E (pow2 i))%N = sgb (beta n (N.lxor E (pow2 i)) (pow2 i)) (rmul (v (pow2 i)) w).
Proof.
  intros Hi. pose proof (pow2_lt i n Hi) as Hp. assert (Hx : (N.lxor E (pow2 i) < e)%N) by (apply lxor_lt; auto using ones_lt).
  unfold Pf, fd. rewrite cpl_high by auto. rewrite <- N.lxor_assoc, N.lxor_nilpotent, N.lxor_0_l, beta_S_10 by auto. apply sgb_mul_l.
Qed.

Variables (t : N -> T) (u : nat -> T).
Hypothesis Ht : is_trans t u.
Let X := G (G (frev t) Pf) t.
Lemma X_low k : (k < e)%N -> X k = Pf k.
Proof.
  intros Hk. unfold X. rewrite G_low by auto. rewrite (gp_ext n _ _ (G (frev t) Pf) Pf t (del 0 r1)); auto; [apply gp_1_r; auto| |apply (t_low _ _ Ht)].
  intros j Hj. rewrite G_low by auto. rewrite (gp_ext n _ _ _ (del 0 r1) _ Pf) by (auto using feq_refl; eapply rev_low; eauto). apply gp_1_l.
Qed.
Lemma X_high i : i < n -> X (e + N.lxor E (pow2 i))%N =
  rsub (Pf (e + N.lxor E (pow2 i))%N) (sgb (xorb (beta n (pow2 i) E) (par E)) (rmul (radd (u i) (u i)) (rmul (v e) w))).
Proof.
  intros Hi. pose proof (pow2_lt i n Hi) as Hp. set (k := N.lxor E (pow2 i)). assert (Hk : (k < e)%N) by (apply lxor_lt; auto using ones_lt).
  unfold X. rewrite gp_S_high by auto.
  rewrite (gp_ext n _ _ (up n (G (frev t) Pf)) (up n (G (frev t) Pf)) t (del 0 r1)) by (auto using feq_refl; apply (t_low _ _ Ht)). rewrite gp_1_r by auto.
  unfold up at 1. rewrite gp_S_high by auto.
  rewrite (gp_ext n _ _ (alpha (frev t)) (del 0 r1) (up n Pf) (up n Pf)) by (auto using feq_refl; apply alpha_del0; apply (rev_low _ _ Ht)). rewrite gp_1_l.
  set (c := sgb (par E) (rmul (v e) w)).
  rewrite (gp_ext n _ _ (up n (frev t)) (fneg (up n t)) Pf (del E c)) by (first [apply (rev_up _ _ Ht)|apply P_low|auto]). rewrite gp_neg_l, gp_del_r by auto using ones_lt.
  assert (Ea : feq n (alpha (G (frev t) Pf)) (del E (sgb (par E) c))).
  { intros j Hj. unfold alpha. rewrite G_low by auto. rewrite (gp_ext n _ _ _ (del 0 r1) _ Pf) by (auto using feq_refl; eapply rev_low; eauto). rewrite gp_1_l.
    rewrite P_low by auto. unfold del. destruct (N.eqb_spec j E) as [->|]; [reflexivity|apply sgb_0]. }
  rewrite (gp_ext n _ _ (alpha (G (frev t) Pf)) (del E (sgb (par E) c)) (up n t) (up n t)) by (auto using feq_refl). rewrite gp_del_l by auto using ones_lt.
  assert (E1 : N.lxor E k = pow2 i) by (unfold k; rewrite <- N.lxor_assoc, N.lxor_nilpotent; apply N.lxor_0_l).
  assert (E2 : N.lxor k E = pow2 i) by (rewrite N.lxor_comm; exact E1). rewrite E1, E2.
  assert (Hu : up n t (pow2 i) = u i) by (destruct Ht as (_ & H & _); apply H; auto). rewrite Hu.
  assert (Hl : N.land E (pow2 i) = pow2 i).
  { apply N.bits_inj. intros j. rewrite N.land_spec, testbit_ones. unfold pow2. rewrite N.pow2_bits_eqb. destruct (N.eqb_spec (N.of_nat i) j) as [<-|]; [|apply andb_false_r]. apply andb_true_iff. split; auto. apply N.ltb_lt. lia. }
  assert (Hs : forall a b, (a < e)%N -> gsign n 0 e a b = of_bool (beta n a b)).
  { intros a b Ha. unfold gsign. rewrite N.land_0_r. replace (N.land (N.land a b) e) with 0%N; [cbn; rewrite xorb_false_r; reflexivity|].
    symmetry. apply N.bits_inj. intros j. rewrite !N.land_spec, N.bits_0. unfold pow2. rewrite N.pow2_bits_eqb. destruct (N.eqb_spec (N.of_nat n) j) as [<-|]; [|apply andb_false_r].
    rewrite (testbit_high a n) by (auto; lia). reflexivity. }
  rewrite !Hs by auto using ones_lt. rewrite !act_of_bool.
  rewrite (beta_comm n (pow2 i) E) by auto using ones_lt. rewrite par_pow2, (N.land_comm (pow2 i)), Hl, par_pow2. rewrite andb_true_l.
  unfold c. set (b := beta n (pow2 i) E). set (p := par E). rewrite !sgb_mul_r, !sgb_mul_l, !sgb_sgb. rewrite (mul_comm (rmul (v e) w) (u i)). rewrite mul_add_l, sgb_add. set (z := rmul (u i) (rmul (v e) w)).
  unfold up. rewrite (sub_def (Pf _)), neg_add. rewrite (add_comm (rneg _) (Pf _)), <- add_assoc. f_equal. f_equal.
  destruct b, p; cbn; rewrite ?neg_neg; reflexivity.
Qed.

(** Extraction of the translated point. *)
Lemma sd_scale Y : (forall k, (k < e)%N -> Y k = Pf k) -> fd Y e = sgb (par E) (rmul (v e) w).
Proof.
  intros HY. unfold fd. rewrite <- (N.add_0_r e). rewrite cpl_high, N.lxor_0_r by apply pow2_pos. rewrite beta_S_10, beta_0_l by (auto using ones_lt, pow2_pos). cbn [sgb].
  rewrite HY by apply ones_lt. rewrite P_low by apply ones_lt. rewrite N.add_0_r. apply del_eq.
Qed.
Lemma beta_pow i : i < n -> beta n (pow2 i) (pow2 i) = false.
Proof. intros Hi. rewrite beta_self by (apply pow2_lt; auto). rewrite popcount_pow2. reflexivity. Qed.
Lemma sd_coord_gen Y i q : i < n -> Y (e + N.lxor E (pow2 i))%N = sgb (xorb (xorb (beta n (pow2 i) E) (par E)) true) q ->
  fd Y (pow2 i) = sgb (par E) q.
Proof.
  intros Hi HY. pose proof (pow2_lt i n Hi) as Hp. unfold fd. rewrite cpl_low by auto. rewrite HY.
  rewrite beta_S_01 by (auto; apply lxor_lt; auto using ones_lt). rewrite par_pow2, beta_lxor_r, beta_pow, xorb_false_r, sgb_sgb by auto. f_equal. destruct (beta n (pow2 i) E), (par E); reflexivity.
Qed.
Lemma P_high' i : i < n -> Pf (e + N.lxor E (pow2 i))%N = sgb (xorb (xorb (beta n (pow2 i) E) (par E)) true) (rmul (v (pow2 i)) w).
Proof.
  intros Hi. rewrite P_high by auto. f_equal. pose proof (pow2_lt i n Hi) as Hp. rewrite beta_lxor_l, beta_pow, xorb_false_r by auto.
  rewrite (beta_comm n (pow2 i) E) by auto using ones_lt. rewrite par_pow2, andb_true_l.
  replace (N.land (pow2 i) E) with (pow2 i); [rewrite par_pow2; destruct (beta n (pow2 i) E), (par E); reflexivity|].
  apply N.bits_inj. intros j. rewrite N.land_spec, testbit_ones. unfold pow2. rewrite N.pow2_bits_eqb. destruct (N.eqb_spec (N.of_nat i) j) as [<-|]; [|reflexivity]. rewrite andb_true_l. symmetry. apply N.ltb_lt. lia.
Qed.
Lemma P_extract i : i < n -> fd Pf (pow2 i) = sgb (par E) (rmul (v (pow2 i)) w).
Proof. intros Hi. apply sd_coord_gen; auto. apply P_high'; auto. Qed.
Lemma X_extract i : i < n -> fd X (pow2 i) = sgb (par E) (rmul (radd (v (pow2 i)) (rmul (radd (u i) (u i)) (v e))) w).
Proof.
  intros Hi. apply sd_coord_gen; auto. rewrite X_high, P_high' by auto. rewrite sub_def.
  replace (rmul (radd (v (pow2 i)) (rmul (radd (u i) (u i)) (v e))) w) with (radd (rmul (v (pow2 i)) w) (rmul (radd (u i) (u i)) (rmul (v e) w))) by (rewrite (mul_add_l (v (pow2 i)) (rmul (radd (u i) (u i)) (v e)) w), <- mul_assoc; reflexivity).
  rewrite (sgb_add (xorb _ true)). f_equal.
  destruct (beta n (pow2 i) E), (par E); cbn; rewrite ?neg_neg; reflexivity.
Qed.
Lemma X_scale : fd X e = sgb (par E) (rmul (v e) w).
Proof. apply sd_scale. exact X_low. Qed.
Lemma P_scale : fd Pf e = sgb (par E) (rmul (v e) w).
Proof. apply sd_scale. auto. Qed.
End Point.

(** The wedge of a vector and the dual of a vector. *)
Lemma sumI_vec d (f : N -> T) : (forall k, (k < pow2 d)%N -> (forall i, i < d -> k <> pow2 i) -> f k = r0) -> sumI d f = suml (fun i => f (pow2 i)) (seq 0 d).
Proof.
  induction d as [|d IH]; intros Hf; [rewrite sumI_O; apply Hf; [reflexivity|intros; lia]|].
  rewrite sumI_S, seq_S, suml_app. cbn [suml Nat.add fold_right map]. f_equal.
  - apply IH. intros k Hk Hn. apply Hf; [rewrite pow2_S; lia|]. intros i Hi. destruct (Nat.eq_dec i d) as [->|]; [lia|apply Hn; lia].
  - rewrite (sumI_single d _ 0%N); [rewrite N.add_0_r; unfold suml; cbn; rewrite ?add_0_r; reflexivity|apply pow2_pos|].
    intros k Hk H0. apply Hf; [rewrite pow2_S; lia|]. intros i Hi EE. destruct (Nat.eq_dec i d) as [->|]; [lia|]. pose proof (pow2_lt i d ltac:(lia)). lia.
Qed.
Local Notation F := (ones (S n)).
Lemma land_ones_pow i : i < S n -> N.land F (pow2 i) = pow2 i.
Proof.
  intros Hi. apply N.bits_inj. intros j. rewrite N.land_spec, testbit_ones. unfold pow2. rewrite N.pow2_bits_eqb. destruct (N.eqb_spec (N.of_nat i) j) as [<-|]; [|apply andb_false_r]. apply andb_true_iff. split; auto. apply N.ltb_lt. lia.
Qed.
Lemma par_F : par F = negb (par E).
Proof. rewrite ones_S. apply par_add_pow2. apply ones_lt. Qed.
Lemma wedge_vec_dual a v k : is_vec a -> is_vec v -> (k < pow2 (S n))%N ->
  gp (S n) 0 F a (fd v) k = if (k =? F)%N then sgb (par E) (suml (fun i => rmul (a (pow2 i)) (v (pow2 i))) (seq 0 (S n))) else r0.
Proof.
  intros Ha Hv Hk. unfold gp. rewrite sumI_vec.
  2:{ intros j Hj Hn. rewrite Ha, mul_0_l by auto. apply act_0. }
  assert (Hd : forall i, i < S n -> (N.lxor (pow2 i) k < pow2 (S n))%N) by (intros i Hi; apply lxor_lt; auto; apply pow2_lt; auto).
  destruct (N.eqb_spec k F) as [->|Hne].
  - rewrite <- suml_sgb. apply suml_ext. intros i Hi. apply in_seq in Hi. destruct Hi as [_ Hi]. cbn [Nat.add] in Hi.
    pose proof (pow2_lt i (S n) Hi) as Hp. rewrite (N.lxor_comm (pow2 i) F).
    assert (Hc : (N.lxor F (pow2 i) < pow2 (S n))%N) by (apply lxor_lt; auto using ones_lt).
    assert (Hz : N.land (pow2 i) (N.lxor F (pow2 i)) = 0%N).
    { apply N.bits_inj. intros j. rewrite N.land_spec, N.lxor_spec, testbit_ones, N.bits_0. unfold pow2. rewrite N.pow2_bits_eqb. destruct (N.eqb_spec (N.of_nat i) j) as [<-|]; [|reflexivity].
      replace (N.of_nat i <? N.of_nat (S n))%N with true by (symmetry; apply N.ltb_lt; lia). reflexivity. }
    unfold fd. rewrite ldiff_ones by auto. rewrite <- N.lxor_assoc, N.lxor_nilpotent, N.lxor_0_l.
    unfold gsign. rewrite Hz, !N.land_0_l. cbn [N.eqb]. rewrite act_of_bool. rewrite (beta_comm (S n) (pow2 i) (N.lxor F (pow2 i))) by auto.
    rewrite Hz, par_pow2, andb_true_l, par_lxor, par_pow2, par_F. change (par 0) with false. rewrite sgb_mul_r, sgb_sgb. f_equal. destruct (beta (S n) (pow2 i) (N.lxor F (pow2 i))), (par E); reflexivity.
  - apply suml_0. intros i Hi. apply in_seq in Hi. destruct Hi as [_ Hi]. cbn [Nat.add] in Hi. pose proof (pow2_lt i (S n) Hi) as Hp.
    unfold gsign. rewrite N.land_0_r. set (l := N.lxor (pow2 i) k). replace (N.land (N.land (pow2 i) l) F) with (N.land (pow2 i) l).
    2:{ rewrite (N.land_comm (pow2 i) l), <- N.land_assoc, (N.land_comm (pow2 i) F), land_ones_pow by auto. reflexivity. }
    destruct (N.eqb_spec (N.land (pow2 i) l) 0) as [Hz|Hz]; [|reflexivity].
    rewrite act_of_bool. unfold fd. rewrite ldiff_ones by (apply Hd; auto). rewrite Hv; [rewrite sgb_0, mul_0_r; apply sgb_0|apply lxor_lt; [apply ones_lt|apply Hd; auto]|].
    intros j Hj EE. apply Hne.
    assert (El : l = N.lxor F (pow2 j)) by (rewrite <- EE, <- N.lxor_assoc, N.lxor_nilpotent, N.lxor_0_l; reflexivity).
    assert (j = i).
    { destruct (Nat.eq_dec j i); auto. exfalso. assert (Eb : N.testbit (N.land (pow2 i) l) (N.of_nat i) = true); [|rewrite Hz, N.bits_0 in Eb; discriminate].
      rewrite El, N.land_spec, N.lxor_spec, testbit_ones. unfold pow2. rewrite N.pow2_bits_true, N.pow2_bits_eqb. replace (N.of_nat i <? N.of_nat (S n))%N with true by (symmetry; apply N.ltb_lt; lia).
      destruct (N.eqb_spec (N.of_nat j) (N.of_nat i)); [lia|reflexivity]. }
    subst j. unfold l in El. transitivity (N.lxor (pow2 i) (N.lxor (pow2 i) k)); [rewrite <- N.lxor_assoc, N.lxor_nilpotent, N.lxor_0_l; reflexivity|].
    rewrite El, (N.lxor_comm F), <- N.lxor_assoc, N.lxor_nilpotent. apply N.lxor_0_l.
Qed.
End Fun.

Lemma pga_masks {m : Mode} sg A n : impl_pga sg = Some n -> declared sg A -> a_dim A = S n /\ a_imag A = 0%N /\ a_proj A = pow2 n.
Proof.
  intros Hp [[names E] Hl]. apply pga_spec in Hp as (Hn & ->). apply masks_thm in E. destruct E as (Ed & Hb & _). rewrite app_length, repeat_length in Ed. cbn [length] in Ed.
  assert (Hr : forall i u, nth_error (repeat Tplus n ++ [Tnull]) i = Some u <-> (i < n /\ u = Tplus) \/ (i = n /\ u = Tnull)).
  { intros i u. destruct (Nat.lt_ge_cases i n) as [Hi|Hi].
    - rewrite nth_error_app1 by (rewrite repeat_length; auto). rewrite (nth_error_nth' _ Tplus) by (rewrite repeat_length; auto). rewrite nth_repeat. split; [intros EE; injection EE as <-; auto|intros [[_ ->]|[-> _]]; [auto|lia]].
    - rewrite nth_error_app2 by (rewrite repeat_length; auto). rewrite repeat_length. destruct (Nat.eq_dec i n) as [->|Hi'].
      + rewrite Nat.sub_diag. cbn. split; [intros EE; injection EE as <-; auto|intros [[? _]|[_ ->]]; [lia|auto]].
      + assert (EE : nth_error [Tnull] (i - n) = None) by (apply nth_error_None; cbn; lia). rewrite EE. split; [discriminate|]. intros [[? _]|[? _]]; lia. }
  split; [lia|]. split.
  - apply N_bits_nat. intros i. rewrite N.bits_0. apply not_true_iff_false. destruct (Hb i) as (_ & H & _). rewrite H, Hr. intros [[_ ?]|[_ ?]]; discriminate.
  - apply N_bits_nat. intros i. unfold pow2. rewrite N.pow2_bits_eqb. apply eq_true_iff_eq. destruct (Hb i) as (_ & _ & H). rewrite H, Hr, N.eqb_eq. split; [intros [[_ ?]|[? _]]; [discriminate|lia]|intros; right; split; auto; lia].
Qed.

Section Calls.
Context {T : Type} {RO : RingOps T} {L : RingLaws T} {CL : CommLaws T} {DV : DivOps T} {FL : FieldLaws T} {SQ : SqrtOps T} {SQL : SqrtLaws T} {FR : FormallyReal T} {m : Mode} {H : HashOrder}.
Variables (k : kind) (sg : list tok) (A : algebra) (n : nat).
Hypothesis HP : impl_pga sg = Some n.
Hypothesis D : declared sg A.
Hypothesis Hs : supports k A.
Local Notation Sk := (store k T).
Local Notation e := (pow2 n).
Implicit Types p d ec : list T.

Lemma Ad : a_dim A = S n. Proof. apply (pga_masks sg A n HP D). Qed.
Lemma Ai : a_imag A = 0%N. Proof. apply (pga_masks sg A n HP D). Qed.
Lemma Ap : a_proj A = e. Proof. apply (pga_masks sg A n HP D). Qed.
Lemma n63 : n < 63. Proof. pose proof (declared_dim _ _ D). destruct D as [_ ?]. pose proof Ad. lia. Qed.

Lemma fold_sum (f : T -> T) l : forall a, fold_left radd (map f l) a = radd a (suml f l).
Proof. induction l as [|x l IH]; intros a; cbn [map fold_left]; [unfold suml; cbn; rewrite add_0_r; reflexivity|]. rewrite IH. change (suml f (x :: l)) with (radd (f x) (suml f l)). rewrite add_assoc. reflexivity. Qed.
Lemma mag_nz l : nonzero l -> pga_mag l <> r0.
Proof.
  intros Hn E. unfold pga_mag in E. apply sqrt_zero in E. rewrite fold_sum, add_0_l in E. apply sum_sq in E. unfold nonzero in Hn. rewrite Exists_exists in Hn. rewrite Forall_forall in E. destruct Hn as (x & Hx & Hz). apply Hz, E, Hx.
Qed.
Lemma div_w (a b : T) : b <> r0 -> rdiv a b = rmul a (rdiv r1 b).
Proof. intros Hb. apply div_unique; auto. rewrite <- mul_assoc, div_mul, mul_1_r by auto. reflexivity. Qed.
Lemma div_0 (b : T) : b <> r0 -> rdiv r0 b = r0.
Proof. intros Hb. rewrite div_w by auto. apply mul_0_l. Qed.
Lemma inv_nz (b : T) : b <> r0 -> rdiv r1 b <> r0.
Proof. intros Hb E. pose proof (div_mul r1 b Hb) as X. rewrite E, mul_0_l in X. apply one_neq_zero. symmetry. exact X. Qed.
Lemma field_int (a b : T) : rmul a b = r0 -> b <> r0 -> a = r0.
Proof. intros E Hb. rewrite <- (mul_1_r a). pose proof (div_mul r1 b Hb) as X. rewrite mul_comm in X. rewrite <- X, mul_assoc, E. apply mul_0_l. Qed.
Lemma two_nz : radd r1 r1 <> (r0 : T).
Proof.
  intros E. assert (X : suml (fun a => rmul a a) [r1; r1] = (r0 : T)) by (unfold suml; cbn; rewrite !mul_1_l, add_0_r; exact E). apply sum_sq in X. inversion X as [|? ? X1 _]. revert X1. apply one_neq_zero.
Qed.

Lemma vec_gives cs : length cs = S n -> exists v, is_vec n v /\ (forall i, i < S n -> v (pow2 i) = nth i cs r0) /\ gives A (mv_from_vector A cs : res Sk) v.
Proof.
  intros Hl. assert (HD := supports_dim (T := T) sg A k D Hs). rewrite <- Ad in Hl. destruct (from_vector_ok (S := Sk) A (declared_ok _ _ D) HD cs Hl) as (z & E & Hz & H1 & H2).
  exists (st_coef z). split; [intros j _ Hj; apply H2; rewrite Ad; auto|]. split; [intros i Hi; apply H1; rewrite Ad; auto|]. apply gives_iff. exists z. split; [exact E|]. split; [exact Hz|]. auto.
Qed.
Lemma fdual_fd (f : N -> T) j : fdual A f j = fd n f j.
Proof. unfold fdual, fd, cpl. rewrite Ad. reflexivity. Qed.
Lemma point_gives p : length p = n -> nonzero p -> exists v, is_vec n v /\ (forall i, i < n -> v (pow2 i) = nth i p r0) /\ v e = r1 /\
  gives A (pga_point A p : res Sk) (fun j => rmul (fd n v j) (rdiv r1 (pga_mag p))).
Proof.
  intros Hl Hn. destruct (vec_gives (p ++ [r1])) as (v & Hv & Hc & G); [rewrite app_length; cbn; lia|]. exists v. split; auto. split; [|split].
  - intros i Hi. rewrite Hc by lia. apply app_nth1. lia.
  - rewrite Hc by lia. rewrite app_nth2, Hl, Nat.sub_diag by lia. reflexivity.
  - unfold pga_point. pose proof (mag_nz p Hn) as Hm. eapply gives_bind; [exact G|]. intros z Hz Hf. eapply gives_bind; [apply (h_dual A sg D z v Hz Hf)|]. intros y Hy Hg.
    eapply gives_ext; [apply (h_divs A y _ _ (div_0 _ Hm) Hy Hg)|]. intros j Hj. cbv beta. rewrite div_w by auto. rewrite fdual_fd. reflexivity.
Qed.
Lemma plane_gives ec : length ec = S n -> nonzero ec -> exists v, is_vec n v /\ (forall i, i < S n -> v (pow2 i) = rmul (nth i ec r0) (rdiv r1 (pga_mag ec))) /\
  gives A (pga_hyperplane A ec : res Sk) v.
Proof.
  intros Hl Hn. pose proof (mag_nz ec Hn) as Hm. destruct (vec_gives ec Hl) as (v & Hv & Hc & G). exists (fun j => rmul (v j) (rdiv r1 (pga_mag ec))). split; [|split].
  - intros j Hj Hj'. rewrite Hv by auto. apply mul_0_l.
  - intros i Hi. rewrite Hc by auto. reflexivity.
  - unfold pga_hyperplane. eapply gives_bind; [exact G|]. intros z Hz Hf. eapply gives_ext; [apply (h_divs A z _ _ (div_0 _ Hm) Hz Hf)|]. intros j Hj. cbv beta. apply div_w; auto.
Qed.

Lemma extract_eq (x : Sk) f : valid A x -> feq (S n) (rd x) f ->
  pga_extract_point A n x = Ok (map (fun i => rdiv (fd n f (pow2 i)) (fd n f e)) (seq 0 n)).
Proof.
  intros Hx Hf. unfold pga_extract_point. rewrite <- Ad in Hf. destruct (h_dual A sg D x f Hx Hf) as (y & -> & Hy & Hc). cbn [bind]. rewrite Ap, Hc by (rewrite Ad, pow2_S; pose proof (pow2_pos n); lia). cbn [bind]. rewrite fdual_fd.
  apply mapM_Ok. intros i Hi. apply in_seq in Hi. rewrite shl_1 by (pose proof n63; lia). cbn [bind]. rewrite Hc by (rewrite Ad; apply pow2_lt; lia). cbn [bind]. rewrite fdual_fd. reflexivity.
Qed.
Lemma ratio b (a w : T) : w <> r0 -> rdiv (sgb b (rmul a w)) (sgb b w) = a.
Proof. intros Hw. apply div_unique; [intros E; apply sgb_eq0 in E; auto|]. rewrite sgb_mul_r. reflexivity. Qed.

Lemma list_nth_eq p (f : nat -> T) : length p = n -> (forall i, i < n -> f i = nth i p r0) -> map f (seq 0 n) = p.
Proof.
  intros Hl Hf. apply (list_ext r0); [rewrite map_length, seq_length; auto|]. rewrite map_length, seq_length. intros i Hi. rewrite (nth_map_lt _ _ _ 0) by (rewrite seq_length; auto). rewrite seq_nth by auto. apply Hf. auto.
Qed.
Lemma c48 p : length p = n -> nonzero p -> (x <- (pga_point A p : res Sk) ;; pga_extract_point A n x) = Ok p.
Proof.
  intros Hl Hn. destruct (point_gives p Hl Hn) as (v & Hv & Hc & H1 & (x & -> & Hx & Hf)). cbn [bind].
  rewrite (extract_eq x _ Hx (fun j Hj => ltac:(unfold rd; rewrite Hf by (rewrite Ad; exact Hj); reflexivity))). f_equal. apply list_nth_eq; auto. intros i Hi.
  rewrite (P_extract n v _ i Hi), (P_scale n v _ Hv), H1, mul_1_l, Hc by auto. apply ratio. apply inv_nz. apply mag_nz; auto.
Qed.

(** ** The translation motor *)
Definition tstep (ret : Sk) (nc : nat * T) : res Sk :=
  b <- shl 1 (fst nc) ;; let idx := N.lor (a_proj A) b in let c := rdiv (snd nc) (radd r1 r1) in
  q <- shl 1 (a_dim A) ;; if (q <=? idx)%N then Err IndexOutOfBounds else Ok (st_set ret idx c).
Lemma lor_e i : i < n -> N.lor e (pow2 i) = (e + pow2 i)%N.
Proof.
  intros Hi. pose proof (pow2_lt i n Hi). rewrite N.add_nocarry_lxor; [symmetry; apply N.lxor_lor|]; (apply N.bits_inj; intros j; rewrite N.land_spec, N.bits_0; unfold pow2; rewrite !N.pow2_bits_eqb; destruct (N.eqb_spec (N.of_nat n) j), (N.eqb_spec (N.of_nat i) j); try reflexivity; lia).
Qed.
Lemma lor_lt' i : i <= n -> (N.lor e (pow2 i) < pow2 (S n))%N.
Proof. intros Hi. destruct (Nat.eq_dec i n) as [->|]; [rewrite N.lor_diag|rewrite lor_e by lia; pose proof (pow2_lt i n ltac:(lia))]; rewrite pow2_S; pose proof (pow2_pos n); lia. Qed.
Lemma lor_inj i j : i <= n -> j <= n -> N.lor e (pow2 i) = N.lor e (pow2 j) -> i = j.
Proof.
  intros Hi Hj E. destruct (Nat.eq_dec i n) as [->|]; destruct (Nat.eq_dec j n) as [->|]; auto.
  - rewrite N.lor_diag, lor_e in E by lia. pose proof (pow2_pos j). lia.
  - rewrite N.lor_diag, lor_e in E by lia. pose proof (pow2_pos i). lia.
  - rewrite !lor_e in E by lia. apply pow2_inj. lia.
Qed.
Lemma tfold cs : forall j (z : Sk), st_wf (S n) z -> j + length cs <= S n -> exists z', foldM tstep (combine (seq j (length cs)) cs) z = Ok z' /\ st_wf (S n) z' /\
  (forall i, i < length cs -> st_coef z' (N.lor e (pow2 (j + i))) = rdiv (nth i cs r0) (radd r1 r1)) /\
  (forall l, (forall i, i < length cs -> l <> N.lor e (pow2 (j + i))) -> st_coef z' l = st_coef z l).
Proof.
  induction cs as [|c cs IH]; intros j z Hz Hj; [exists z; cbn; split; auto; split; auto; split; [intros; lia|auto]|].
  cbn [length] in Hj. cbn [length seq combine foldM]. unfold tstep at 1. cbn [fst snd]. rewrite shl_1 by (pose proof n63; lia). cbn [bind]. rewrite Ad, shl_1 by (pose proof n63; lia). cbn [bind]. rewrite Ap.
  pose proof (lor_lt' j ltac:(lia)) as Hlt. destruct (N.leb_spec (pow2 (S n)) (N.lor e (pow2 j))) as [X|_]; [exfalso; lia|]. cbn [bind].
  destruct (st_set_ok (S n) z (N.lor e (pow2 j)) (rdiv c (radd r1 r1)) Hz) as (Hz1 & Hc1).
  destruct (IH (S j) _ Hz1 ltac:(lia)) as (z' & E & Hz' & F1 & F2). exists z'. split; [exact E|]. split; auto. split.
  - intros [|i] Hi.
    + rewrite Nat.add_0_r. rewrite F2, Hc1, N.eqb_refl; [apply N.ltb_lt in Hlt; rewrite Hlt; reflexivity|]. intros i Hi' EE. apply lor_inj in EE; lia.
    + replace (j + S i) with (S j + i) by lia. apply F1. lia.
  - intros l Hl. rewrite F2, Hc1 by (intros i Hi; replace (S j + i) with (j + S i) by lia; apply Hl; lia).
    destruct (N.eqb_spec (N.lor e (pow2 j)) l) as [<-|]; [|reflexivity]. exfalso. apply (Hl 0 ltac:(lia)). rewrite Nat.add_0_r. reflexivity.
Qed.
Lemma trans_eq d : (pga_translation A d : res Sk) = (b <- (ret <- mv_default A ;; foldM tstep (combine (seq 0 (length d)) d) ret) ;; Ok (mv_set_by_idx b 0 r1)).
Proof. reflexivity. Qed.
(** Coefficients of the result for any accepted length. *)
Lemma trans_any d : length d <= S n -> exists t : Sk, pga_translation A d = Ok t /\ valid A t /\ rd t 0 = r1 /\
  (forall i, i < length d -> rd t (N.lor e (pow2 i)) = rdiv (nth i d r0) (radd r1 r1)) /\
  (forall l, (l < pow2 (S n))%N -> l <> 0%N -> (forall i, i < length d -> l <> N.lor e (pow2 i)) -> rd t l = r0).
Proof.
  intros Hl. rewrite trans_eq. assert (HD := supports_dim (T := T) sg A k D Hs). destruct (default_ok (S := Sk) A HD) as (z0 & E0 & Hz0 & H0). rewrite E0. cbn [bind]. rewrite Ad in Hz0.
  destruct (tfold d 0 z0 Hz0 Hl) as (z & E & Hz & F1 & F2). rewrite E. cbn [bind]. unfold mv_set_by_idx. destruct (st_set_ok (S n) z 0%N r1 Hz) as (Ht & Hc). exists (st_set z 0%N r1).
  assert (Hv : valid A (st_set z 0%N r1)) by (unfold valid; rewrite Ad; exact Ht).
  assert (Hr : forall l, (l < pow2 (S n))%N -> rd (st_set z 0%N r1) l = if (l =? 0)%N then r1 else st_coef z l).
  { intros l Hl'. rewrite (rd_coef (S n)), Hc by auto. rewrite (N.eqb_sym 0). destruct (N.eqb_spec l 0) as [->|]; [|reflexivity]. apply N.ltb_lt in Hl'. rewrite Hl'. reflexivity. }
  split; auto. split; auto. split; [|split].
  - rewrite Hr by apply pow2_pos. reflexivity.
  - intros i Hi. rewrite Hr by (apply lor_lt'; lia). destruct (N.eqb_spec (N.lor e (pow2 i)) 0) as [X|_]; [apply N.lor_eq_0_iff in X as [X _]; pose proof (pow2_pos n); lia|]. apply (F1 i Hi).
  - intros l Hl' Hz' Hn. rewrite Hr by auto. destruct (N.eqb_spec l 0); [contradiction|]. rewrite F2 by exact Hn. apply H0.
Qed.
Lemma trans_gives d : length d <= n -> exists t, is_trans n t (fun i => rdiv (nth i d r0) (radd r1 r1)) /\ gives A (pga_translation A d : res Sk) t.
Proof.
  intros Hl. destruct (trans_any d ltac:(lia)) as (t & E & Ht & H0 & H1 & H2). exists (rd t). split.
  - split; [exact H0|]. split.
    + intros i Hi. rewrite <- lor_e by auto. destruct (Nat.lt_ge_cases i (length d)) as [Hi'|Hi']; [apply H1; auto|].
      rewrite H2; [rewrite nth_overflow by auto; symmetry; apply div_0, two_nz|apply lor_lt'; lia|intros X; apply N.lor_eq_0_iff in X as [X _]; pose proof (pow2_pos n); lia|].
      intros j Hj EE. apply lor_inj in EE; lia.
    + intros l Hl' Hz Hn. apply H2; auto. intros i Hi EE. apply (Hn i ltac:(lia)). rewrite EE. apply lor_e. lia.
  - rewrite E. apply gives_Ok. auto.
Qed.
Lemma half_half (a : T) : radd (rdiv a (radd r1 r1)) (rdiv a (radd r1 r1)) = a.
Proof. pose proof (div_mul a _ two_nz) as X. rewrite mul_add_r, mul_1_r in X. exact X. Qed.
Lemma nth_vadd p d i : length p = length d -> nth i (vadd p d) r0 = radd (nth i p r0) (nth i d r0).
Proof.
  revert d i. unfold vadd. induction p as [|a p IH]; intros [|b d] i Hl; try discriminate; [destruct i; cbn; rewrite add_0_l; reflexivity|].
  injection Hl as Hl. destruct i; cbn; [reflexivity|]. apply (IH d i Hl).
Qed.
Lemma length_vadd p d : length p = length d -> length (vadd p d) = length p.
Proof. intros Hl. unfold vadd. rewrite map_length, combine_length. lia. Qed.

Lemma c49 p d : length p = n -> length d = n -> nonzero p ->
  (x <- (pga_point A p : res Sk) ;; t <- pga_translation A d ;; y <- sandwich A t x ;; pga_extract_point A n y) = Ok (vadd p d).
Proof.
  intros Hl Hld Hn. destruct (point_gives p Hl Hn) as (v & Hv & Hc & H1 & (x & -> & Hx & Hf)). cbn [bind]. destruct (trans_gives d ltac:(lia)) as (tf & Ht & (t & -> & Vt & Ft)). cbn [bind].
  set (w := rdiv r1 (pga_mag p)) in *.
  assert (G : gives A (sandwich A t x) (gp (S n) 0 e (gp (S n) 0 e (frev tf) (fun j => rmul (fd n v j) w)) tf)).
  { unfold sandwich. assert (Rt : feq (a_dim A) (rd t) tf) by (intros j Hj; unfold rd; rewrite Ft; auto). assert (Rx : feq (a_dim A) (rd x) (fun j => rmul (fd n v j) w)) by (intros j Hj; unfold rd; rewrite Hf; auto).
    eapply gives_bind; [apply (h_rev A t tf Vt Rt)|]. intros r Hr Fr. eapply gives_bind; [apply (h_mul A sg D r x _ _ Hr Hx Fr Rx)|]. intros u Hu Fu. eapply gives_ext; [apply (h_mul A sg D u t _ _ Hu Vt Fu Rt)|]. intros j Hj. rewrite Ad, Ai, Ap. reflexivity. }
  destruct G as (y & -> & Hy & Fy). cbn [bind]. rewrite (extract_eq y _ Hy (fun j Hj => ltac:(unfold rd; rewrite Fy by (rewrite Ad; exact Hj); reflexivity))). f_equal. apply list_nth_eq; [rewrite length_vadd; lia|]. intros i Hi.
  rewrite (X_extract n v w Hv tf _ Ht i Hi), (X_scale n v w Hv tf _ Ht), H1, mul_1_l, mul_1_r, Hc, half_half by auto. rewrite nth_vadd by lia. apply ratio. apply inv_nz. apply mag_nz; auto.
Qed.
Lemma del_one (x : Sk) : valid A x -> gives A (mv_one A : res Sk) (del 0 r1).
Proof. intros Hx. apply (g_one A (valid_of A x Hx)). Qed.
Lemma c49_inverse d : length d = n -> agree A (t <- (pga_translation A d : res Sk) ;; r <- mv_rev A t ;; mv_mul A r t) (mv_one A).
Proof.
  intros Hl. destruct (trans_gives d ltac:(lia)) as (tf & Ht & (t & -> & Vt & Ft)). cbn [bind]. assert (Rt : feq (a_dim A) (rd t) tf) by (intros j Hj; unfold rd; rewrite Ft; auto).
  eapply agree_intro; [eapply gives_bind; [apply (h_rev A t tf Vt Rt)|intros r Hr Fr; apply (h_mul A sg D r t _ _ Hr Vt Fr Rt)]|apply (del_one t Vt)|].
  rewrite Ad, Ai, Ap. apply (rev_trans n tf _ Ht).
Qed.
Lemma is_trans_eq t1 u1 t2 u2 : is_trans (T := T) n t1 u1 -> is_trans n t2 u2 -> (forall i, i < n -> u1 i = u2 i) -> feq (S n) t1 t2.
Proof.
  intros (A0 & A1 & A2) (B0 & B1 & B2) Hu j Hj. destruct (N.eq_dec j 0) as [->|Hj0]; [congruence|]. destruct (existsb (fun i => (j =? e + pow2 i)%N) (seq 0 n)) eqn:Ex.
  - apply existsb_exists in Ex as (i & Hi & Ek). apply in_seq in Hi. apply N.eqb_eq in Ek as ->. rewrite A1, B1 by lia. apply Hu. lia.
  - assert (Hn : forall i, i < n -> j <> (e + pow2 i)%N).
    { intros i Hi ->. assert (Ex' : existsb (fun l => (e + pow2 i =? e + pow2 l)%N) (seq 0 n) = true) by (apply existsb_exists; exists i; split; [apply in_seq; lia|apply N.eqb_refl]). congruence. }
    rewrite A2, B2 by auto. reflexivity.
Qed.
Lemma half_add (a b : T) : radd (rdiv a (radd r1 r1)) (rdiv b (radd r1 r1)) = rdiv (radd a b) (radd r1 r1).
Proof. symmetry. apply div_unique; [apply two_nz|]. rewrite mul_add_l, !(div_mul _ _ two_nz). reflexivity. Qed.
Lemma c49_compose d1 d2 : length d1 = n -> length d2 = n ->
  agree A (t1 <- (pga_translation A d1 : res Sk) ;; t2 <- pga_translation A d2 ;; mv_mul A t1 t2) (pga_translation A (vadd d1 d2)).
Proof.
  intros Hl1 Hl2. destruct (trans_gives d1 ltac:(lia)) as (f1 & Ht1 & (t1 & -> & V1 & F1)). destruct (trans_gives d2 ltac:(lia)) as (f2 & Ht2 & (t2 & -> & V2 & F2)). cbn [bind].
  destruct (trans_gives (vadd d1 d2)) as (f3 & Ht3 & G3); [rewrite length_vadd; lia|].
  eapply agree_intro; [apply (h_mul A sg D t1 t2 f1 f2 V1 V2); intros j Hj; unfold rd; [rewrite F1|rewrite F2]; auto|exact G3|].
  rewrite Ad, Ai, Ap. eapply is_trans_eq; [apply (mul_trans n _ _ _ _ Ht1 Ht2)|exact Ht3|]. intros i Hi. cbv beta. rewrite nth_vadd by lia. apply half_add.
Qed.

(** ** Lengths *)
Lemma lor_ge_r a b : (b <= N.lor a b)%N.
Proof.
  assert (E : N.lor a b = (N.ldiff a b + b)%N).
  { rewrite N.add_nocarry_lxor; [rewrite N.lxor_lor|]; apply N.bits_inj; intros i; rewrite ?N.land_spec, ?N.lor_spec, ?N.ldiff_spec, ?N.bits_0, ?N.land_spec; destruct (N.testbit a i), (N.testbit b i); reflexivity. }
  lia.
Qed.
Lemma c50_point p : length p <> n -> (pga_point A p : res Sk) = Err InvalidShape.
Proof.
  intros Hl. unfold pga_point. rewrite (from_vector_err (S := Sk) A (declared_ok _ _ D)); [reflexivity|apply (supports_dim (T := T) sg A k D Hs)|]. rewrite app_length, Ad. cbn. lia.
Qed.
Lemma c50_plane ec : length ec <> S n -> (pga_hyperplane A ec : res Sk) = Err InvalidShape.
Proof.
  intros Hl. unfold pga_hyperplane. rewrite (from_vector_err (S := Sk) A (declared_ok _ _ D)); [reflexivity|apply (supports_dim (T := T) sg A k D Hs)|]. rewrite Ad. auto.
Qed.
Lemma combine_split {X Y} (a1 a2 : list X) (b1 b2 : list Y) : length a1 = length b1 -> combine (a1 ++ a2) (b1 ++ b2) = combine a1 b1 ++ combine a2 b2.
Proof. revert b1. induction a1 as [|x a IH]; intros [|y b] Hl; try discriminate; [reflexivity|]. cbn [app combine]. rewrite IH by (injection Hl; auto). reflexivity. Qed.
Lemma c50_trans d : S n < length d -> (pga_translation A d : res Sk) = Err IndexOutOfBounds.
Proof.
  intros Hl. rewrite trans_eq. assert (HD := supports_dim (T := T) sg A k D Hs). destruct (default_ok (S := Sk) A HD) as (z0 & E0 & Hz0 & H0). rewrite E0. cbn [bind]. rewrite Ad in Hz0.
  assert (Ed : d = firstn (S n) d ++ skipn (S n) d) by (symmetry; apply firstn_skipn). set (d1 := firstn (S n) d) in *. set (d2 := skipn (S n) d) in *. assert (L1 : length d1 = S n) by (unfold d1; rewrite firstn_length; lia).
  rewrite Ed, app_length, seq_app, combine_split, foldM_app by (rewrite seq_length; reflexivity). destruct (tfold d1 0 z0 Hz0 ltac:(lia)) as (z & -> & Hz & _). cbn [bind].
  destruct d2 as [|c d3] eqn:E2; [apply (f_equal (@length T)) in E2; unfold d2 in E2; rewrite skipn_length in E2; cbn in E2; lia|].
  cbn [length seq combine foldM Nat.add]. unfold tstep at 1. cbn [fst snd]. rewrite L1, shl_1 by (pose proof n63; lia). cbn [bind]. rewrite Ad, shl_1 by (pose proof n63; lia). cbn [bind].
  destruct (N.leb_spec (pow2 (S n)) (N.lor (a_proj A) (pow2 (S n)))) as [_|X]; [reflexivity|]. exfalso. revert X. apply N.le_ngt. apply lor_ge_r.
Qed.

(** ** Incidence *)
Lemma c51 ec p : k <> KQuat -> length ec = S n -> length p = n -> nonzero ec -> nonzero p ->
  exists z, (h <- (pga_hyperplane A ec : res Sk) ;; x <- pga_point A p ;; k_wedge k A h x) = Ok z /\ valid A z /\ (mv_is_zero z = true <-> equation ec p = r0).
Proof.
  intros Hk Le Lp Ne Np. destruct (plane_gives ec Le Ne) as (a & Ha & Hac & (h & -> & Vh & Fh)). destruct (point_gives p Lp Np) as (v & Hv & Hc & H1 & (x & -> & Vx & Fx)). cbn [bind].
  set (w := rdiv r1 (pga_mag p)) in *. set (u := rdiv r1 (pga_mag ec)) in *.
  assert (Rh : feq (a_dim A) (rd h) a) by (intros j Hj; unfold rd; rewrite Fh; auto). assert (Rx : feq (a_dim A) (rd x) (fun j => rmul (fd n v j) w)) by (intros j Hj; unfold rd; rewrite Fx; auto).
  assert (G : gives A (k_wedge k A h x) (fun j => if (j =? ones (S n))%N then sgb (par (ones n)) (rmul (rmul (equation ec p) u) w) else r0)).
  { eapply gives_ext; [apply (h_kwedge A sg D k h x _ _ Hk Vh Vx Rh Rx)|]. rewrite Ad. intros j Hj.
    assert (Es : gp (S n) 0 (ones (S n)) a (fun l => rmul (fd n v l) w) j = rmul (gp (S n) 0 (ones (S n)) a (fd n v) j) w).
    { unfold gp. rewrite sumI_mul_r. apply sumI_ext. intros i Hi. rewrite mul_assoc. destruct (gsign (S n) 0 (ones (S n)) i (N.lxor i j)); cbn [act]; rewrite ?mul_neg_l, ?mul_0_l; reflexivity. }
    rewrite Es, wedge_vec_dual by auto. destruct (j =? ones (S n))%N; [|apply mul_0_l]. rewrite sgb_mul_l. f_equal. f_equal.
    rewrite seq_S, suml_app. cbn [Nat.add]. change (suml (fun i => rmul (a (pow2 i)) (v (pow2 i))) [n]) with (radd (rmul (a e) (v e)) r0). rewrite add_0_r, H1, mul_1_r, Hac by lia. unfold equation. rewrite Lp, mul_add_l. f_equal.
    rewrite suml_mul_r. apply suml_ext. intros i Hi. apply in_seq in Hi. rewrite Hac, Hc by lia. rewrite <- !mul_assoc. f_equal. apply mul_comm. }
  destruct G as (z & E & Vz & Fz). exists z. split; [exact E|]. split; auto. rewrite (is_zero_thm k A z Vz). fold (pow2 (a_dim A)). split.
  - intros X. specialize (X (ones (S n))). rewrite Ad in X. rewrite Fz in X by (rewrite Ad; apply ones_lt). rewrite N.eqb_refl in X. specialize (X (ones_lt (S n))). injection X as X. apply sgb_eq0 in X.
    apply field_int in X; [|apply inv_nz, mag_nz; auto]. apply field_int in X; [auto|apply inv_nz, mag_nz; auto].
  - intros X i Hi. rewrite Fz by auto. rewrite X, !mul_0_l, sgb_0. destruct (i =? ones (S n))%N; reflexivity.
Qed.
End Calls.

(** ** The origin, with a division for which 1/0 is an infinity *)
Section Origin.
Context {T : Type} {RO : RingOps T} {L : RingLaws T} {DV : DivOps T} {SQ : SqrtOps T} {m : Mode} {H : HashOrder}.
Variables (k : kind) (sg : list tok) (A : algebra) (n : nat).
Hypothesis HP : impl_pga sg = Some n.
Hypothesis D : declared sg A.
Hypothesis Hk : k <> KQuat.
Local Notation Sk := (store k T).
Local Notation e := (pow2 n).
Let Hs : supports k A. Proof. destruct k; cbn; auto. congruence. Qed.

(** Division that is not applied to zeros. *)
Definition DV' : DivOps T := {| rdiv := fun a b => if ris0 a then r0 else rdiv a b |}.
Lemma divs_nz (x : Sk) t : inv A k x -> mv_divs (D := DV) A x t = mv_divs (D := DV') A x t.
Proof.
  intros [Hx Hn]. unfold mv_divs. destruct (mv_default A) as [z| |]; cbn [bind]; auto. f_equal.
  assert (Hin : forall ic, In ic (st_enum x) -> ris0 (snd ic) = false).
  { intros [i c] Hi. destruct k; [| |congruence].
    - apply filter_In in Hi as [_ Hi]. cbn [snd] in *. destruct (ris0 c); [discriminate|reflexivity].
    - cbn [snd]. apply is0_false. apply (Hn i c). apply (Permutation_in _ (Permutation_sym (hm_order_perm T (sps_seed x) (sps_map x)))). exact Hi. }
  revert z. induction (st_enum x) as [|ic l IH]; intros z; cbn [fold_left]; auto. rewrite IH by (intros; apply Hin; right; auto). f_equal. cbn [rdiv DV']. rewrite (Hin ic (or_introl eq_refl)). reflexivity.
Qed.
Lemma inv_dual (x z : Sk) : mv_dual A x = Ok z -> inv A k z.
Proof.
  unfold mv_dual. intros E. apply P_Prog.bind_Ok in E as (y & Ey & E). apply (inv_default A sg D) in Ey. revert Ey E. apply foldM_inv2.
  intros b ic b' Hb E. apply P_Prog.bind_Ok in E as (s & Es & E). destruct s; try discriminate; injection E as <-; apply inv_set; auto.
Qed.
Lemma mag_origin : pga_mag (repeat (r0 : T) n) = rsqrt r0.
Proof.
  unfold pga_mag. f_equal. rewrite fold_sum, add_0_l. apply suml_0. intros x Hx. apply repeat_spec in Hx as ->. apply mul_0_l.
Qed.
Lemma c48_origin : r1 <> (r0 : T) -> rsqrt (r0 : T) = r0 -> rdiv r0 (rdiv r1 r0) = (r0 : T) -> rdiv r0 (rdiv (rneg r1) r0) = (r0 : T) ->
  (x <- (pga_point A (repeat r0 n) : res Sk) ;; pga_extract_point A n x) = Ok (repeat r0 n).
Proof.
  intros E1 H1 H2 H3. assert (I1 : ris0 (r1 : T) = false) by (apply is0_false; auto). assert (Ad := Ad sg A n HP D). destruct (vec_gives k sg A n HP D Hs (repeat r0 n ++ [r1])) as (v & Hv & Hc & (z & Ez & Vz & Fz)); [rewrite app_length, repeat_length; cbn; lia|].
  unfold pga_point. rewrite mag_origin, H1, Ez. cbn [bind]. assert (Rz : feq (a_dim A) (rd z) v) by (intros j Hj; unfold rd; rewrite Fz; auto).
  destruct (h_dual A sg D z v Vz Rz) as (y & Ey & Vy & Fy). rewrite Ey. cbn [bind]. rewrite (divs_nz y r0 (inv_dual z y Ey)).
  assert (Ry : feq (a_dim A) (rd y) (fdual A v)) by (intros j Hj; unfold rd; rewrite Fy; auto).
  assert (G := h_divs (DV := DV') A y r0 (fdual A v) ltac:(cbn [rdiv DV']; rewrite is0_r0; reflexivity) Vy Ry). destruct G as (x & -> & Vx & Fx). cbn [bind].
  set (q := rdiv (sgb (par (ones n)) r1) (r0 : T)).
  assert (Rx : feq (S n) (rd x) (del (ones n) q)).
  { intros j Hj. unfold rd. rewrite Fx by (rewrite Ad; auto). rewrite (fdual_fd sg A n HP D). cbn [rdiv DV'].
    assert (Hvj : forall i, i < n -> v (pow2 i) = r0) by (intros i Hi; rewrite Hc by lia; rewrite app_nth1 by (rewrite repeat_length; auto); apply nth_repeat).
    assert (Hve : v e = r1) by (rewrite Hc by lia; rewrite app_nth2, repeat_length, Nat.sub_diag by (rewrite repeat_length; lia); reflexivity).
    unfold del. destruct (N.eqb_spec j (ones n)) as [->|Hne].
    - assert (Eb : beta (S n) (ones n) e = par (ones n)) by (rewrite <- (N.add_0_r e), beta_S_01, beta_0_r, xorb_false_r by (auto using ones_lt; apply pow2_pos); reflexivity).
      unfold fd. rewrite cpl_low, N.lxor_nilpotent, N.add_0_r by apply ones_lt. rewrite Hve, Eb. fold q.
      replace (ris0 (sgb (par (ones n)) (r1 : T))) with false; [reflexivity|]. symmetry. apply is0_false. intros X. apply sgb_eq0 in X. auto.
    - assert (Z : v (N.ldiff (ones (S n)) j) = r0).
      { destruct (existsb (fun i => (N.ldiff (ones (S n)) j =? pow2 i)%N) (seq 0 (S n))) eqn:Ex.
        - apply existsb_exists in Ex as (i & Hi & Ei). apply in_seq in Hi. apply N.eqb_eq in Ei. rewrite Ei. destruct (Nat.eq_dec i n) as [->|]; [|apply Hvj; lia]. exfalso. apply Hne.
          rewrite ldiff_ones in Ei by auto. assert (X : j = N.lxor (ones (S n)) e) by (rewrite <- Ei, <- N.lxor_assoc, N.lxor_nilpotent; symmetry; apply N.lxor_0_l). rewrite X, ones_S. rewrite <- (N.add_0_r e) at 2. rewrite lxor_top_top, N.lxor_0_r by (auto using ones_lt; apply pow2_pos). reflexivity.
        - apply Hv; [rewrite ldiff_ones by auto; apply lxor_lt; auto using ones_lt|]. intros i Hi EE. rewrite EE in Ex.
          assert (Ex' : existsb (fun l => (pow2 i =? pow2 l)%N) (seq 0 (S n)) = true) by (apply existsb_exists; exists i; split; [apply in_seq; lia|apply N.eqb_refl]). congruence. }
      unfold fd. rewrite Z, sgb_0, is0_r0. reflexivity. }
  rewrite (extract_eq k sg A n HP D x _ Vx Rx). f_equal. rewrite <- (map_id (repeat r0 n)). apply (list_ext r0); [rewrite !map_length, seq_length, repeat_length; reflexivity|]. rewrite map_length, seq_length. intros i Hi.
  rewrite (nth_map_lt _ _ _ 0) by (rewrite seq_length; auto). rewrite seq_nth by auto. rewrite map_id, nth_repeat. cbn [Nat.add].
  pose proof (pow2_lt i n Hi) as Hp. unfold fd. rewrite cpl_low by auto. rewrite del_neq by (pose proof (ones_lt n); lia). rewrite sgb_0.
  rewrite <- (N.add_0_r e). rewrite cpl_high, N.lxor_0_r by apply pow2_pos. rewrite beta_S_10, beta_0_l by (auto using ones_lt, pow2_pos). cbn [sgb]. rewrite del_eq.
  unfold q; destruct (par (ones n)); cbn [sgb]; assumption.
Qed.
End Origin.

(** ** The translation as an exponential *)
Section TExp.
Context {T : Type} {RO : RingOps T} {L : RingLaws T} {CL : CommLaws T} {DV : DivOps T} {FL : FieldLaws T} {FR : FormallyReal T}
  {EO : ExpOps T} {EL : EpsLaws T} {ML : MaxLaws T} {NF : NormF T T} {FF : FromF T T} {FRM : FromLaws T T} {m : Mode} {H : HashOrder}.
Variables (k : kind) (sg : list tok) (A : algebra) (n : nat).
Hypothesis HP : impl_pga sg = Some n.
Hypothesis D : declared sg A.
Hypothesis Hs : supports k A.
Local Notation Sk := (store k T).
Local Notation e := (pow2 n).

Definition items (d : list T) : list (N * T) := map (fun ic => (e + pow2 (fst ic), rdiv (snd ic) (radd r1 r1))%N) (combine (seq 0 (length d)) d).
Lemma biv_eq d : length d = n -> (mv_from_indexed_iter A (items d) : res Sk) = (ret <- mv_default A ;; foldM (tstep k A) (combine (seq 0 (length d)) d) ret).
Proof.
  intros Hl. unfold mv_from_indexed_iter, items. destruct (mv_default A) as [z| |]; cbn [bind]; auto. rewrite foldM_map. apply foldM_ext. intros b [i c] Hi. apply in_combine_l in Hi. apply in_seq in Hi. cbn [fst snd].
  unfold tstep. cbn [fst snd]. rewrite (shl_1 i) by (pose proof (n63 sg A n HP D); lia). cbn [bind]. rewrite (Ap sg A n HP D), (lor_e n i) by lia. reflexivity.
Qed.
Lemma biv_gives d b : length d = n -> (mv_from_indexed_iter A (items d) : res Sk) = Ok b -> valid A b /\
  feq n (rd b) (fun _ => r0) /\ exists t, is_trans n t (fun i => rdiv (nth i d r0) (radd r1 r1)) /\ gives A (pga_translation (DV := DV) A d : res Sk) t /\ feq (S n) t (fadd (del 0 r1) (rd b)).
Proof.
  intros Hl Eb. rewrite (biv_eq d Hl) in Eb. assert (Ad := Ad sg A n HP D).
  destruct (trans_gives k sg A n HP D Hs d ltac:(lia)) as (t & Ht & G). rewrite trans_eq in G. rewrite Eb in G. cbn [bind] in G.
  apply P_Prog.bind_Ok in Eb as (z0 & E0 & Eb). assert (HD := supports_dim (T := T) sg A k D Hs). destruct (default_ok (S := Sk) A HD) as (z0' & E0' & Hz0 & H0). assert (z0' = z0) by congruence. subst z0'. rewrite Ad in Hz0.
  destruct (tfold k sg A n HP D d 0 z0 Hz0 ltac:(lia)) as (b' & E' & Hb & F1 & F2). assert (b' = b) by congruence. subst b'. clear E'.
  assert (Vb : valid A b) by (unfold valid; rewrite Ad; exact Hb). split; auto.
  assert (B0 : feq n (rd b) (fun _ => r0)).
  { intros j Hj. rewrite (rd_coef (S n)) by (auto; rewrite pow2_S; lia). rewrite F2, H0; auto. intros i Hi. cbn [Nat.add]. rewrite lor_e by lia. lia. }
  split; auto. exists t. split; auto. split; [rewrite trans_eq; rewrite E0; cbn [bind]; rewrite Eb; exact G|].
  destruct G as (z & Ez & Vz & Fz). injection Ez as <-. rewrite Ad in Fz. intros j Hj. specialize (Fz j Hj). unfold mv_get_by_idx, mv_set_by_idx in Fz. destruct (st_set_ok (S n) b 0%N r1 Hb) as (Ht' & Hc).
  rewrite (st_get_ok (S n)), Hc in Fz by auto. unfold fadd. rewrite (rd_coef (S n)) by auto. rewrite (N.eqb_sym 0) in Fz. unfold del. destruct (N.eqb_spec j 0) as [Ej|Ej]; cbn [andb] in Fz.
  - rewrite Ej in *. assert (X : (0 <? pow2 (S n))%N = true) by (apply N.ltb_lt, pow2_pos). rewrite X in Fz. injection Fz as Fz. rewrite <- Fz. rewrite <- (rd_coef (S n) b 0%N) by (auto; apply pow2_pos). rewrite B0 by apply pow2_pos. rewrite add_0_r. reflexivity.
  - injection Fz as Fz. rewrite <- Fz, add_0_l. reflexivity.
Qed.
Lemma biv_sq (f : N -> T) : feq n f (fun _ => r0) -> feq (S n) (gp (S n) 0 e f f) (fun _ => r0).
Proof.
  intros Hf j Hj. destruct (N.ltb_spec j e) as [Hl|Hl].
  - rewrite G_low by auto. unfold gp. apply sumI_0. intros i Hi. rewrite Hf, mul_0_l by auto. apply act_0.
  - rewrite pow2_S in Hj. replace j with (e + (j - e))%N by lia. rewrite gp_S_high by lia. unfold gp. rewrite !sumI_0; [apply add_0_l| |].
    + intros i Hi. unfold alpha. rewrite Hf, sgb_0, mul_0_l by auto. apply act_0.
    + intros i Hi. rewrite (Hf (N.lxor i _)), mul_0_r by (apply lxor_lt; auto; lia). apply act_0.
Qed.
Lemma c49_exp d (b : Sk) (c : T) fuel : length d = n -> mv_from_indexed_iter A (items d) = Ok b ->
  mv_exp_scale A b = Ok c -> nat_f (e_usize c) = c -> 18 < fuel -> agree A (mv_exp (F := T) A fuel b) (pga_translation A d).
Proof.
  intros Hl Eb Ec Hc Hf. destruct (biv_gives d b Hl Eb) as (Vb & B0 & t & Ht & G & Ft). assert (Ad := Ad sg A n HP D).
  assert (Sq : agree A (mv_mul A b b) (mv_zero A)).
  { eapply agree_intro; [apply (h_mul A sg D b b _ _ Vb Vb (feq_refl _ _) (feq_refl _ _))|apply (g_default A (valid_of A b Vb))|]. rewrite Ad, (Ai sg A n HP D), (Ap sg A n HP D). apply biv_sq. exact B0. }
  destruct (c58_nil sg A D fuel b c Vb Hf Sq Ec Hc) as (x & y & E1 & E2 & V1 & V2 & _ & E3). rewrite E1.
  assert (G2 : gives A (Ok x) t).
  { apply h_Ok; auto. intros j Hj. rewrite E3 by auto. assert (G2 : gives A (o <- mv_one A ;; mv_add o b) (fadd (del 0 r1) (rd b))).
    { eapply gives_bind; [apply (g_one A (valid_of A b Vb))|]. intros o Ho Fo. apply h_add; auto. apply feq_refl. }
    rewrite (proj2 (gives_rd A _ _ y G2 E2) j Hj). symmetry. apply Ft. rewrite <- Ad. exact Hj. }
  eapply agree_intro; [exact G2|exact G|apply feq_refl].
Qed.
End TExp.

Section More.
Context {T : Type} {RO : RingOps T} {L : RingLaws T} {DV : DivOps T} {m : Mode} {H : HashOrder}.
Variables (k : kind) (sg : list tok) (A : algebra) (n : nat).
Hypothesis HP : impl_pga sg = Some n.
Hypothesis D : declared sg A.
Lemma c50_trans_ok d : supports k A -> length d <= S n -> exists t : store k T, pga_translation A d = Ok t /\ valid A t.
Proof. intros Hs Hl. destruct (trans_any k sg A n HP D Hs d Hl) as (t & E & V & _). eauto. Qed.
Lemma c50_refuted : supports k A -> exists d : list T, length d <> n /\ exists t : store k T, pga_translation A d = Ok t /\ valid A t.
Proof. intros Hs. exists (repeat r1 (S n)). rewrite repeat_length. split; [lia|]. apply c50_trans_ok; auto. rewrite repeat_length. lia. Qed.
Context {CL : CommLaws T} {FL : FieldLaws T} {SQ : SqrtOps T} {SQL : SqrtLaws T} {FRl : FormallyReal T}.
Lemma c50_point_ok p : supports k A -> length p = n -> nonzero p -> exists x : store k T, pga_point A p = Ok x /\ valid A x.
Proof. intros Hs Hl Hn. destruct (point_gives k sg A n HP D Hs p Hl Hn) as (v & _ & _ & _ & (x & E & V & _)). eauto. Qed.
Lemma c50_plane_ok ec : supports k A -> length ec = S n -> nonzero ec -> exists x : store k T, pga_hyperplane A ec = Ok x /\ valid A x.
Proof. intros Hs Hl Hn. destruct (plane_gives k sg A n HP D Hs ec Hl Hn) as (v & _ & _ & (x & E & V & _)). eauto. Qed.
Lemma c51' ec p : k <> KQuat -> length ec = S n -> length p = n -> nonzero ec -> nonzero p ->
  exists z : store k T, (h <- pga_hyperplane A ec ;; x <- pga_point A p ;; k_wedge k A h x) = Ok z /\ valid A z /\ (mv_is_zero z = true <-> equation ec p = r0).
Proof. intros Hk. apply (c51 k sg A n HP D); auto. destruct k; cbn; auto. congruence. Qed.
End More.
