(** Points of projective geometric algebra under products of hyperplanes. *)
From Verif Require Export Spec_Motion P_PGA P_Sandwich5.
From Verif Require Import P_Transform P_Props5.
Local Open Scope nat_scope.

Lemma pop1 (k : N) : popcount k = 1 -> exists i, k = pow2 i.
Proof.
  intros E. rewrite <- (N2Nat.id k) in E. destruct (popcount_1 _ E) as (i & Ei). exists i. rewrite <- (N2Nat.id k), Ei. unfold pow2. rewrite Nat2N.inj_pow. reflexivity.
Qed.

Section Fun.
Context {T : Type} {RO : RingOps T} {L : RingLaws T} {CL : CommLaws T} {DV : DivOps T} {FL : FieldLaws T}.
Add Ring Tr : comm_ring_theory.
Variable n : nat.
Local Notation d := (S n).
Local Notation E := (ones n).
Local Notation e := (pow2 n).
Local Notation F := (ones (S n)).
Local Notation G := (gp (S n) 0 e).
Local Notation "x + y" := (radd x y).
Local Notation "x - y" := (rsub x y).
Local Notation "x * y" := (rmul x y).
Local Notation "- x" := (rneg x).
Local Notation "0" := r0.
Local Notation "1" := r1.

Lemma vec_homog (v : N -> T) : is_vec n v <-> homog d 1 v.
Proof.
  split.
  - intros Hv k Hk Hp. apply Hv; auto. intros i Hi ->. rewrite popcount_pow2 in Hp. lia.
  - intros Hv k Hk Hn. apply Hv; auto. intros Hp. destruct (pop1 k Hp) as (i & ->). apply (Hn i); auto.
    destruct (Nat.lt_ge_cases i d) as [|Hi]; auto. exfalso. unfold pow2 in Hk. apply N.pow_lt_mono_r_iff in Hk; lia.
Qed.
Lemma pow_lt i : i < d -> (pow2 i < pow2 d)%N.
Proof. intros. apply pow2_lt. auto. Qed.

(** The scalar part of a product of vectors. *)
Lemma gsign_self i : i < d -> gsign d 0 e (pow2 i) (pow2 i) = if Nat.eqb i n then Null else of_bool false.
Proof.
  intros Hi. unfold gsign. rewrite N.land_diag, N.land_0_r. destruct (Nat.eqb_spec i n) as [->|Hne].
  - rewrite N.land_diag. destruct (N.eqb_spec e 0) as [X|]; [pose proof (pow2_pos n); lia|reflexivity].
  - replace (N.land (pow2 i) e) with 0%N; [cbn; rewrite beta_self, popcount_pow2 by (apply pow_lt; auto); reflexivity|].
    symmetry. apply N.bits_inj. intros j. rewrite N.land_spec, N.bits_0. unfold pow2. rewrite !N.pow2_bits_eqb. destruct (N.eqb_spec (N.of_nat i) j), (N.eqb_spec (N.of_nat n) j); try reflexivity. lia.
Qed.
Lemma dotv_vec (a w : N -> T) : is_vec n a -> dotv d 0 e a w = suml (fun i => a (pow2 i) * w (pow2 i)) (seq 0 n).
Proof.
  intros Ha. unfold dotv, gp. rewrite sumI_vec.
  - rewrite seq_S, suml_app. cbn [Nat.add]. unfold suml at 2. cbn [map fold_right]. rewrite N.lxor_0_r, gsign_self, Nat.eqb_refl by lia. cbn [act]. rewrite !add_0_r.
    apply suml_ext. intros i Hi. apply in_seq in Hi. rewrite N.lxor_0_r, gsign_self by lia. destruct (Nat.eqb_spec i n); [lia|]. reflexivity.
  - intros j Hj Hn. rewrite Ha, mul_0_l by auto. apply act_0.
Qed.

(** What has grade n is the dual of a vector. *)
Lemma cmp_lt k : (k < pow2 d)%N -> (N.ldiff F k < pow2 d)%N.
Proof. intros Hk. rewrite ldiff_ones by auto. apply lxor_lt; auto using ones_lt. Qed.
Lemma cmp_invol k : (k < pow2 d)%N -> N.ldiff F (N.ldiff F k) = k.
Proof. intros Hk. rewrite (ldiff_ones d (N.ldiff F k)) by (apply cmp_lt; auto). rewrite ldiff_ones by auto. rewrite <- N.lxor_assoc, N.lxor_nilpotent. apply N.lxor_0_l. Qed.
Lemma pop_ldiff k : (k < pow2 d)%N -> (popcount (N.ldiff F k) + popcount k)%nat = d.
Proof.
  intros Hk. pose proof (popcount_lxor (N.ldiff F k) k) as Hp. rewrite N.land_ldiff in Hp. rewrite ldiff_ones in Hp at 1 by auto. rewrite N.lxor_assoc, N.lxor_nilpotent, N.lxor_0_r in Hp.
  rewrite popcount_ones in Hp. change (popcount 0) with 0%nat in Hp. lia.
Qed.
Lemma dual_of (Y : N -> T) : homog d n Y -> exists v, is_vec n v /\ feq d Y (fd n v).
Proof.
  intros HY. exists (fun k => sgb (beta d (N.ldiff F k) k) (Y (N.ldiff F k))). split.
  - apply vec_homog. intros k Hk Hp. rewrite HY; [apply sgb_0|apply cmp_lt; auto|]. pose proof (pop_ldiff k Hk). lia.
  - intros k Hk. unfold fd. rewrite (cmp_invol k Hk), sgb_sgb, xorb_nilpotent. reflexivity.
Qed.
Lemma fd_homog v : is_vec n v -> homog d n (fd n v).
Proof.
  intros Hv k Hk Hp. unfold fd. apply vec_homog in Hv. rewrite Hv; [apply sgb_0|apply cmp_lt; auto|]. pose proof (pop_ldiff k Hk). lia.
Qed.
Lemma fd_ext v w : feq d v w -> feq d (fd n v) (fd n w).
Proof. intros H k Hk. unfold fd. rewrite H; [reflexivity|apply cmp_lt; auto]. Qed.
Lemma fd_top v : fd n v E = sgb (par E) (v e).
Proof.
  unfold fd. rewrite cpl_low, N.lxor_nilpotent, N.add_0_r by apply ones_lt. rewrite <- (N.add_0_r e) at 1.
  rewrite beta_S_01, beta_0_r, xorb_false_r by (auto using ones_lt; apply pow2_pos). reflexivity.
Qed.
Lemma fd_fd v i : is_vec n v -> i <= n -> fd n (fd n v) (pow2 i) = sgb (par E) (v (pow2 i)).
Proof.
  intros Hv Hi. assert (X : feq d (fun k => fd n v k * 1) (fd n v)) by (intros k Hk; ring).
  rewrite <- (fd_ext _ _ X) by (apply pow_lt; lia). destruct (Nat.eq_dec i n) as [->|].
  - rewrite (P_scale n v 1 Hv). f_equal. ring.
  - rewrite (P_extract n v 1) by lia. f_equal. ring.
Qed.

(** The sum over all the n + 1 coordinates. *)
Local Notation pair a v := (suml (fun i => a (pow2 i) * v (pow2 i)) (seq 0 d)).
Definition cut (a : N -> T) (k : N) : T := if (k =? e)%N then 0 else a k.

Hypothesis two : (1 + 1 : T) <> 0.
Section Mirror.
Variables (a : N -> T) (c : T).
Hypothesis Ha : is_vec n a.
Hypothesis Hc : c * dotv d 0 e a a = 1.
Local Notation f := (psi d 0 e a c).

Lemma f_auto : auto d 0 e f.
Proof. apply psi_auto; [apply vec_homog; auto|exact Hc]. Qed.
Lemma f_invol w : is_vec n w -> feq d (f (f w)) w.
Proof.
  intros Hw. pose proof (proj1 (vec_homog a) Ha) as Ha'. pose proof (proj1 (vec_homog w) Hw) as Hw'. intros k Hk. pose proof (psi_vec d 0 e a c Ha' Hc w Hw') as Ew. pose proof (au_vec _ _ _ _ f_auto w Hw') as Hfw.
  rewrite (psi_vec d 0 e a c Ha' Hc (f w) Hfw k Hk), Ew by auto.
  assert (Ed : dotv d 0 e a (f w) = dotv d 0 e a w).
  { rewrite !dotv_vec by auto. rewrite <- !(dotv_vec a) by auto. set (q := dotv d 0 e a w) in *.
    transitivity ((c * q + c * q) * dotv d 0 e a a - q); [|transitivity ((1 + 1) * q * (c * dotv d 0 e a a) - q); [ring|rewrite Hc; ring]].
    unfold q. rewrite !dotv_vec by auto. rewrite suml_mul_l, <- suml_sub. apply suml_ext. intros i Hi. apply in_seq in Hi. rewrite Ew by (apply pow_lt; lia). unfold q. rewrite ?dotv_vec by auto. ring. }
  rewrite Ed. ring.
Qed.
Lemma f_top x : f x F = sgb (Nat.even d) (x F).
Proof.
  pose proof (psi_ps d 0 e a c (proj1 (vec_homog a) Ha) Hc two) as He.
  rewrite (au_exp d 0 e f f_auto x _ (ones_lt d)). rewrite (sumI_single d _ F) by (auto using ones_lt; intros j Hj Hne;
    rewrite (au_blade d 0 e two f f_auto j Hj F) by (auto using ones_lt; intros X; apply Hne; apply popcount_full; auto; rewrite <- X; apply popcount_ones); ring).
  rewrite (He _ (ones_lt d)), del_eq, sgb_mul_r, mul_1_r. reflexivity.
Qed.
Lemma pair_ext_l u w v : feq d u w -> pair u v = pair w v.
Proof. intros H. apply suml_ext. intros i Hi. apply in_seq in Hi. rewrite H by (apply pow_lt; lia). reflexivity. Qed.
Lemma pair_inj v : forall i, i < d -> pair (fun k => if (k =? pow2 i)%N then 1 else 0) v = v (pow2 i).
Proof.
  intros i Hi. rewrite (suml_single _ _ i); [rewrite N.eqb_refl; ring|apply seq_NoDup|apply in_seq; lia|].
  intros j Hj Hne. destruct (N.eqb_spec (pow2 j) (pow2 i)) as [X|]; [apply pow2_inj in X; congruence|ring].
Qed.

Lemma mirror v : is_vec n v -> exists v', is_vec n v' /\ feq d (f (fd n v)) (fd n v') /\
  forall i, i < d -> v' (pow2 i) = sgb (Nat.even d) ((c * pair a v + c * pair a v) * cut a (pow2 i) - v (pow2 i)).
Proof.
  intros Hv. pose proof f_auto as Fa. destruct (dual_of (f (fd n v))) as (y & Hy & Ey); [apply (au_homog d 0 e two f Fa); apply fd_homog; auto|].
  exists y. split; auto. split; auto.
  assert (Key : forall w, is_vec n w -> pair (f w) y = sgb (Nat.even d) (pair w v)).
  { intros w Hw. pose proof (proj2 (vec_homog _) (au_vec _ _ _ _ Fa w (proj1 (vec_homog w) Hw))) as Hfw.
    pose proof (wedge_vec_dual n (f w) y F Hfw Hy (ones_lt _)) as W1. rewrite N.eqb_refl in W1.
    pose proof (wedge_vec_dual n w v F Hw Hv (ones_lt _)) as W2. rewrite N.eqb_refl in W2.
    assert (X : gp d 0 F (f w) (fd n y) F = sgb (Nat.even d) (gp d 0 F w (fd n v) F)).
    { rewrite <- (gp_ext d 0 F (f w) (f w) (f (fd n v)) (fd n y) F (ones_lt _) (feq_refl _ _) Ey).
      rewrite <- (au_wedge d 0 e two f Fa w (fd n v) F (ones_lt _)).
      apply f_top. }
    rewrite W1, W2 in X. apply (f_equal (sgb (par E))) in X. revert X. destruct (par E), (Nat.even d); cbn; rewrite ?neg_neg; auto. }
  intros i Hi. set (w := fun k : N => if (k =? pow2 i)%N then 1 else 0 : T).
  assert (Hw : is_vec n w) by (intros k Hk Hk'; unfold w; destruct (N.eqb_spec k (pow2 i)) as [->|]; auto; exfalso; apply (Hk' i Hi); reflexivity).
  pose proof (proj1 (vec_homog a) Ha) as Ha'. pose proof (proj1 (vec_homog w) Hw) as Hw'.
  assert (Pw : forall z, pair w z = z (pow2 i)) by (intros z; exact (pair_inj z i Hi)).
  rewrite <- (Pw y). rewrite <- (pair_ext_l _ _ y (f_invol w Hw)).
  rewrite (Key (f w)) by (apply vec_homog; apply (au_vec _ _ _ _ Fa); auto). f_equal.
  rewrite (pair_ext_l _ _ v (psi_vec d 0 e a c Ha' Hc w Hw')).
  assert (Ew : dotv d 0 e a w = cut a (pow2 i)).
  { rewrite dotv_vec by auto. unfold cut. destruct (N.eqb_spec (pow2 i) e) as [X|X].
    - apply pow2_inj in X as ->. apply suml_0. intros j Hj. apply in_seq in Hj. unfold w. destruct (N.eqb_spec (pow2 j) e) as [X|]; [apply pow2_inj in X; lia|ring].
    - assert (i <> n) by (intros ->; auto). rewrite (suml_single _ _ i); [unfold w; rewrite N.eqb_refl; ring|apply seq_NoDup|apply in_seq; lia|].
      intros j Hj Hne. unfold w. destruct (N.eqb_spec (pow2 j) (pow2 i)) as [X'|]; [apply pow2_inj in X'; congruence|ring]. }
  rewrite Ew. set (q := cut a (pow2 i)). rewrite <- (Pw v).
  transitivity ((c * q + c * q) * pair a v - pair w v); [|ring]. rewrite suml_mul_l, <- suml_sub. apply suml_ext. intros j Hj. ring.
Qed.
End Mirror.

(** ** Coordinates *)
Definition cs (a : N -> T) : list T := map (fun i => a (pow2 i)) (seq 0 d).
Definition coords (v : N -> T) : list T := map (fun i => rdiv (v (pow2 i)) (v e)) (seq 0 n).
Lemma nth_seq (f : nat -> T) m i : i < m -> nth i (map f (seq 0 m)) 0 = f i.
Proof. intros Hi. rewrite (nth_map_lt _ _ _ 0%nat) by (rewrite seq_length; auto). rewrite seq_nth by auto. reflexivity. Qed.
Lemma len_seq (f : nat -> T) m : length (map f (seq 0 m)) = m.
Proof. rewrite map_length, seq_length. reflexivity. Qed.
Lemma coords_len v : length (coords v) = n. Proof. apply len_seq. Qed.
Lemma cs_len v : length (cs v) = d. Proof. apply len_seq. Qed.
Lemma sq_cs a : is_vec n a -> suml (fun i => nth i (cs a) 0 * nth i (cs a) 0) (seq 0 n) = dotv d 0 e a a.
Proof. intros Ha. rewrite dotv_vec by auto. apply suml_ext. intros i Hi. apply in_seq in Hi. unfold cs. rewrite nth_seq by lia. reflexivity. Qed.
Lemma dv (x y : T) : y <> 0 -> rdiv x y = x * rdiv 1 y.
Proof. intros Hy. apply div_unique; auto. rewrite <- mul_assoc, div_mul, mul_1_r by auto. reflexivity. Qed.
Lemma eq_coords a v : v e <> 0 -> equation (cs a) (coords v) * v e = pair a v.
Proof.
  intros He. unfold equation. rewrite coords_len. rewrite seq_S, suml_app. cbn [Nat.add]. unfold suml at 3. cbn [map fold_right]. unfold cs at 2. rewrite nth_seq by lia.
  rewrite mul_add_l, suml_mul_r. f_equal; [|ring]. apply suml_ext. intros i Hi. apply in_seq in Hi. unfold cs, coords. rewrite !nth_seq by lia.
  transitivity (a (pow2 i) * (rdiv (v (pow2 i)) (v e) * v e)); [ring|]. rewrite div_mul by auto. reflexivity.
Qed.
Lemma mirror_coords a c v : is_vec n a -> c * dotv d 0 e a a = 1 -> is_vec n v -> v e <> 0 ->
  exists v', is_vec n v' /\ v' e <> 0 /\ feq d (psi d 0 e a c (fd n v)) (fd n v') /\ coords v' = reflected (cs a) (coords v).
Proof.
  intros Ha Hc Hv He. destruct (mirror a c Ha Hc v Hv) as (v' & Hv' & Ev & Ci). exists v'. split; auto.
  assert (Ee : v' e = sgb (Nat.even d) (- v e)). { rewrite Ci by lia. unfold cut. rewrite N.eqb_refl. f_equal. ring. }
  assert (He' : v' e <> 0). { rewrite Ee. intros X. apply sgb_eq0 in X. apply He. transitivity (- - v e); [ring|]. rewrite X. ring. }
  split; auto. split; auto. unfold reflected. rewrite coords_len, sq_cs by auto. unfold coords at 1. apply map_ext_in. intros i Hi. apply in_seq in Hi.
  assert (HQ : dotv d 0 e a a <> 0). { intros X. rewrite X in Hc. apply one_neq_zero. rewrite <- Hc. ring. }
  set (q := equation (cs a) (coords v)). pose proof (eq_coords a v He) as Eq. fold q in Eq.
  assert (Et : rdiv q (dotv d 0 e a a) = c * q). { apply div_unique; auto. transitivity (c * dotv d 0 e a a * q); [ring|rewrite Hc; ring]. }
  rewrite Et. unfold coords, cs. rewrite !nth_seq by lia. apply div_unique; auto.
  rewrite Ee, Ci by lia. rewrite sgb_mul_r. f_equal. unfold cut. destruct (N.eqb_spec (pow2 i) e) as [X|_]; [apply pow2_inj in X; lia|].
  rewrite <- Eq. transitivity ((c * q + c * q) * a (pow2 i) * v e - rdiv (v (pow2 i)) (v e) * v e); [ring|]. rewrite div_mul by auto. ring.
Qed.
Lemma chain_coords ws v : vecs d ws -> Forall (fun w => dotv d 0 e w w <> 0) ws -> is_vec n v -> v e <> 0 ->
  exists v', is_vec n v' /\ v' e <> 0 /\ feq d (chain d 0 e ws (fd n v)) (fd n v') /\ coords v' = fold_right (fun w p => reflected (cs w) p) (coords v) ws.
Proof.
  induction ws as [|w ws IH]; intros Hvs Hn Hv He; cbn [chain fold_right]; [exists v; auto using feq_refl|].
  inversion Hvs; subst. inversion Hn; subst. destruct IH as (u & Hu & Hue & Eu & Cu); auto.
  destruct (mirror_coords w (rdiv 1 (dotv d 0 e w w)) u) as (v' & Hv' & He' & Ev & Cv); auto; [apply vec_homog; auto|apply div_mul; auto|].
  exists v'. split; auto. split; auto. split; [|rewrite Cv, Cu; reflexivity].
  intros k Hk. rewrite <- Ev by auto. apply psi_feq; auto.
Qed.

(** ** Reflections of coordinates *)
Lemma reflect_len a p : length (reflected (T := T) a p) = length p.
Proof. unfold reflected. rewrite map_length, seq_length. reflexivity. Qed.
Lemma dist2_nth (p q : list T) m : length p = m -> length q = m ->
  dist2 p q = suml (fun i => (nth i p 0 - nth i q 0) * (nth i p 0 - nth i q 0)) (seq 0 m).
Proof.
  revert q m. induction p as [|x p IH]; intros [|y q] [|m] Hp Hq; try discriminate; [reflexivity|].
  injection Hp as Hp. injection Hq as Hq. cbn [seq]. rewrite <- seq_shift.
  change (dist2 (x :: p) (y :: q)) with ((x - y) * (x - y) + dist2 p q). rewrite (IH q m Hp Hq).
  change (suml ?f (O :: ?l)) with (f O + suml f l). cbv beta. rewrite suml_map. reflexivity.
Qed.
Lemma nth_reflect a p i : i < length p -> nth i (reflected (T := T) a p) 0 =
  nth i p 0 - (rdiv (equation a p) (suml (fun i => nth i a 0 * nth i a 0) (seq 0 (length p))) + rdiv (equation a p) (suml (fun i => nth i a 0 * nth i a 0) (seq 0 (length p)))) * nth i a 0.
Proof. intros Hi. unfold reflected. cbv zeta. rewrite nth_seq by auto. reflexivity. Qed.
Lemma reflect_dist a (p q : list T) m : length p = m -> length q = m -> suml (fun i => nth i a 0 * nth i a 0) (seq 0 m) <> 0 ->
  dist2 (reflected a p) (reflected a q) = dist2 p q.
Proof.
  intros Hp Hq HQ. rewrite (dist2_nth (reflected a p) (reflected a q) m), (dist2_nth p q m) by (auto; rewrite reflect_len; auto).
  pose (Q := suml (fun i => nth i a 0 * nth i a 0) (seq 0 m)). pose (sp := rdiv (equation a p) Q). pose (sq := rdiv (equation a q) Q). pose (s := sp - sq).
  pose (D := suml (fun i => nth i a 0 * (nth i p 0 - nth i q 0)) (seq 0 m)).
  assert (Es : s * Q = D).
  { unfold s. transitivity (sp * Q - sq * Q); [ring|]. unfold sp, sq. rewrite !div_mul by auto. unfold equation, D. rewrite Hp, Hq.
    transitivity (suml (fun i => nth i a 0 * nth i p 0) (seq 0 m) - suml (fun i => nth i a 0 * nth i q 0) (seq 0 m)); [ring|]. rewrite <- suml_sub. apply suml_ext. intros i Hi. ring. }
  transitivity (suml (fun i => (nth i p 0 - nth i q 0) * (nth i p 0 - nth i q 0)) (seq 0 m) - (s + s + s + s) * D + (s + s + s + s) * s * Q).
  - unfold D, Q. rewrite !suml_mul_l, <- suml_sub, <- suml_add. apply suml_ext. intros i Hi. apply in_seq in Hi. rewrite !nth_reflect by lia. rewrite Hp, Hq. fold Q. fold sp sq. unfold s. ring.
  - transitivity (suml (fun i => (nth i p 0 - nth i q 0) * (nth i p 0 - nth i q 0)) (seq 0 m) + (s + s + s + s) * (s * Q - D)); [ring|]. rewrite Es. ring.
Qed.
Lemma reflect_scale a b (p : list T) t : t <> 0 -> (forall i, i <= length p -> nth i b 0 = nth i a 0 * t) ->
  suml (fun i => nth i a 0 * nth i a 0) (seq 0 (length p)) <> 0 -> reflected b p = reflected a p.
Proof.
  intros Ht Hb HQ. unfold reflected. cbv zeta. apply map_ext_in. intros i Hi. apply in_seq in Hi. rewrite (Hb i) by lia. f_equal.
  set (Qa := suml (fun i => nth i a 0 * nth i a 0) (seq 0 (length p))) in *.
  assert (EQ : suml (fun i => nth i b 0 * nth i b 0) (seq 0 (length p)) = t * t * Qa).
  { unfold Qa. rewrite suml_mul_l. apply suml_ext. intros j Hj. apply in_seq in Hj. rewrite !Hb by lia. ring. }
  assert (Ee : equation b p = t * equation a p).
  { unfold equation. rewrite Hb by lia. transitivity (t * suml (fun i => nth i a 0 * nth i p 0) (seq 0 (length p)) + t * nth (length p) a 0); [|ring].
    rewrite suml_mul_l. f_equal; [|ring]. apply suml_ext. intros j Hj. apply in_seq in Hj. rewrite Hb by lia. ring. }
  rewrite EQ, Ee. set (z := equation a p).
  assert (Hz : rdiv (t * z) (t * t * Qa) * t = rdiv z Qa).
  { symmetry. apply div_unique; auto. apply (mul_cancel_r _ _ t Ht). transitivity (rdiv (t * z) (t * t * Qa) * (t * t * Qa)); [ring|]. rewrite div_mul; [ring|].
    intros X. apply HQ. apply (mul_cancel_r _ _ t Ht). apply (mul_cancel_r _ _ t Ht). transitivity (t * t * Qa); [ring|rewrite X; ring]. }
  rewrite <- Hz. ring.
Qed.
End Fun.
