(** The transforms on exact coefficients. *)
From Verif Require Export P_Round11 P_IntProg3.
From Coq Require Import Lia ZArith.
Local Open Scope Z_scope.

Section Fft.
Context {R F : Type} {RR : RingOps R} {LR : RingLaws R} {CR : ConjOps R}
  {RF : RingOps F} {CF : ConjOps F} {W : NumLaws F} {EM : Emb R F} {EL : EmbLaws R F}.
Local Notation size := (@size R F EM).
Local Notation top := (@top R F EM).
Local Notation emb := (@emb R F EM).
Local Notation total n x := (sumI n (fun t => size (x t))).

Lemma za (a b : R) : size (radd a b) <= size a + size b. Proof. exact (z_add a b). Qed.
Lemma zs (a b : R) : size (rsub a b) <= size a + size b. Proof. exact (s_sub a b). Qed.
Lemma zg b (a : R) : size (sgb b a) = size a. Proof. exact (s_sgb b a). Qed.
Lemma zp (a : R) : 0 <= size a. Proof. exact (z_pos a). Qed.
Lemma zm (a b : R) : size (rmul a b) <= size a * size b. Proof. exact (z_mul a b). Qed.
Lemma wa (a b : R) : size a + size b <= top -> radd (emb a) (emb b) = emb (radd a b).
Proof. intros Hs. pose proof (zp a). pose proof (zp b). pose proof (za a b). apply (w_add a b); lia. Qed.
Lemma ws (a b : R) : size a + size b <= top -> rsub (emb a) (emb b) = emb (rsub a b).
Proof. intros Hs. pose proof (zp a). pose proof (zp b). pose proof (zs a b). apply (e_sub a b); lia. Qed.
Lemma wg b (a : R) : sgb b (emb a) = emb (sgb b a). Proof. exact (e_sgb b a). Qed.

Lemma tS n (f : N -> Z) : sumI (S n) f = sumI n f + sumI n (fun t => f (pow2 n + t)%N).
Proof. exact (sumI_S (T := Z) n f). Qed.
Lemma t0 (f : N -> Z) : sumI 0 f = f 0%N.
Proof. exact (sumI_O (T := Z) f). Qed.
Lemma tle n (f g : N -> Z) : (forall i, (i < pow2 n)%N -> f i <= g i) -> sumI n f <= sumI n g.
Proof. intros Hf. apply zsum_le. intros i Hi. apply Hf, in_idxs, Hi. Qed.
Lemma tadd n (f g : N -> Z) : sumI n (fun i => f i + g i) = sumI n f + sumI n g.
Proof. exact (sumI_add (T := Z) n f g). Qed.
Lemma tpos n (x : N -> R) : 0 <= total n x.
Proof. apply zI_pos. intros. apply zp. Qed.
Lemma tone n (f : N -> Z) i : (forall i, (i < pow2 n)%N -> 0 <= f i) -> (i < pow2 n)%N -> f i <= sumI n f.
Proof.
  revert f i. induction n as [|n IH]; intros f i Hf Hi.
  - rewrite t0. cbn in Hi. assert (i = 0%N) as -> by lia. lia.
  - rewrite tS. assert (P1 : 0 <= sumI n f) by (apply zI_pos; intros j Hj; apply Hf; auto using low_lt).
    assert (P2 : 0 <= sumI n (fun t => f (pow2 n + t)%N)) by (apply zI_pos; intros j Hj; apply Hf; auto using high_lt).
    spl i Hi.
    + specialize (IH f i (fun j Hj => Hf j (low_lt _ _ Hj)) Hi). lia.
    + specialize (IH (fun t => f (pow2 n + t)%N) i0 (fun j Hj => Hf _ (high_lt _ _ Hj)) Hi). cbv beta in IH. lia.
Qed.
Lemma tquarters m (x : N -> R) : total (2 * S m) x
  = total (2 * m) x + total (2 * m) (up (2 * m) x) + (total (2 * m) (up (S (2 * m)) x) + total (2 * m) (up (2 * m) (up (S (2 * m)) x))).
Proof. rewrite two_S, tS, !tS. reflexivity. Qed.

(** No row of the transform outweighs the coefficients. *)
Lemma cl_row m : forall (x : N -> R) i, (i < pow2 m)%N -> sumI m (fun j => size (cl m x i j)) <= total (2 * m) x.
Proof.
  induction m as [|m IH]; intros x i Hi.
  - rewrite t0. change (2 * 0)%nat with O. rewrite t0. reflexivity.
  - rewrite tquarters, tS. cbn [cl]. set (n := (2 * m)%nat) in *. spl i Hi.
    + rewrite (sumI_ext (T := Z) m _ (fun j => size (radd (cl m x i j) (cl m (up n (up (S n) x)) i j)))) by (intros j Hj; rewrite blk_00 by auto; reflexivity).
      rewrite (sumI_ext (T := Z) m (fun t => size (blk _ _ _ _ _ _ _)) (fun j => size (radd (cl m (up n x) i j) (cl m (up (S n) x) i j)))) by (intros j Hj; rewrite blk_01 by auto; apply zg).
      eapply Z.le_trans; [apply Z.add_le_mono; [apply tle; intros j Hj; apply za|apply tle; intros j Hj; apply za]|]. rewrite !tadd.
      pose proof (IH x i Hi). pose proof (IH (up n x) i Hi). pose proof (IH (up (S n) x) i Hi). pose proof (IH (up n (up (S n) x)) i Hi). lia.
    + rewrite (sumI_ext (T := Z) m _ (fun j => size (rsub (cl m (up n x) i0 j) (cl m (up (S n) x) i0 j)))) by (intros j Hj; rewrite blk_10 by auto; reflexivity).
      rewrite (sumI_ext (T := Z) m (fun t => size (blk _ _ _ _ _ _ _)) (fun j => size (rsub (cl m x i0 j) (cl m (up n (up (S n) x)) i0 j)))) by (intros j Hj; rewrite blk_11 by auto; apply zg).
      eapply Z.le_trans; [apply Z.add_le_mono; [apply tle; intros j Hj; apply zs|apply tle; intros j Hj; apply zs]|]. rewrite !tadd.
      pose proof (IH x i0 Hi). pose proof (IH (up n x) i0 Hi). pose proof (IH (up (S n) x) i0 Hi). pose proof (IH (up n (up (S n) x)) i0 Hi). lia.
Qed.
Lemma cl_size m (x : N -> R) i j : (i < pow2 m)%N -> (j < pow2 m)%N -> size (cl m x i j) <= total (2 * m) x.
Proof. intros Hi Hj. eapply Z.le_trans; [|apply (cl_row m x i Hi)]. apply (tone m (fun j => size (cl m x i j))); auto. intros; apply zp. Qed.

(** The transform is exact. *)
Lemma cl_emb m : forall (x' : N -> F) (x : N -> R), (forall t, (t < pow2 (2 * m))%N -> x' t = emb (x t)) -> total (2 * m) x <= top ->
  forall i j, (i < pow2 m)%N -> (j < pow2 m)%N -> cl m x' i j = emb (cl m x i j).
Proof.
  induction m as [|m IH]; intros x' x Hx Ht i j Hi Hj.
  - apply (Hx 0%N). reflexivity.
  - rewrite tquarters in Ht. rewrite two_S in Hx. cbn [cl]. set (n := (2 * m)%nat) in *.
    pose proof (tpos n x). pose proof (tpos n (up n x)). pose proof (tpos n (up (S n) x)). pose proof (tpos n (up n (up (S n) x))).
    assert (I0 : forall i j, (i < pow2 m)%N -> (j < pow2 m)%N -> cl m x' i j = emb (cl m x i j)) by (apply IH; [intros t Hl; apply Hx; auto using low_lt|lia]).
    assert (I1 : forall i j, (i < pow2 m)%N -> (j < pow2 m)%N -> cl m (up n x') i j = emb (cl m (up n x) i j)) by (apply IH; [intros t Hl; apply Hx; auto using low_lt, high_lt|lia]).
    assert (I2 : forall i j, (i < pow2 m)%N -> (j < pow2 m)%N -> cl m (up (S n) x') i j = emb (cl m (up (S n) x) i j)) by (apply IH; [intros t Hl; apply Hx; auto using low_lt, high_lt|lia]).
    assert (I3 : forall i j, (i < pow2 m)%N -> (j < pow2 m)%N -> cl m (up n (up (S n) x')) i j = emb (cl m (up n (up (S n) x)) i j)) by (apply IH; [intros t Hl; apply Hx; auto using low_lt, high_lt|lia]).
    assert (B : forall y i j, (i < pow2 m)%N -> (j < pow2 m)%N -> size (cl m y i j) <= total n y) by (intros; apply cl_size; auto).
    spl i Hi; spl j Hj; rewrite ?blk_00, ?blk_01, ?blk_10, ?blk_11 by auto; unfold malpha, madd, msub; rewrite ?I0, ?I1, ?I2, ?I3 by auto.
    + apply wa. pose proof (B x i j Hi Hj). pose proof (B (up n (up (S n) x)) i j Hi Hj). lia.
    + rewrite wa, wg; [reflexivity|]. pose proof (B (up n x) i j0 Hi Hj). pose proof (B (up (S n) x) i j0 Hi Hj). lia.
    + apply ws. pose proof (B (up n x) i0 j Hi Hj). pose proof (B (up (S n) x) i0 j Hi Hj). lia.
    + rewrite ws, wg; [reflexivity|]. pose proof (B x i0 j0 Hi Hj). pose proof (B (up n (up (S n) x)) i0 j0 Hi Hj). lia.
Qed.

(** Products of matrices. *)
Lemma fold_emb (x y : N -> R) (x' y' : N -> F) l : forall a, (forall i, In i l -> x' i = emb (x i) /\ y' i = emb (y i) /\ size (x i) <= top /\ size (y i) <= top) ->
  size a + suml (fun i => size (x i) * size (y i)) l <= top ->
  fold_left (fun acc i => radd acc (rmul (x' i) (y' i))) l (emb a) = emb (radd a (suml (fun i => rmul (x i) (y i)) l)).
Proof.
  induction l as [|i l IH]; intros a Hl Ht; cbn [fold_left suml] in *; [rewrite add_0_r; reflexivity|].
  change (@radd Z ZOps) with Z.add in Ht. destruct (Hl i (or_introl eq_refl)) as (-> & -> & S1 & S2).
  assert (P : 0 <= suml (fun i => size (x i) * size (y i)) l) by (apply zsum_pos; intros j _; apply Z.mul_nonneg_nonneg; apply zp).
  pose proof (zp a). pose proof (zm (x i) (y i)). pose proof (zp (x i)). pose proof (zp (y i)). pose proof (za a (rmul (x i) (y i))). pose proof (zp (rmul (x i) (y i))).
  rewrite (w_mul (x i) (y i)) by (auto; lia). rewrite wa by lia. rewrite IH; [rewrite add_assoc; reflexivity| |lia]. intros j Hj. apply Hl. right. exact Hj.
Qed.
Lemma mmul_row m (X Y : N -> N -> R) p q i j : 0 <= q -> (forall l, (l < pow2 m)%N -> size (Y l j) <= q) ->
  sumI m (fun l => size (X i l)) <= p -> sumI m (fun l => size (X i l) * size (Y l j)) <= p * q.
Proof.
  intros Hq HY HX. eapply Z.le_trans; [apply (tle m _ (fun l => size (X i l) * q))|].
  - intros l Hl. apply Z.mul_le_mono_nonneg_l; [apply zp|auto].
  - assert (E : sumI m (fun l => size (X i l) * q) = sumI m (fun l => size (X i l)) * q) by (symmetry; exact (sumI_mul_r (T := Z) m q (fun l => size (X i l)))). rewrite E. apply Z.mul_le_mono_nonneg_r; auto.
Qed.
Lemma mmul_size m (X Y : N -> N -> R) i j : size (mmul m X Y i j) <= sumI m (fun l => size (X i l) * size (Y l j)).
Proof. unfold mmul, sumI. eapply Z.le_trans; [apply (s_sum (fun k => rmul (X i k) (Y k j)))|]. apply zsum_le. intros l _. apply zm. Qed.
Lemma mmul_emb m (X' Y' : N -> N -> F) (X Y : N -> N -> R) p q i j :
  (forall l, (l < pow2 m)%N -> X' i l = emb (X i l)) -> (forall l, (l < pow2 m)%N -> Y' l j = emb (Y l j)) ->
  0 <= q -> (forall l, (l < pow2 m)%N -> size (Y l j) <= q) -> sumI m (fun l => size (X i l)) <= p -> p <= top -> q <= top -> p * q <= top ->
  mmulf m X' Y' i j = emb (mmul m X Y i j) /\ size (mmul m X Y i j) <= p * q.
Proof.
  intros EX EY Hq HY HX Hpt Hqt Ht. assert (Hr := mmul_row m X Y p q i j Hq HY HX). split.
  - unfold mmulf. replace (@r0 F RF) with (emb r0) by exact w_0. rewrite (fold_emb (fun l => X i l) (fun l => Y l j)).
    + rewrite add_0_l. reflexivity.
    + intros l Hl. apply in_idxs in Hl. split; [auto|]. split; [auto|]. split; [|specialize (HY l Hl); lia].
      assert (size (X i l) <= sumI m (fun l => size (X i l))) by (apply (tone m (fun l => size (X i l))); auto; intros; apply zp). lia.
    + rewrite z_0. unfold sumI in Hr. lia.
  - eapply Z.le_trans; [apply mmul_size|exact Hr].
Qed.

(** Null generators. *)
Lemma madd_at {T} {RT : RingOps T} (X Y : N -> N -> T) i j : madd X Y i j = radd (X i j) (Y i j).
Proof. reflexivity. Qed.
Lemma wm_emb m s : forall (X' Y' : N -> N -> N -> F) (X Y : N -> N -> N -> R) (p q : N -> Z),
  (forall v i j, (v < pow2 s)%N -> (i < pow2 m)%N -> (j < pow2 m)%N -> X' v i j = emb (X v i j)) ->
  (forall v i j, (v < pow2 s)%N -> (i < pow2 m)%N -> (j < pow2 m)%N -> Y' v i j = emb (Y v i j)) ->
  (forall v i, (v < pow2 s)%N -> (i < pow2 m)%N -> sumI m (fun j => size (X v i j)) <= p v) ->
  (forall v i j, (v < pow2 s)%N -> (i < pow2 m)%N -> (j < pow2 m)%N -> size (Y v i j) <= q v) ->
  (forall v, (v < pow2 s)%N -> 0 <= p v) -> (forall v, (v < pow2 s)%N -> 0 <= q v) ->
  sumI s p <= top -> sumI s q <= top -> sumI s p * sumI s q <= top ->
  forall w i j, (w < pow2 s)%N -> (i < pow2 m)%N -> (j < pow2 m)%N ->
  wm (mmulf m) madd mneg malpha s X' Y' w i j = emb (wm (mmul m) madd mneg malpha s X Y w i j) /\
  size (wm (mmul m) madd mneg malpha s X Y w i j) <= sumI s p * sumI s q.
Proof.
  induction s as [|s IH]; intros X' Y' X Y p q EX EY HX HY Hp Hq Tp Tq Tpq w i j Hw Hi Hj.
  - cbn in Hw. assert (w = 0%N) as -> by lia. cbn [wm]. rewrite !t0 in *. refine (mmul_emb m _ _ _ _ (p 0%N) (q 0%N) i j _ _ _ _ _ Tp Tq Tpq); intros; [apply EX|apply EY|apply Hq|apply HY|apply HX]; auto; reflexivity.
  - cbn [wm]. rewrite !tS in *.
    assert (P0 : 0 <= sumI s p) by (apply zI_pos; intros v Hv; apply Hp; auto using low_lt). assert (P1 : 0 <= sumI s (fun v => p (pow2 s + v)%N)) by (apply zI_pos; intros v Hv; apply Hp; auto using high_lt).
    assert (Q0 : 0 <= sumI s q) by (apply zI_pos; intros v Hv; apply Hq; auto using low_lt). assert (Q1 : 0 <= sumI s (fun v => q (pow2 s + v)%N)) by (apply zI_pos; intros v Hv; apply Hq; auto using high_lt).
    set (a := sumI s p) in *. set (b := sumI s (fun v => p (pow2 s + v)%N)) in *. set (c := sumI s q) in *. set (e := sumI s (fun v => q (pow2 s + v)%N)) in *.
    assert (M0 : 0 <= a * c) by nia. assert (M1 : 0 <= b * c) by nia. assert (M2 : 0 <= a * e) by nia. assert (M3 : 0 <= b * e) by nia.
    assert (Ex : (a + b) * (c + e) = a * c + b * c + a * e + b * e) by ring. rewrite Ex in *.
    spl w Hw.
    + destruct (N.ltb_spec w (pow2 s)) as [_|]; [|lia].
      destruct (IH X' Y' X Y p q) with (w := w) (i := i) (j := j) as [I1 I2]; auto using low_lt; fold a c; try lia. split; [exact I1|]. fold a c in I2. lia.
    + destruct (N.ltb_spec (pow2 s + w0) (pow2 s)) as [|_]; [lia|]. replace (pow2 s + w0 - pow2 s)%N with w0 by lia.
      destruct (IH (fun v => X' (pow2 s + v)%N) Y' (fun v => X (pow2 s + v)%N) Y (fun v => p (pow2 s + v)%N) q) with (w := w0) (i := i) (j := j) as [I1 I2]; auto using low_lt, high_lt; fold b c; try lia.
      destruct (IH (wal mneg malpha X') (fun v => Y' (pow2 s + v)%N) (wal mneg malpha X) (fun v => Y (pow2 s + v)%N) p (fun v => q (pow2 s + v)%N)) with (w := w0) (i := i) (j := j) as [I3 I4]; auto using low_lt, high_lt; fold a e; try lia.
      * intros v k l Hv Hk Hl. unfold wal, xsgb, malpha, mneg. destruct (par v); rewrite EX by (auto using low_lt); rewrite wg; [exact (w_neg _)|reflexivity].
      * intros v k Hv Hk. eapply Z.le_trans; [|apply (HX v k); auto using low_lt]. apply tle. intros l Hl. unfold wal, xsgb, malpha, mneg. destruct (par v); [rewrite (z_neg (sgb _ _))|]; rewrite zg; lia.
      * fold b c in I2. fold a e in I4. rewrite !madd_at, I1, I3. split; [apply wa; lia|]. eapply Z.le_trans; [apply za|]. lia.
Qed.

(** The inverse transform, on the transform of something. *)
Section Half.
Context {DF : DivOps F}.
Hypothesis half_emb : forall c : R, 4 * size c <= top -> rdiv (emb (radd c c)) (radd r1 r1) = emb c.
Lemma icl_emb m : forall (M' : N -> N -> F) (x : N -> R), (forall i j, (i < pow2 m)%N -> (j < pow2 m)%N -> M' i j = emb (cl m x i j)) -> 4 * total (2 * m) x <= top ->
  forall t, (t < pow2 (2 * m))%N -> icl m M' t = emb (x t).
Proof.
  induction m as [|m IH]; intros M' x HM Ht t Hlt.
  - cbn in Hlt. assert (t = 0%N) as -> by lia. apply (HM 0%N 0%N); reflexivity.
  - rewrite tquarters in Ht. rewrite two_S in Hlt. set (n := (2 * m)%nat) in *. cbn [icl]. fold n.
    pose proof (tpos n x). pose proof (tpos n (up n x)). pose proof (tpos n (up (S n) x)). pose proof (tpos n (up n (up (S n) x))).
    set (x1 := up n x) in *. set (x2 := up (S n) x) in *. set (x3 := up n x2) in *.
    assert (T : forall y z : N -> R, total n y + total n z <= total n x + total n x1 + total n x2 + total n x3 ->
      4 * total n (fun t => radd (y t) (z t)) <= top /\ 4 * total n (fun t => rsub (y t) (z t)) <= top).
    { intros y z Hyz. assert (total n (fun t => radd (y t) (z t)) <= total n y + total n z) by (rewrite <- tadd; apply tle; intros; apply za).
      assert (total n (fun t => rsub (y t) (z t)) <= total n y + total n z) by (rewrite <- tadd; apply tle; intros; apply zs). cbv beta in *. lia. }
    assert (TA : forall y : N -> R, total n (alpha y) = total n y) by (intros y; apply (sumI_ext (T := Z)); intros i Hi; apply zg).
    assert (I0 : forall t, (t < pow2 n)%N -> icl m M' t = emb (radd (x t) (x3 t))).
    { apply (IH M' (fun t => radd (x t) (x3 t))); [|first [refine (proj1 (T _ _ _)); lia|refine (proj2 (T _ _ _)); lia]]. intros i j Hi Hj. rewrite HM by (auto using low_lt). cbn [cl]. rewrite blk_00 by auto. rewrite cl_add. reflexivity. }
    assert (I1 : forall t, (t < pow2 n)%N -> icl m (fun i j => M' i (pow2 m + j)%N) t = emb (alpha (fun t => radd (x1 t) (x2 t)) t)).
    { apply (IH _ (alpha (fun t => radd (x1 t) (x2 t)))); [|rewrite TA; refine (proj1 (T _ _ _)); lia]. intros i j Hi Hj. rewrite HM by (auto using low_lt, high_lt). cbn [cl]. rewrite blk_01, cl_alpha by auto. unfold malpha. rewrite cl_add. reflexivity. }
    assert (I2 : forall t, (t < pow2 n)%N -> icl m (fun i j => M' (pow2 m + i)%N j) t = emb (rsub (x1 t) (x2 t))).
    { apply (IH _ (fun t => rsub (x1 t) (x2 t))); [|first [refine (proj1 (T _ _ _)); lia|refine (proj2 (T _ _ _)); lia]]. intros i j Hi Hj. rewrite HM by (auto using low_lt, high_lt). cbn [cl]. rewrite blk_10 by auto. rewrite cl_sub. reflexivity. }
    assert (I3 : forall t, (t < pow2 n)%N -> icl m (fun i j => M' (pow2 m + i)%N (pow2 m + j)%N) t = emb (alpha (fun t => rsub (x t) (x3 t)) t)).
    { apply (IH _ (alpha (fun t => rsub (x t) (x3 t)))); [|rewrite TA; refine (proj2 (T _ _ _)); lia]. intros i j Hi Hj. rewrite HM by (auto using low_lt, high_lt). cbn [cl]. rewrite blk_11, cl_alpha by auto. unfold malpha. rewrite cl_sub. reflexivity. }
    assert (AA : forall b (c : R), sgb b (sgb b c) = c) by (intros [|] c; cbn [sgb]; [apply neg_neg|reflexivity]).
    assert (B : forall (y : N -> R) s, (s < pow2 n)%N -> size (y s) <= total n y) by (intros y s Hs; apply (tone n (fun t => size (y t))); auto; intros; apply zp).
    assert (FIN : forall y a b : R, 4 * size y <= top -> radd a b = radd y y -> size a + size b <= top -> rdiv (radd (emb a) (emb b)) (radd r1 r1) = emb y).
    { intros y a b Hy E Hab. rewrite wa, E by lia. apply half_emb. exact Hy. }
    assert (FIN2 : forall y a b : R, 4 * size y <= top -> rsub a b = radd y y -> size a + size b <= top -> rdiv (rsub (emb a) (emb b)) (radd r1 r1) = emb y).
    { intros y a b Hy E Hab. rewrite ws, E by lia. apply half_emb. exact Hy. }
    destruct (split_4 n t Hlt) as (s & Hs & [->|[->|[->| ->]]]).
    + rewrite qsel_0 by auto. unfold alpha at 1. rewrite I0, I3 by auto. unfold alpha. rewrite wg, AA.
      pose proof (B x s Hs). pose proof (B x3 s Hs). pose proof (za (x s) (x3 s)). pose proof (zs (x s) (x3 s)). apply FIN; [lia|abel|lia].
    + rewrite qsel_1 by auto. unfold alpha at 1. rewrite I1, I2 by auto. unfold alpha. rewrite wg, AA. change (x (pow2 n + s)%N) with (x1 s).
      pose proof (B x1 s Hs). pose proof (B x2 s Hs). pose proof (za (x1 s) (x2 s)). pose proof (zs (x1 s) (x2 s)). apply FIN; [lia|abel|lia].
    + rewrite qsel_2 by auto. unfold alpha at 1. rewrite I1, I2 by auto. unfold alpha. rewrite wg, AA. change (x (pow2 (S n) + s)%N) with (x2 s).
      pose proof (B x1 s Hs). pose proof (B x2 s Hs). pose proof (za (x1 s) (x2 s)). pose proof (zs (x1 s) (x2 s)). apply FIN2; [lia|abel|lia].
    + rewrite qsel_3 by auto. unfold alpha at 1. rewrite I0, I3 by auto. unfold alpha. rewrite wg, AA. change (x (pow2 (S n) + (pow2 n + s))%N) with (x3 s).
      pose proof (B x s Hs). pose proof (B x3 s Hs). pose proof (za (x s) (x3 s)). pose proof (zs (x s) (x3 s)). apply FIN2; [lia|abel|lia].
Qed.
End Half.
End Fft.
