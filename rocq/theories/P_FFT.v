(** The fast transform on coefficient functions: recursion, multiplicativity, inverse,
    involutions. *)
From Verif Require Export M_CliFFT P_Abel P_Halving P_Inv.
Local Open Scope nat_scope.

Definition meq {T} (m : nat) (X Y : N -> N -> T) : Prop :=
  forall i j, (i < pow2 m)%N -> (j < pow2 m)%N -> X i j = Y i j.

Lemma split_lt m i : (i < pow2 (S m))%N -> (i < pow2 m)%N \/ exists i', i = (pow2 m + i')%N /\ (i' < pow2 m)%N.
Proof.
  rewrite pow2_S. intros H. destruct (N.lt_ge_cases i (pow2 m)) as [?|G]; [left; auto|right].
  exists (i - pow2 m)%N. split; lia.
Qed.
Lemma low_lt m i : (i < pow2 m)%N -> (i < pow2 (S m))%N.
Proof. rewrite pow2_S. lia. Qed.
Lemma high_lt m i : (i < pow2 m)%N -> (pow2 m + i < pow2 (S m))%N.
Proof. rewrite pow2_S. lia. Qed.

(** Case split of an index below a power of two. *)
Ltac spl i H := let i' := fresh i in
  apply split_lt in H; destruct H as [H|(i' & -> & H)].

Section FFT.
Context {T : Type} {RO : RingOps T} {L : RingLaws T}.
Local Notation fn := (N -> T).
Local Notation mx := (N -> N -> T).

Definition madd (X Y : mx) : mx := fun i j => radd (X i j) (Y i j).
Definition msub (X Y : mx) : mx := fun i j => rsub (X i j) (Y i j).
Definition malpha (X : mx) : mx := fun i j => sgb (par (N.lxor i j)) (X i j).
Definition mmul (m : nat) (X Y : mx) : mx := fun i j => sumI m (fun k => rmul (X i k) (Y k j)).
Definition mid : mx := fun i j => if (i =? j)%N then r1 else r0.

Definition blk (m : nat) (A B C D : mx) : mx := fun i j =>
  if (i <? pow2 m)%N then if (j <? pow2 m)%N then A i j else B i (j - pow2 m)%N
  else if (j <? pow2 m)%N then C (i - pow2 m)%N j else D (i - pow2 m)%N (j - pow2 m)%N.

Section Blk.
Variables (m : nat) (A B C D : mx) (i j : N).
Hypothesis Hi : (i < pow2 m)%N.
Hypothesis Hj : (j < pow2 m)%N.
Let lt_t x : (x < pow2 m)%N -> (x <? pow2 m)%N = true. Proof. apply N.ltb_lt. Qed.
Let lt_f x : (pow2 m + x <? pow2 m)%N = false. Proof. apply N.ltb_ge. lia. Qed.
Let sub_e x : (pow2 m + x - pow2 m)%N = x. Proof. lia. Qed.
Lemma blk_00 : blk m A B C D i j = A i j.
Proof. unfold blk. rewrite !lt_t by auto. reflexivity. Qed.
Lemma blk_01 : blk m A B C D i (pow2 m + j) = B i j.
Proof. unfold blk. rewrite lt_t, lt_f, sub_e by auto. reflexivity. Qed.
Lemma blk_10 : blk m A B C D (pow2 m + i) j = C i j.
Proof. unfold blk. rewrite (lt_t j), lt_f, sub_e by auto. reflexivity. Qed.
Lemma blk_11 : blk m A B C D (pow2 m + i) (pow2 m + j) = D i j.
Proof. unfold blk. rewrite !lt_f, !sub_e. reflexivity. Qed.
End Blk.

Ltac bk := repeat first [rewrite blk_11 by auto | rewrite blk_10 by auto | rewrite blk_01 by auto | rewrite blk_00 by auto].

(** The transform. *)
Fixpoint cl (m : nat) (x : fn) : mx :=
  match m with
  | O => fun _ _ => x 0%N
  | S m =>
    let n := 2 * m in
    let X0 := cl m x in let X1 := cl m (up n x) in
    let X2 := cl m (up (S n) x) in let X3 := cl m (up n (up (S n) x)) in
    blk m (madd X0 X3) (malpha (madd X1 X2)) (msub X1 X2) (malpha (msub X0 X3))
  end.

Lemma two_S m : 2 * S m = S (S (2 * m)).
Proof. lia. Qed.

Lemma feq_low n (x y : fn) : feq (S n) x y -> feq n x y.
Proof. intros H i Hi. apply H, low_lt, Hi. Qed.
Lemma feq_up n (x y : fn) : feq (S n) x y -> feq n (up n x) (up n y).
Proof. intros H i Hi. apply H, high_lt, Hi. Qed.

Lemma cl_ext m : forall x y : fn, feq (2 * m) x y -> meq m (cl m x) (cl m y).
Proof.
  induction m as [|m IH]; intros x y H i j Hi Hj; cbn [cl]; [apply H; reflexivity|].
  rewrite two_S in H.
  assert (H0 : feq (2 * m) x y) by (apply feq_low, feq_low; auto).
  assert (H1 : feq (2 * m) (up (2 * m) x) (up (2 * m) y)) by (apply feq_up, feq_low; auto).
  assert (H2 : feq (2 * m) (up (S (2 * m)) x) (up (S (2 * m)) y)) by (apply feq_low, feq_up; auto).
  assert (H3 : feq (2 * m) (up (2 * m) (up (S (2 * m)) x)) (up (2 * m) (up (S (2 * m)) y))) by (apply feq_up, feq_up; auto).
  spl i Hi; spl j Hj; bk; unfold malpha, madd, msub;
  rewrite ?(IH _ _ H0), ?(IH _ _ H1), ?(IH _ _ H2), ?(IH _ _ H3) by auto; reflexivity.
Qed.

(** Additive maps that commute with negation pass through the transform. *)
Lemma cl_add m : forall (x y : fn) i j, cl m (fun t => radd (x t) (y t)) i j = radd (cl m x i j) (cl m y i j).
Proof.
  induction m as [|m IH]; intros x y i j; cbn [cl]; auto.
  change (up (2 * m) (fun t => radd (x t) (y t))) with (fun t => radd (up (2 * m) x t) (up (2 * m) y t)).
  change (up (S (2 * m)) (fun t => radd (x t) (y t))) with (fun t => radd (up (S (2 * m)) x t) (up (S (2 * m)) y t)).
  change (up (2 * m) (fun t => radd (up (S (2 * m)) x t) (up (S (2 * m)) y t)))
    with (fun t => radd (up (2 * m) (up (S (2 * m)) x) t) (up (2 * m) (up (S (2 * m)) y) t)).
  unfold blk. destruct (i <? pow2 m)%N, (j <? pow2 m)%N; unfold malpha, madd, msub; rewrite !IH, <- ?sgb_add; [| f_equal | | f_equal]; abel.
Qed.
Lemma cl_neg m : forall (x : fn) i j, cl m (fun t => rneg (x t)) i j = rneg (cl m x i j).
Proof.
  induction m as [|m IH]; intros x i j; cbn [cl]; auto.
  change (up (2 * m) (fun t => rneg (x t))) with (fun t => rneg (up (2 * m) x t)).
  change (up (S (2 * m)) (fun t => rneg (x t))) with (fun t => rneg (up (S (2 * m)) x t)).
  change (up (2 * m) (fun t => rneg (up (S (2 * m)) x t))) with (fun t => rneg (up (2 * m) (up (S (2 * m)) x) t)).
  unfold blk. destruct (i <? pow2 m)%N, (j <? pow2 m)%N; unfold malpha, madd, msub; rewrite !IH, <- ?sgb_neg; [| f_equal | | f_equal]; abel.
Qed.
Lemma cl_ext0 m : forall (x y : fn), (forall t, x t = y t) -> forall i j, cl m x i j = cl m y i j.
Proof.
  induction m as [|m IH]; intros x y H i j; cbn [cl]; auto.
  unfold blk. destruct (i <? pow2 m)%N, (j <? pow2 m)%N; unfold malpha, madd, msub;
  rewrite ?(IH x y H), ?(IH (up (2 * m) x) (up (2 * m) y)), ?(IH (up (S (2 * m)) x) (up (S (2 * m)) y)),
    ?(IH (up (2 * m) (up (S (2 * m)) x)) (up (2 * m) (up (S (2 * m)) y))) by (intros; unfold up; auto); reflexivity.
Qed.
Lemma cl_sub m (x y : fn) i j : cl m (fun t => rsub (x t) (y t)) i j = rsub (cl m x i j) (cl m y i j).
Proof. rewrite sub_def, <- cl_neg, <- cl_add. apply cl_ext0. intros; apply sub_def. Qed.
Lemma cl_mul_r m c : forall (x : fn) i j, cl m (fun t => rmul (x t) c) i j = rmul (cl m x i j) c.
Proof.
  induction m as [|m IH]; intros x i j; cbn [cl]; auto.
  change (up (2 * m) (fun t => rmul (x t) c)) with (fun t => rmul (up (2 * m) x t) c).
  change (up (S (2 * m)) (fun t => rmul (x t) c)) with (fun t => rmul (up (S (2 * m)) x t) c).
  change (up (2 * m) (fun t => rmul (up (S (2 * m)) x t) c)) with (fun t => rmul (up (2 * m) (up (S (2 * m)) x) t) c).
  unfold blk. destruct (i <? pow2 m)%N, (j <? pow2 m)%N; unfold malpha, madd, msub; rewrite !IH, ?sgb_mul_l; [| f_equal | | f_equal]; ncring.
Qed.
Lemma cl_0 m i j : cl m (fun _ => r0) i j = r0.
Proof.
  apply (add_cancel_l (cl m (fun _ => r0) i j)). rewrite add_0_r, <- cl_add.
  apply cl_ext0. intros; apply add_0_r.
Qed.

Lemma malpha_invol (X : mx) i j : malpha (malpha X) i j = X i j.
Proof. apply sgb_invol. Qed.
Lemma up_alpha n (x : fn) i : (i < pow2 n)%N -> up n (alpha x) i = rneg (alpha (up n x) i).
Proof. intros H. unfold up, alpha. rewrite par_add_pow2 by auto. destruct (par i); cbn; [symmetry; apply neg_neg|reflexivity]. Qed.
Lemma up_lt_S n (x : fn) i : up (S n) x i = x (pow2 (S n) + i)%N.
Proof. reflexivity. Qed.

(** The grade involution. *)
Lemma cl_alpha m : forall x : fn, meq m (cl m (alpha x)) (malpha (cl m x)).
Proof.
  induction m as [|m IH]; intros x i j Hi Hj.
  - cbn in Hi, Hj. assert (i = 0%N) as -> by lia. assert (j = 0%N) as -> by lia. reflexivity.
  - cbn [cl]. unfold malpha at 3.
    assert (A1 : feq (2 * m) (up (2 * m) (alpha x)) (fun t => rneg (alpha (up (2 * m) x) t))) by (intros t Ht; apply up_alpha; auto).
    assert (A2 : feq (2 * m) (up (S (2 * m)) (alpha x)) (fun t => rneg (alpha (up (S (2 * m)) x) t)))
      by (intros t Ht; apply up_alpha, low_lt; auto).
    assert (A3 : feq (2 * m) (up (2 * m) (up (S (2 * m)) (alpha x))) (alpha (up (2 * m) (up (S (2 * m)) x)))).
    { intros t Ht. unfold up at 1. rewrite up_alpha by (apply high_lt; auto). unfold alpha, up.
      rewrite par_add_pow2 by auto. destruct (par t); cbn; [reflexivity|apply neg_neg]. }
    spl i Hi; spl j Hj; bk; unfold malpha, madd, msub;
    rewrite ?(cl_ext m _ _ A1), ?(cl_ext m _ _ A2), ?(cl_ext m _ _ A3), ?cl_neg, ?IH by auto; unfold malpha;
    rewrite ?par_lxor, ?par_add_pow2 by auto; try destruct (par i); try destruct (par i0); try destruct (par j); try destruct (par j0);
    cbn [xorb negb sgb]; abel.
Qed.

(** Odd generators square to -1, even ones to 1. *)
Definition odd_mask (m : nat) (Q : N) : Prop :=
  forall k, k < m -> N.testbit Q (N.of_nat (2 * k)) = false /\ N.testbit Q (N.of_nat (S (2 * k))) = true.

Lemma odd_mask_S m Q : odd_mask (S m) Q -> odd_mask m Q /\ gen_sq Q 0 (2 * m) = Plus /\ gen_sq Q 0 (S (2 * m)) = Minus.
Proof.
  intros H. split; [intros k Hk; apply H; lia|]. destruct (H m ltac:(lia)) as (H1 & H2).
  unfold gen_sq. rewrite !N.bits_0, H1, H2. split; reflexivity.
Qed.

Local Notation G n := (gp n _ 0%N).

(** Quarters of a product. *)
Section Quarters.
Variables (n : nat) (Q : N).
Hypothesis E0 : gen_sq Q 0 n = Plus.
Hypothesis E1 : gen_sq Q 0 (S n) = Minus.
Variables x y : fn.
Local Notation g := (gp n Q 0).
Let x1 := up n x. Let x2 := up (S n) x. Let x3 := up n (up (S n) x).
Let y1 := up n y. Let y2 := up (S n) y. Let y3 := up n (up (S n) y).
Local Notation z := (gp (S (S n)) Q 0 x y).

Let ua : feq n (up n (alpha x2)) (fneg (alpha x3)).
Proof. intros i Hi. apply up_alpha; auto. Qed.
Let aua : feq n (alpha (up n (alpha x2))) (fneg x3).
Proof. intros i Hi. unfold alpha at 1. rewrite ua by auto. unfold fneg. rewrite sgb_neg. f_equal. apply alpha_invol. Qed.
Let ux : feq n (up n (alpha x)) (fneg (alpha x1)).
Proof. intros i Hi. apply up_alpha; auto. Qed.
Let aux : feq n (alpha (up n (alpha x))) (fneg x1).
Proof. intros i Hi. unfold alpha at 1. rewrite ux by auto. unfold fneg. rewrite sgb_neg. f_equal. apply alpha_invol. Qed.
Let aa (f : fn) : feq n (alpha (alpha f)) f.
Proof. intros i Hi. apply alpha_invol. Qed.

Lemma quarter_0 k : (k < pow2 n)%N ->
  z k = radd (radd (g x y k) (g (alpha x1) y1 k)) (radd (rneg (g (alpha x2) y2 k)) (g x3 y3 k)).
Proof.
  intros Hk. rewrite gp_S_low by (apply low_lt; auto). rewrite E1. cbn [act].
  rewrite !gp_S_low, E0 by auto. cbn [act].
  rewrite (gp_ext n Q 0 _ _ _ _ k Hk aua (feq_refl n _)), gp_neg_l. unfold x1, x2, x3, y1, y2, y3. abel.
Qed.
Lemma quarter_1 k : (k < pow2 n)%N ->
  up n z k = radd (radd (g x1 y k) (g (alpha x) y1 k)) (rsub (g (alpha x3) y2 k) (g x2 y3 k)).
Proof.
  intros Hk. unfold up at 1. rewrite gp_S_low by (apply high_lt; auto). rewrite E1. cbn [act].
  rewrite !gp_S_high by auto.
  rewrite (gp_ext n Q 0 _ _ _ _ k Hk ua (feq_refl n _)), (gp_ext n Q 0 _ _ _ _ k Hk (aa x2) (feq_refl n _)), gp_neg_l.
  unfold x1, x2, x3, y1, y2, y3. abel.
Qed.
Lemma quarter_2 k : (k < pow2 n)%N ->
  up (S n) z k = radd (radd (g x2 y k) (g (alpha x3) y1 k)) (rsub (g (alpha x) y2 k) (g x1 y3 k)).
Proof.
  intros Hk. unfold up at 1. rewrite gp_S_high by (apply low_lt; auto).
  rewrite !gp_S_low, E0 by auto. cbn [act].
  rewrite (gp_ext n Q 0 _ _ _ _ k Hk aux (feq_refl n _)), gp_neg_l. unfold x1, x2, x3, y1, y2, y3. abel.
Qed.
Lemma quarter_3 k : (k < pow2 n)%N ->
  up n (up (S n) z) k = radd (radd (g x3 y k) (g (alpha x2) y1 k)) (rsub (g x y3 k) (g (alpha x1) y2 k)).
Proof.
  intros Hk. unfold up at 1 2. rewrite gp_S_high by (apply high_lt; auto). rewrite !gp_S_high by auto.
  rewrite (gp_ext n Q 0 _ _ _ _ k Hk ux (feq_refl n _)), (gp_ext n Q 0 _ _ _ _ k Hk (aa x) (feq_refl n _)), gp_neg_l.
  unfold x1, x2, x3, y1, y2, y3. abel.
Qed.
End Quarters.

Theorem cl_mul m Q : odd_mask m Q -> forall x y : fn,
  meq m (cl m (gp (2 * m) Q 0 x y)) (mmul m (cl m x) (cl m y)).
Proof.
  induction m as [|m IH]; intros HQ x y i j Hi Hj.
  - cbn [cl]. unfold mmul. rewrite sumI_O. cbn [Nat.mul]. unfold gp. rewrite sumI_O.
    replace (gsign 0 Q 0 0 (N.lxor 0 0)) with Plus; [reflexivity|]. symmetry. apply gsign_0_l.
  - apply odd_mask_S in HQ as (HQ & E0 & E1). specialize (IH HQ). rewrite two_S.
    set (z := gp (S (S (2 * m))) Q 0 x y). cbn [cl].
    pose proof (cl_ext m _ _ (fun k Hk => quarter_0 (2 * m) Q E0 E1 x y k Hk)) as Z0.
    pose proof (cl_ext m _ _ (fun k Hk => quarter_1 (2 * m) Q E1 x y k Hk)) as Z1.
    pose proof (cl_ext m _ _ (fun k Hk => quarter_2 (2 * m) Q E0 x y k Hk)) as Z2.
    pose proof (cl_ext m _ _ (fun k Hk => quarter_3 (2 * m) Q x y k Hk)) as Z3.
    fold z in Z0, Z1, Z2, Z3.
    assert (S1 : forall f : N -> T, sumI (S m) f = sumI m (fun k => radd (f k) (f (pow2 m + k)%N))).
    { intros f. rewrite sumI_S, sumI_add. reflexivity. }
    unfold mmul. rewrite S1.
    assert (IHx : forall f h i j, (i < pow2 m)%N -> (j < pow2 m)%N ->
        cl m (fun t => gp (2 * m) Q 0 f h t) i j = sumI m (fun k => rmul (cl m f i k) (cl m h k j))).
    { intros f h i' j' Hi' Hj'. apply IH; auto. }
    assert (IHa : forall f h i j, (i < pow2 m)%N -> (j < pow2 m)%N ->
        cl m (fun t => gp (2 * m) Q 0 (alpha f) h t) i j = sumI m (fun k => rmul (sgb (par (N.lxor i k)) (cl m f i k)) (cl m h k j))).
    { intros f h i' j' Hi' Hj'. rewrite IHx by auto. apply sumI_ext. intros k Hk. rewrite cl_alpha by auto. reflexivity. }
    spl i Hi; spl j Hj; bk; unfold malpha, madd, msub;
    rewrite ?Z0, ?Z1, ?Z2, ?Z3 by auto;
    repeat first [rewrite cl_add | rewrite cl_sub | rewrite cl_neg]; rewrite ?IHa, ?IHx by auto;
    rewrite <- ?sumI_neg, <- ?sumI_add, <- ?sumI_sub, <- ?sumI_sgb, <- ?sumI_neg, <- ?sumI_add, <- ?sumI_sub, <- ?sumI_sgb;
    rewrite <- ?sumI_neg, <- ?sumI_add, <- ?sumI_sub, <- ?sumI_sgb;
    apply sumI_ext; intros k Hk; bk;
    rewrite ?par_lxor; destruct (par k); try destruct (par i); try destruct (par i0); try destruct (par j); try destruct (par j0);
    cbn [xorb negb sgb]; ncring.
Qed.

End FFT.
