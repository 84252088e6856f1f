(** The transform on coefficient functions, continued: unit, inverse, involutions. *)
From Verif Require Export P_FFT.
Local Open Scope nat_scope.

Ltac bk := repeat first [rewrite blk_11 by auto | rewrite blk_10 by auto | rewrite blk_01 by auto | rewrite blk_00 by auto].

Section FFT2.
Context {T : Type} {RO : RingOps T} {L : RingLaws T}.
Local Notation fn := (N -> T).
Local Notation mx := (N -> N -> T).

Lemma meq_trans m (X Y Z : mx) : meq m X Y -> meq m Y Z -> meq m X Z.
Proof. intros H1 H2 i j Hi Hj. rewrite H1 by auto. auto. Qed.
Lemma meq_sym m (X Y : mx) : meq m X Y -> meq m Y X.
Proof. intros H i j Hi Hj. symmetry. auto. Qed.

(** The unit. *)
Lemma up_del0 n c i : up n (del 0 c) i = (r0 : T).
Proof. unfold up. apply del_neq. pose proof (pow2_pos n). lia. Qed.
Lemma cl_one m c : meq m (cl m (del 0 c)) (fun i j => if (i =? j)%N then c else r0).
Proof.
  induction m as [|m IH]; intros i j Hi Hj.
  - cbn in Hi, Hj. assert (i = 0%N) as -> by lia. assert (j = 0%N) as -> by lia. reflexivity.
  - cbn [cl].
    assert (Z1 : forall i j, cl m (up (2 * m) (del 0 c)) i j = r0) by (intros; rewrite <- (cl_0 m i0 j0); apply cl_ext0; intros; apply up_del0).
    assert (Z2 : forall i j, cl m (up (S (2 * m)) (del 0 c)) i j = r0) by (intros; rewrite <- (cl_0 m i0 j0); apply cl_ext0; intros; apply up_del0).
    assert (Z3 : forall i j, cl m (up (2 * m) (up (S (2 * m)) (del 0 c))) i j = r0) by (intros; rewrite <- (cl_0 m i0 j0); apply cl_ext0; intros; apply up_del0).
    spl i Hi; spl j Hj; bk; unfold malpha, madd, msub; rewrite ?Z1, ?Z2, ?Z3, ?IH, ?add_0_r, ?sub_0_r, ?sgb_0 by auto; auto.
    + destruct (N.eqb_spec i (pow2 m + j0)); auto. lia.
    + destruct (N.eqb_spec (pow2 m + i0) j); auto. lia.
    + destruct (N.eqb_spec i0 j0) as [->|E].
      * rewrite N.lxor_nilpotent, N.eqb_refl. reflexivity.
      * rewrite sgb_0. destruct (N.eqb_spec (pow2 m + i0) (pow2 m + j0)); auto. lia.
Qed.

(** The inverse. *)
Section Half.
Context {DV : DivOps T}.
Local Notation two := (radd r1 r1 : T).

Definition qsel (n : nat) (a b c d : fn) (t : N) : T :=
  if (t <? pow2 n)%N then a t
  else if (t <? pow2 (S n))%N then b (t - pow2 n)%N
  else if (t <? pow2 (S n) + pow2 n)%N then c (t - pow2 (S n))%N
  else d (t - pow2 (S n) - pow2 n)%N.

Fixpoint icl (m : nat) (M : mx) : fn :=
  match m with
  | O => fun _ => M 0%N 0%N
  | S m =>
    let a := icl m M in let b := icl m (fun i j => M i (pow2 m + j)%N) in
    let c := icl m (fun i j => M (pow2 m + i)%N j) in let d := icl m (fun i j => M (pow2 m + i)%N (pow2 m + j)%N) in
    qsel (2 * m)
      (fun t => rdiv (radd (a t) (alpha d t)) two) (fun t => rdiv (radd (alpha b t) (c t)) two)
      (fun t => rdiv (rsub (alpha b t) (c t)) two) (fun t => rdiv (rsub (a t) (alpha d t)) two)
  end.

Section Sel.
Variables (n : nat) (a b c d : fn) (t : N).
Hypothesis Ht : (t < pow2 n)%N.
Lemma qsel_0 : qsel n a b c d t = a t.
Proof. unfold qsel. destruct (N.ltb_spec t (pow2 n)); [reflexivity|lia]. Qed.
Lemma qsel_1 : qsel n a b c d (pow2 n + t) = b t.
Proof.
  unfold qsel. rewrite pow2_S. destruct (N.ltb_spec (pow2 n + t) (pow2 n)); [lia|].
  destruct (N.ltb_spec (pow2 n + t) (2 * pow2 n)); [|lia]. f_equal. lia.
Qed.
Lemma qsel_2 : qsel n a b c d (pow2 (S n) + t) = c t.
Proof.
  unfold qsel. rewrite pow2_S. destruct (N.ltb_spec (2 * pow2 n + t) (pow2 n)); [lia|].
  destruct (N.ltb_spec (2 * pow2 n + t) (2 * pow2 n)); [lia|].
  destruct (N.ltb_spec (2 * pow2 n + t) (2 * pow2 n + pow2 n)); [|lia]. f_equal. lia.
Qed.
Lemma qsel_3 : qsel n a b c d (pow2 (S n) + (pow2 n + t)) = d t.
Proof.
  unfold qsel. rewrite pow2_S. destruct (N.ltb_spec (2 * pow2 n + (pow2 n + t)) (pow2 n)); [lia|].
  destruct (N.ltb_spec (2 * pow2 n + (pow2 n + t)) (2 * pow2 n)); [lia|].
  destruct (N.ltb_spec (2 * pow2 n + (pow2 n + t)) (2 * pow2 n + pow2 n)); [lia|]. f_equal. lia.
Qed.
End Sel.

Lemma split_4 n t : (t < pow2 (S (S n)))%N -> exists s, (s < pow2 n)%N /\
  (t = s \/ t = (pow2 n + s)%N \/ t = (pow2 (S n) + s)%N \/ t = (pow2 (S n) + (pow2 n + s))%N).
Proof.
  intros H. apply split_lt in H as [H|(u & -> & H)]; apply split_lt in H as [H|(v & -> & H)]; eauto 8.
Qed.

Lemma icl_ext m : forall (X Y : mx), meq m X Y -> forall t, (t < pow2 (2 * m))%N -> icl m X t = icl m Y t.
Proof.
  induction m as [|m IH]; intros X Y H t Ht; [apply H; reflexivity|].
  rewrite two_S in Ht. cbn [icl].
  assert (A : forall t, (t < pow2 (2 * m))%N -> icl m X t = icl m Y t).
  { apply IH. intros i j Hi Hj. apply H; apply low_lt; auto. }
  assert (B : forall t, (t < pow2 (2 * m))%N -> icl m (fun i j => X i (pow2 m + j)%N) t = icl m (fun i j => Y i (pow2 m + j)%N) t).
  { apply IH. intros i j Hi Hj. apply H; [apply low_lt|apply high_lt]; auto. }
  assert (C : forall t, (t < pow2 (2 * m))%N -> icl m (fun i j => X (pow2 m + i)%N j) t = icl m (fun i j => Y (pow2 m + i)%N j) t).
  { apply IH. intros i j Hi Hj. apply H; [apply high_lt|apply low_lt]; auto. }
  assert (D : forall t, (t < pow2 (2 * m))%N -> icl m (fun i j => X (pow2 m + i)%N (pow2 m + j)%N) t = icl m (fun i j => Y (pow2 m + i)%N (pow2 m + j)%N) t).
  { apply IH. intros i j Hi Hj. apply H; apply high_lt; auto. }
  apply split_4 in Ht as (s & Hs & [-> | [-> | [-> | ->]]]); rewrite ?qsel_0, ?qsel_1, ?qsel_2, ?qsel_3 by auto; unfold alpha; rewrite ?A, ?B, ?C, ?D by auto; reflexivity.
Qed.

Variable hf : T.
Hypothesis Hh : radd hf hf = r1.
Hypothesis Hd : forall x : T, rdiv x two = rmul x hf.

Lemma half_sum a : rmul (radd a a) hf = a.
Proof. rewrite mul_add_l, <- mul_add_r, Hh. apply mul_1_r. Qed.
Lemma sum_half a : radd (rmul a hf) (rmul a hf) = a.
Proof. rewrite <- mul_add_r, Hh. apply mul_1_r. Qed.

Lemma icl_cl m : forall x : fn, feq (2 * m) (icl m (cl m x)) x.
Proof.
  induction m as [|m IH]; intros x t Ht.
  - cbn in Ht. assert (t = 0%N) as -> by lia. reflexivity.
  - rewrite two_S in Ht. cbn [icl].
    set (n := 2 * m) in *. set (x1 := up n x). set (x2 := up (S n) x). set (x3 := up n (up (S n) x)).
    assert (A : feq n (icl m (cl (S m) x)) (fun t => radd (x t) (x3 t))).
    { intros s Hs. rewrite <- (IH (fun t => radd (x t) (x3 t))) by auto. apply icl_ext; auto.
      intros i j Hi Hj. cbn [cl]. bk. rewrite cl_add. reflexivity. }
    assert (B : feq n (icl m (fun i j => cl (S m) x i (pow2 m + j)%N)) (alpha (fun t => radd (x1 t) (x2 t)))).
    { intros s Hs. rewrite <- (IH (alpha (fun t => radd (x1 t) (x2 t)))) by auto. apply icl_ext; auto.
      intros i j Hi Hj. cbn [cl]. bk. rewrite cl_alpha by auto. unfold malpha. rewrite cl_add. reflexivity. }
    assert (C : feq n (icl m (fun i j => cl (S m) x (pow2 m + i)%N j)) (fun t => rsub (x1 t) (x2 t))).
    { intros s Hs. rewrite <- (IH (fun t => rsub (x1 t) (x2 t))) by auto. apply icl_ext; auto.
      intros i j Hi Hj. cbn [cl]. bk. rewrite cl_sub. reflexivity. }
    assert (D : feq n (icl m (fun i j => cl (S m) x (pow2 m + i)%N (pow2 m + j)%N)) (alpha (fun t => rsub (x t) (x3 t)))).
    { intros s Hs. rewrite <- (IH (alpha (fun t => rsub (x t) (x3 t)))) by auto. apply icl_ext; auto.
      intros i j Hi Hj. cbn [cl]. bk. rewrite cl_alpha by auto. unfold malpha. rewrite cl_sub. reflexivity. }
    apply split_4 in Ht as (s & Hs & [-> | [-> | [-> | ->]]]); rewrite ?qsel_0, ?qsel_1, ?qsel_2, ?qsel_3 by auto; unfold alpha at 1;
    rewrite ?A, ?B, ?C, ?D by auto; unfold alpha; rewrite ?sgb_invol, Hd.
    + transitivity (rmul (radd (x s) (x s)) hf); [f_equal|apply half_sum]. abel.
    + change (x (pow2 n + s)%N) with (x1 s). transitivity (rmul (radd (x1 s) (x1 s)) hf); [f_equal|apply half_sum]. abel.
    + change (x (pow2 (S n) + s)%N) with (x2 s). transitivity (rmul (radd (x2 s) (x2 s)) hf); [f_equal|apply half_sum]. abel.
    + change (x (pow2 (S n) + (pow2 n + s))%N) with (x3 s). transitivity (rmul (radd (x3 s) (x3 s)) hf); [f_equal|apply half_sum]. abel.
Qed.

Lemma cl_icl m : forall M : mx, meq m (cl m (icl m M)) M.
Proof.
  induction m as [|m IH]; intros M i j Hi Hj.
  - cbn in Hi, Hj. assert (i = 0%N) as -> by lia. assert (j = 0%N) as -> by lia. reflexivity.
  - cbn [icl]. set (n := 2 * m).
    set (a := icl m M). set (b := icl m (fun i j => M i (pow2 m + j)%N)).
    set (c := icl m (fun i j => M (pow2 m + i)%N j)). set (d := icl m (fun i j => M (pow2 m + i)%N (pow2 m + j)%N)).
    assert (Ha : meq m (cl m a) M) by apply IH.
    assert (Hb : meq m (cl m b) (fun i j => M i (pow2 m + j)%N)) by apply IH.
    assert (Hc : meq m (cl m c) (fun i j => M (pow2 m + i)%N j)) by apply IH.
    assert (Hdd : meq m (cl m d) (fun i j => M (pow2 m + i)%N (pow2 m + j)%N)) by apply IH.
    assert (K : forall f : fn, (forall t, (t < pow2 n)%N -> f t = f t) -> True) by auto.
    assert (E : forall (f g h : fn) i j, (i < pow2 m)%N -> (j < pow2 m)%N ->
       (forall t, (t < pow2 n)%N -> f t = rmul (radd (g t) (h t)) hf) ->
       cl m f i j = rmul (radd (cl m g i j) (cl m h i j)) hf).
    { intros f g h i' j' Hi' Hj' Hf. rewrite (cl_ext m _ (fun t => rmul (radd (g t) (h t)) hf)) by auto.
      rewrite (cl_mul_r m hf (fun t => radd (g t) (h t))), cl_add. reflexivity. }
    cbn [cl]. fold n.
    set (x := qsel n _ _ _ _).
    assert (X0 : forall i j, (i < pow2 m)%N -> (j < pow2 m)%N -> cl m x i j = rmul (radd (cl m a i j) (cl m (alpha d) i j)) hf).
    { intros i' j' Hi' Hj'. apply E; auto. intros t Ht. unfold x. rewrite qsel_0, Hd by auto. reflexivity. }
    assert (X1 : forall i j, (i < pow2 m)%N -> (j < pow2 m)%N -> cl m (up n x) i j = rmul (radd (cl m (alpha b) i j) (cl m c i j)) hf).
    { intros i' j' Hi' Hj'. apply E; auto. intros t Ht. unfold x, up. rewrite qsel_1, Hd by auto. reflexivity. }
    assert (X2 : forall i j, (i < pow2 m)%N -> (j < pow2 m)%N -> cl m (up (S n) x) i j = rmul (radd (cl m (alpha b) i j) (rneg (cl m c i j))) hf).
    { intros i' j' Hi' Hj'. rewrite <- cl_neg. apply E; auto. intros t Ht. unfold x, up. rewrite qsel_2, Hd, sub_def by auto. reflexivity. }
    assert (X3 : forall i j, (i < pow2 m)%N -> (j < pow2 m)%N -> cl m (up n (up (S n) x)) i j = rmul (radd (cl m a i j) (rneg (cl m (alpha d) i j))) hf).
    { intros i' j' Hi' Hj'. rewrite <- cl_neg. apply E; auto. intros t Ht. unfold x, up. rewrite qsel_3, Hd, sub_def by auto. reflexivity. }
    spl i Hi; spl j Hj; bk; unfold malpha, madd, msub; rewrite ?X0, ?X1, ?X2, ?X3 by auto;
    rewrite ?cl_alpha by auto; unfold malpha; rewrite ?Ha, ?Hb, ?Hc, ?Hdd by auto; rewrite ?sub_def, <- ?mul_neg_l, <- mul_add_l.
    + transitivity (rmul (radd (M i j) (M i j)) hf); [f_equal|apply half_sum]. abel.
    + rewrite <- sgb_mul_l. transitivity (rmul (radd (M i (pow2 m + j0)%N) (M i (pow2 m + j0)%N)) hf); [f_equal|apply half_sum]. destruct (par (N.lxor i j0)); cbn [sgb]; abel.
    + transitivity (rmul (radd (M (pow2 m + i0)%N j) (M (pow2 m + i0)%N j)) hf); [f_equal|apply half_sum]. abel.
    + rewrite <- sgb_mul_l. transitivity (rmul (radd (M (pow2 m + i0)%N (pow2 m + j0)%N) (M (pow2 m + i0)%N (pow2 m + j0)%N)) hf); [f_equal|apply half_sum].
      destruct (par (N.lxor i0 j0)); cbn [sgb]; abel.
Qed.
End Half.

(** The involution of the odd generators. *)
Fixpoint iflip (m : nat) (M : mx) : mx :=
  match m with
  | O => M
  | S m => blk m (iflip m (malpha (fun i j => M (pow2 m + i)%N (pow2 m + j)%N)))
                 (iflip m (malpha (fun i j => M (pow2 m + i)%N j)))
                 (iflip m (malpha (fun i j => M i (pow2 m + j)%N)))
                 (iflip m (malpha M))
  end.
Definition mtr (M : mx) : mx := fun i j => M j i.

Lemma malpha_ext m (X Y : mx) : meq m X Y -> meq m (malpha X) (malpha Y).
Proof. intros H i j Hi Hj. unfold malpha. rewrite H; auto. Qed.

Lemma iflip_ext m : forall X Y : mx, meq m X Y -> meq m (iflip m X) (iflip m Y).
Proof.
  induction m as [|m IH]; intros X Y H i j Hi Hj; [apply H; auto|]. cbn [iflip].
  spl i Hi; spl j Hj; bk; apply IH; auto; apply malpha_ext; intros k l Hk Hl; apply H; auto using low_lt, high_lt.
Qed.

Lemma up_alpham n Q (x : fn) t : (t < pow2 n)%N ->
  up n (alpham Q x) t = sgb (N.testbit Q (N.of_nat n)) (alpham Q (up n x) t).
Proof.
  intros Ht. unfold up, alpham. rewrite land_add_pow2 by auto. destruct (N.testbit Q (N.of_nat n)); cbn [sgb]; auto.
  rewrite par_add_pow2 by (apply land_lt_l; auto). destruct (par (N.land t Q)); cbn; [symmetry; apply neg_neg|reflexivity].
Qed.

Lemma cl_iflip m Q : odd_mask m Q -> forall x : fn, meq m (cl m (alpham Q x)) (iflip m (cl m x)).
Proof.
  induction m as [|m IH]; intros HQ x i j Hi Hj.
  - cbn in Hi, Hj. assert (i = 0%N) as -> by lia. assert (j = 0%N) as -> by lia. reflexivity.
  - destruct (HQ m ltac:(lia)) as (Q0 & Q1). apply odd_mask_S in HQ as (HQ & _). specialize (IH HQ).
    set (n := 2 * m) in *. set (x1 := up n x). set (x2 := up (S n) x). set (x3 := up n (up (S n) x)).
    assert (U1 : feq n (up n (alpham Q x)) (alpham Q x1)).
    { intros t Ht. rewrite up_alpham, Q0 by auto. reflexivity. }
    assert (U2 : feq n (up (S n) (alpham Q x)) (fun t => rneg (alpham Q x2 t))).
    { intros t Ht. rewrite up_alpham, Q1 by (apply low_lt; auto). reflexivity. }
    assert (U3 : feq n (up n (up (S n) (alpham Q x))) (fun t => rneg (alpham Q x3 t))).
    { intros t Ht. unfold up at 1. rewrite up_alpham, Q1 by (apply high_lt; auto). cbn [sgb]. f_equal.
      change (up n (alpham Q (up (S n) x)) t = alpham Q x3 t). rewrite up_alpham, Q0 by auto. reflexivity. }
    assert (W : forall f g : fn, forall i j, (i < pow2 m)%N -> (j < pow2 m)%N ->
       iflip m (fun i j => radd (cl m f i j) (cl m g i j)) i j = radd (iflip m (cl m f) i j) (iflip m (cl m g) i j)).
    { intros f g i' j' Hi' Hj'. rewrite <- !IH by auto.
      rewrite (iflip_ext m _ (cl m (fun t => radd (f t) (g t)))) by (auto; intros k l _ _; symmetry; apply cl_add).
      rewrite <- IH by auto. rewrite <- cl_add. apply cl_ext0. intros t. apply sgb_add. }
    assert (V : forall f g : fn, forall i j, (i < pow2 m)%N -> (j < pow2 m)%N ->
       iflip m (fun i j => rsub (cl m f i j) (cl m g i j)) i j = rsub (iflip m (cl m f) i j) (iflip m (cl m g) i j)).
    { intros f g i' j' Hi' Hj'. rewrite <- !IH by auto.
      rewrite (iflip_ext m _ (cl m (fun t => rsub (f t) (g t)))) by (auto; intros k l _ _; symmetry; apply cl_sub).
      rewrite <- IH by auto. rewrite <- cl_sub. apply cl_ext0. intros t. unfold alpham. rewrite !sub_def, sgb_add, sgb_neg. reflexivity. }
    assert (AL : forall f : fn, forall i j, (i < pow2 m)%N -> (j < pow2 m)%N -> iflip m (malpha (cl m f)) i j = malpha (iflip m (cl m f)) i j).
    { intros f i' j' Hi' Hj'. rewrite (iflip_ext m _ (cl m (alpha f))) by (auto; apply meq_sym, cl_alpha).
      unfold malpha. rewrite <- !IH by auto.
      rewrite (cl_ext0 m (alpham Q (alpha f)) (alpha (alpham Q f))) by (intros t; unfold alpham, alpha; rewrite !sgb_sgb, xorb_comm; reflexivity).
      apply cl_alpha; auto. }
    cbn [cl iflip]. fold n x1 x2 x3.
    spl i Hi; spl j Hj; bk.
    + rewrite (iflip_ext m _ (msub (cl m x) (cl m x3))) by (auto; intros k l Hk Hl; unfold malpha at 1; bk; apply sgb_invol).
      unfold madd, msub. rewrite V, (cl_ext m _ _ U3), cl_neg, !IH by auto. abel.
    + rewrite (iflip_ext m _ (malpha (cl m (fun t => rsub (x1 t) (x2 t)))))
        by (auto; intros k l Hk Hl; unfold malpha; bk; unfold msub; rewrite cl_sub; reflexivity).
      rewrite AL by auto. unfold malpha, madd. f_equal.
      rewrite (iflip_ext m _ (fun i j => rsub (cl m x1 i j) (cl m x2 i j))) by (auto; intros k l _ _; apply cl_sub).
      rewrite V, (cl_ext m _ _ U1), (cl_ext m _ _ U2), cl_neg, !IH by auto. abel.
    + rewrite (iflip_ext m _ (madd (cl m x1) (cl m x2))) by (auto; intros k l Hk Hl; unfold malpha at 1; bk; apply sgb_invol).
      unfold madd, msub. rewrite W, (cl_ext m _ _ U1), (cl_ext m _ _ U2), cl_neg, !IH by auto. abel.
    + rewrite (iflip_ext m _ (malpha (cl m (fun t => radd (x t) (x3 t)))))
        by (auto; intros k l Hk Hl; unfold malpha; bk; unfold madd; rewrite cl_add; reflexivity).
      rewrite AL by auto. unfold malpha, msub. f_equal.
      rewrite (iflip_ext m _ (fun i j => radd (cl m x i j) (cl m x3 i j))) by (auto; intros k l _ _; apply cl_add).
      rewrite W, (cl_ext m _ _ U3), cl_neg, !IH by auto. abel.
Qed.

Lemma iflip_add m : forall X Y : mx, meq m (iflip m (madd X Y)) (madd (iflip m X) (iflip m Y)).
Proof.
  induction m as [|m IH]; intros X Y i j Hi Hj; [reflexivity|]. unfold madd at 2. cbn [iflip].
  assert (E : forall Z X Y, meq m Z (madd X Y) -> meq m (iflip m (malpha Z)) (madd (iflip m (malpha X)) (iflip m (malpha Y)))).
  { intros Z X' Y' HZ k l Hk Hl. rewrite <- IH by auto. apply iflip_ext; auto. intros a b Ha Hb. unfold malpha, madd. rewrite HZ by auto. apply sgb_add. }
  spl i Hi; spl j Hj; bk; apply E; auto; intros k l _ _; reflexivity.
Qed.
Lemma iflip_neg m : forall X : mx, meq m (iflip m (fun i j => rneg (X i j))) (fun i j => rneg (iflip m X i j)).
Proof.
  induction m as [|m IH]; intros X i j Hi Hj; [reflexivity|]. cbn [iflip].
  assert (E : forall Z X, meq m Z (fun i j => rneg (X i j)) -> meq m (iflip m (malpha Z)) (fun i j => rneg (iflip m (malpha X) i j))).
  { intros Z X' HZ k l Hk Hl. rewrite <- IH by auto. apply iflip_ext; auto. intros a b Ha Hb. unfold malpha. rewrite HZ by auto. apply sgb_neg. }
  spl i Hi; spl j Hj; bk; apply E; auto; intros k l _ _; reflexivity.
Qed.
Lemma iflip_sub m (X Y : mx) : meq m (iflip m (msub X Y)) (msub (iflip m X) (iflip m Y)).
Proof.
  intros i j Hi Hj. rewrite (iflip_ext m _ (madd X (fun i j => rneg (Y i j)))) by (auto; intros k l _ _; apply sub_def).
  rewrite iflip_add by auto. unfold madd, msub. rewrite iflip_neg, sub_def by auto. reflexivity.
Qed.
Lemma par_lxor_high m i j : (i < pow2 m)%N -> (j < pow2 m)%N ->
  par (N.lxor (pow2 m + i) j) = negb (par (N.lxor i j)) /\ par (N.lxor i (pow2 m + j)) = negb (par (N.lxor i j)) /\
  par (N.lxor (pow2 m + i) (pow2 m + j)) = par (N.lxor i j).
Proof. intros Hi Hj. rewrite !par_lxor, !par_add_pow2 by auto. destruct (par i), (par j); auto. Qed.
Lemma iflip_malpha m : forall X : mx, meq m (iflip m (malpha X)) (malpha (iflip m X)).
Proof.
  induction m as [|m IH]; intros X i j Hi Hj; [reflexivity|]. change (malpha (iflip (S m) X) i j) with (sgb (par (N.lxor i j)) (iflip (S m) X i j)). cbn [iflip].
  assert (E : forall (b : bool) Z X, meq m Z (fun i j => sgb b (malpha X i j)) ->
     meq m (iflip m (malpha Z)) (fun i j => sgb b (sgb (par (N.lxor i j)) (iflip m (malpha X) i j)))).
  { intros b Z X' HZ k l Hk Hl. rewrite (iflip_ext m _ (malpha (fun i j => sgb b (malpha X' i j)))) by (auto; apply malpha_ext; auto).
    destruct b; cbn [sgb].
    - rewrite (iflip_ext m _ (fun i j => rneg (malpha (malpha X') i j))) by (auto; intros a c _ _; apply sgb_neg).
      rewrite iflip_neg, IH by auto. reflexivity.
    - apply IH; auto. }
  assert (F : forall i j, (i < pow2 m)%N -> (j < pow2 m)%N ->
    malpha X (pow2 m + i) j = sgb true (malpha (fun i j => X (pow2 m + i)%N j) i j) /\
    malpha X i (pow2 m + j) = sgb true (malpha (fun i j => X i (pow2 m + j)%N) i j) /\
    malpha X (pow2 m + i) (pow2 m + j) = sgb false (malpha (fun i j => X (pow2 m + i)%N (pow2 m + j)%N) i j)).
  { intros k l Hk Hl. destruct (par_lxor_high m k l) as (H1 & H2 & H3); auto. unfold malpha. rewrite H1, H2, H3.
    repeat split; destruct (par (N.lxor k l)); cbn; auto; rewrite neg_neg; auto. }
  spl i Hi; spl j Hj; bk; try destruct (par_lxor_high m i j) as (H1 & H2 & H3); try destruct (par_lxor_high m i j0) as (H1 & H2 & H3);
    try destruct (par_lxor_high m i0 j) as (H1 & H2 & H3); try destruct (par_lxor_high m i0 j0) as (H1 & H2 & H3); auto.
  - rewrite (E false _ (fun i j => X (pow2 m + i)%N (pow2 m + j)%N)) by (auto; intros k l Hk Hl; apply F; auto). reflexivity.
  - rewrite (E true _ (fun i j => X (pow2 m + i)%N j)) by (auto; intros k l Hk Hl; apply F; auto). rewrite H2.
    destruct (par (N.lxor i j0)); cbn; rewrite ?neg_neg; auto.
  - rewrite (E true _ (fun i j => X i (pow2 m + j)%N)) by (auto; intros k l Hk Hl; apply F; auto). rewrite H1.
    destruct (par (N.lxor i0 j)); cbn; rewrite ?neg_neg; auto.
  - rewrite (E false _ X) by (auto; intros k l Hk Hl; reflexivity). rewrite H3. reflexivity.
Qed.

(** Reversal is transposition followed by the flip. *)
Lemma up_frev n (x : fn) t : (t < pow2 n)%N -> up n (frev x) t = alpha (frev (up n x)) t.
Proof.
  intros Ht. unfold up, frev, alpha. rewrite popcount_add_pow2, sgb_sgb by auto. f_equal.
  change (S (popcount t)) with (1 + popcount t). rewrite (rbit_add 1). cbn [rbit Nat.odd Nat.even negb andb].
  unfold par. destruct (rbit (popcount t)), (Nat.odd (popcount t)); reflexivity.
Qed.
Lemma cl_rev m : forall x : fn, meq m (cl m (frev x)) (iflip m (mtr (cl m x))).
Proof.
  induction m as [|m IH]; intros x i j Hi Hj.
  - cbn in Hi, Hj. assert (i = 0%N) as -> by lia. assert (j = 0%N) as -> by lia. reflexivity.
  - set (n := 2 * m). set (x1 := up n x). set (x2 := up (S n) x). set (x3 := up n (up (S n) x)).
    assert (U1 : feq n (up n (frev x)) (alpha (frev x1))) by (intros t Ht; apply up_frev; auto).
    assert (U2 : feq n (up (S n) (frev x)) (alpha (frev x2))) by (intros t Ht; apply up_frev, low_lt; auto).
    assert (U3 : feq n (up n (up (S n) (frev x))) (fun t => rneg (frev x3 t))).
    { intros t Ht. unfold up at 1. rewrite up_frev by (apply high_lt; auto). unfold alpha. rewrite par_add_pow2 by auto.
      change (frev (up (S n) x) (pow2 n + t)) with (up n (frev (up (S n) x)) t). rewrite up_frev by auto. fold x3. unfold alpha.
      destruct (par t); cbn; rewrite ?neg_neg; auto. }
    assert (R : forall f : fn, meq m (iflip m (mtr (cl m f))) (cl m (frev f))) by (intros f; apply meq_sym, IH).
    assert (LA : forall f g : fn, meq m (iflip m (mtr (madd (cl m f) (cl m g)))) (madd (cl m (frev f)) (cl m (frev g)))).
    { intros f g k l Hk Hl. rewrite (iflip_ext m _ (madd (mtr (cl m f)) (mtr (cl m g)))) by (auto; intros a b _ _; reflexivity).
      rewrite iflip_add by auto. unfold madd. rewrite !R by auto. reflexivity. }
    assert (LS : forall f g : fn, meq m (iflip m (mtr (msub (cl m f) (cl m g)))) (msub (cl m (frev f)) (cl m (frev g)))).
    { intros f g k l Hk Hl. rewrite (iflip_ext m _ (msub (mtr (cl m f)) (mtr (cl m g)))) by (auto; intros a b _ _; reflexivity).
      rewrite iflip_sub by auto. unfold msub. rewrite !R by auto. reflexivity. }
    assert (E0 : forall Z W : mx, meq m Z (malpha (mtr W)) -> meq m (iflip m (malpha Z)) (iflip m (mtr W))).
    { intros Z W HZ. apply iflip_ext. intros k l Hk Hl. unfold malpha at 1. rewrite HZ by auto. apply sgb_invol. }
    assert (E1 : forall Z W : mx, meq m Z (mtr W) -> meq m (iflip m (malpha Z)) (malpha (iflip m (mtr W)))).
    { intros Z W HZ k l Hk Hl. rewrite iflip_malpha by auto. apply malpha_ext with m; auto. apply iflip_ext; auto. }
    cbn [cl iflip]. fold n x1 x2 x3.
    spl i Hi; spl j Hj; bk.
    + rewrite (E0 _ (msub (cl m x) (cl m x3))), LS by (auto; intros k l Hk Hl; unfold mtr, malpha; bk; unfold malpha; rewrite N.lxor_comm; auto).
      unfold madd, msub. rewrite (cl_ext m _ _ U3), cl_neg by auto. abel.
    + rewrite (E0 _ (madd (cl m x1) (cl m x2))), LA by (auto; intros k l Hk Hl; unfold mtr, malpha; bk; unfold malpha; rewrite N.lxor_comm; auto).
      unfold malpha at 1, madd. rewrite (cl_ext m _ _ U1), (cl_ext m _ _ U2), !cl_alpha by auto. unfold malpha. rewrite <- sgb_add. apply sgb_invol.
    + rewrite (E1 _ (msub (cl m x1) (cl m x2))) by (auto; intros k l Hk Hl; unfold mtr; bk; auto). unfold malpha. rewrite LS by auto.
      unfold msub. rewrite (cl_ext m _ _ U1), (cl_ext m _ _ U2), !cl_alpha by auto. unfold malpha. rewrite !sub_def, <- sgb_neg, <- sgb_add. auto.
    + rewrite (E1 _ (madd (cl m x) (cl m x3))) by (auto; intros k l Hk Hl; unfold mtr; bk; auto). unfold malpha. rewrite LA by auto.
      unfold msub, madd. f_equal. rewrite (cl_ext m _ _ U3), cl_neg by auto. abel.
Qed.
End FFT2.
