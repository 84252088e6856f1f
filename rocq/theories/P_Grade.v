(** The grade iterator of src/index_utils.rs yields every index of the given weight
    once, in decreasing order. *)
From Verif Require Export M_Algebra.
From Coq Require Import Sorting.Sorted.
Local Open Scope nat_scope.

(** Reference list: indices below 2^len with [w] bits, largest first. *)
Fixpoint glist (len w : nat) : list N :=
  match w with
  | O => [0%N]
  | S w' =>
    match len with
    | O => []
    | S len' => map (fun x => N.lor (pow2 len') x) (glist len' w') ++ glist len' (S w')
    end
  end.

Lemma glist_0 len : glist len 0 = [0%N].
Proof. destruct len; reflexivity. Qed.

Lemma glist_short len w : len < w -> glist len w = [].
Proof.
  revert w; induction len as [|len IH]; intros [|w] H; simpl; try lia; auto.
  rewrite !IH by lia. reflexivity.
Qed.

Lemma lor_pow2_add n x : (x < pow2 n)%N -> N.lor (pow2 n) x = (pow2 n + x)%N.
Proof.
  intros H. rewrite add_pow2_lxor by auto. apply N.bits_inj. intros k.
  rewrite N.lor_spec, N.lxor_spec, testbit_pow2.
  destruct (N.eqb_spec k (N.of_nat n)) as [->|]; simpl.
  - rewrite (testbit_high x n) by (auto; lia). reflexivity.
  - destruct (N.testbit x k); reflexivity.
Qed.

Lemma glist_spec len w x : In x (glist len w) <-> (x < pow2 len)%N /\ popcount x = w.
Proof.
  revert w x; induction len as [|len IH]; intros [|w] x.
  - simpl. change (pow2 0) with 1%N. split.
    + intros [<-|[]]. split; [lia|reflexivity].
    + intros [H1 H2]. left. lia.
  - simpl. change (pow2 0) with 1%N. split; [tauto|]. intros [H1 H2].
    assert (x = 0%N) by lia. subst. discriminate.
  - rewrite glist_0. simpl. split.
    + intros [<-|[]]. split; [apply pow2_pos|reflexivity].
    + intros [_ H]. left. symmetry. apply popcount_eq0; auto.
  - simpl. rewrite in_app_iff, in_map_iff, IH. rewrite pow2_S. split.
    + intros [(y & <- & Hy)|[H1 H2]].
      * apply IH in Hy. destruct Hy as [H1 H2]. rewrite lor_pow2_add by auto.
        rewrite popcount_add_pow2 by auto. split; lia.
      * split; [lia|auto].
    + intros [H1 H2]. destruct (N.lt_ge_cases x (pow2 len)) as [L|L]; [right; auto|left].
      exists (x - pow2 len)%N. assert (Hx : (x - pow2 len < pow2 len)%N) by lia. split.
      * rewrite lor_pow2_add by auto. lia.
      * apply IH. split; auto. replace x with (pow2 len + (x - pow2 len))%N in H2 by lia.
        rewrite popcount_add_pow2 in H2 by auto. lia.
Qed.

Lemma glist_sorted len w : StronglySorted (fun x y => (y < x)%N) (glist len w).
Proof.
  revert w; induction len as [|len IH]; intros [|w]; simpl; try (repeat constructor).
  assert (G : forall l1 l2, StronglySorted (fun x y => (y < x)%N) l1 ->
    StronglySorted (fun x y => (y < x)%N) l2 -> (forall x y, In x l1 -> In y l2 -> (y < x)%N) ->
    StronglySorted (fun x y => (y < x)%N) (l1 ++ l2)).
  { induction l1 as [|x l1 IH1]; simpl; intros l2 H1 H2 H; auto.
    inversion H1; subst. constructor.
    - apply IH1; auto.
    - rewrite Forall_app. split; auto. apply Forall_forall. intros; apply H; auto. }
  apply G; auto.
  - assert (Hb : forall x, In x (glist len w) -> (x < pow2 len)%N) by (intros; eapply glist_spec; eauto).
    specialize (IH w). induction IH as [|x l Hl IHl Hf]; simpl; constructor.
    + apply IHl. intros; apply Hb; simpl; auto.
    + rewrite Forall_forall in *. intros y Hy. apply in_map_iff in Hy. destruct Hy as (z & <- & Hz).
      rewrite !lor_pow2_add by (apply Hb; simpl; auto). specialize (Hf z Hz). lia.
  - intros x y Hx Hy. apply in_map_iff in Hx. destruct Hx as (z & <- & Hz).
    apply glist_spec in Hz, Hy. rewrite lor_pow2_add by apply Hz. lia.
Qed.

Lemma glist_NoDup len w : NoDup (glist len w).
Proof.
  pose proof (glist_sorted len w) as H. induction H as [|x l Hl IH Hf]; constructor; auto.
  intros Hi. rewrite Forall_forall in Hf. specialize (Hf x Hi). lia.
Qed.

Lemma glist_length len w : length (glist len w) <= 2 ^ len.
Proof.
  rewrite <- (length_idxs len). apply NoDup_incl_length; [apply glist_NoDup|].
  intros x Hx. apply in_idxs. eapply glist_spec; eauto.
Qed.

Definition ones_low (w : nat) : N := N.ones (N.of_nat w).
Lemma ones_low_spec w len : w <= len -> (ones_low w < pow2 len)%N /\ popcount (ones_low w) = w.
Proof.
  intros H. assert (Hw : (ones_low w < pow2 w)%N).
  { unfold ones_low. rewrite N.ones_equiv. unfold pow2. pose proof (pow2_pos w). unfold pow2 in *. lia. }
  split.
  - eapply N.lt_le_trans; [exact Hw|]. apply pow2_le; auto.
  - clear H. rewrite (popcount_bitsum w) by auto.
    assert (G : forall n, n <= w -> bitsum n (ones_low w) = n).
    { induction n as [|n IH]; intros Hn; simpl; auto. rewrite IH by lia. unfold ones_low.
      rewrite N.ones_spec_low by lia. reflexivity. }
    apply G; auto.
Qed.

Section Iter.
Context {m : Mode}.

(** The sub-iterators form a chain of decreasing weights. *)
Inductive gshape : nat -> option giter -> Prop :=
| gshape_none w : gshape w None
| gshape_some w pos sub : gshape w sub -> gshape (S w) (Some (GIter w pos sub)).

(** [yields w pos sub l]: the iterator with these fields is going to yield exactly l. *)
Inductive yields : nat -> Z -> option giter -> list N -> Prop :=
| y_done w pos sub : (pos + 1 < Z.of_nat w)%Z -> gshape w sub -> yields w pos sub []
| y_zero pos : (0 <= pos + 1)%Z -> yields 0 pos None [0%N]
| y_none w len : w <= len -> yields (S w) (Z.of_nat len) None (glist (S len) (S w))
| y_some w len pos sub l : w <= len -> (pos <= Z.of_nat len - 1)%Z -> yields w pos sub l ->
    yields (S w) (Z.of_nat len) (Some (GIter w pos sub))
           (map (fun x => N.lor (pow2 len) x) l ++ glist len (S w)).

Lemma yields_shape w pos sub l : yields w pos sub l -> gshape w sub.
Proof. induction 1; auto; constructor; auto. Qed.

Lemma refresh_shape w it len : gshape w (Some it) -> gshape w (Some (gi_refresh it len)).
Proof.
  revert it len; induction w as [|w IH]; intros it len H; inversion H; subst.
  simpl. constructor. destruct sub as [s|]; auto.
Qed.

Lemma yields_fresh w len : yields w (Z.of_nat len - 1) None (glist len w).
Proof.
  destruct w as [|w].
  - rewrite glist_0. constructor. lia.
  - destruct (Nat.lt_ge_cases len (S w)) as [H|H].
    + rewrite glist_short by auto. constructor; [lia|constructor].
    + destruct len as [|len]; [lia|].
      replace (Z.of_nat (S len) - 1)%Z with (Z.of_nat len) by lia. constructor. lia.
Qed.

Lemma refresh_yields w : forall pos sub len, gshape w sub ->
  exists sub', gi_refresh (GIter w pos sub) (Z.of_nat len) = GIter w (Z.of_nat len - 1) sub'
    /\ yields w (Z.of_nat len - 1) sub' (glist len w).
Proof.
  induction w as [|w IH]; intros pos sub len H; inversion H; subst.
  - exists None. split; [reflexivity|]. apply yields_fresh.
  - exists None. split; [reflexivity|]. apply yields_fresh.
  - destruct (Nat.lt_ge_cases len (S w)) as [L|L].
    + eexists. split; [reflexivity|]. rewrite glist_short by auto. constructor; [lia|].
      apply (refresh_shape (S w) (GIter w pos0 sub0)). auto.
    + destruct len as [|len]; [lia|].
      destruct (IH pos0 sub0 len ltac:(assumption)) as (sub' & E & HY).
      cbn [gi_refresh] in *. replace (Z.of_nat (S len) - 1)%Z with (Z.of_nat len) by lia.
      eexists. split; [reflexivity|].
      rewrite E. cbn [glist]. constructor; auto; lia.
Qed.

Lemma next_ok fuel : forall w pos sub l, yields w pos sub l -> (pos < 64)%Z ->
  w + Z.to_nat (pos + 1) < fuel ->
  exists pos' sub',
    gi_next_fuel fuel (GIter w pos sub) = Ok (hd_error l, GIter w pos' sub')
    /\ yields w pos' sub' (tl l) /\ (pos' <= pos)%Z.
Proof.
  induction fuel as [|fuel IH]; intros w pos sub l HY Hp Hf; [lia|].
  inversion HY; subst; cbn [gi_next_fuel].
  - destruct (Z.ltb_spec (pos + 1) (Z.of_nat w)); [|lia].
    exists pos, sub. split; [reflexivity|]. split; [exact HY|lia].
  - destruct (Z.ltb_spec (pos + 1) (Z.of_nat 0)); [lia|]. cbn [Nat.eqb].
    exists (-2)%Z, None. split; [reflexivity|]. split; [|lia]. constructor; [lia|constructor].
  - destruct (Z.ltb_spec (Z.of_nat len + 1) (Z.of_nat (S w0))); [lia|]. cbn [Nat.eqb].
    rewrite Nat2Z.id. unfold grade_iter. replace (S w0 - 1) with w0 by lia.
    pose proof (yields_fresh w0 len) as HF.
    destruct (IH _ _ _ _ HF) as (p' & s' & E & HY' & Hle); [lia|lia|]. rewrite E. cbn [bind].
    destruct (glist len w0) as [|x xs] eqn:Eg.
    + exfalso. assert (Hin : In (ones_low w0) (glist len w0)).
      { apply glist_spec. apply ones_low_spec; auto. }
      rewrite Eg in Hin. exact Hin.
    + cbn [hd_error tl] in *. rewrite shl_1 by lia. cbn [bind].
      eexists. eexists. split.
      * cbn [glist]. rewrite Eg. cbn [map app hd_error]. reflexivity.
      * split; [|lia]. cbn [glist]. rewrite Eg. cbn [map app tl]. constructor; auto; lia.
  - destruct (Z.ltb_spec (Z.of_nat len + 1) (Z.of_nat (S w0))); [lia|]. cbn [Nat.eqb].
    rewrite Nat2Z.id.
    destruct (IH _ _ _ _ H1) as (p' & s' & E & HY' & Hle); [lia|lia|]. rewrite E. cbn [bind].
    destruct l0 as [|x xs].
    + cbn [hd_error tl map app] in *. destruct len as [|len].
      * assert (w0 = 0) by lia. subst w0.
        destruct fuel as [|fuel]; [lia|]. cbn [gi_next_fuel].
        destruct (Z.ltb_spec (Z.of_nat 0 - 1 + 1) (Z.of_nat 1)); [|lia].
        eexists. eexists. split; [reflexivity|]. split; [|lia]. constructor; [lia|].
        apply (refresh_shape 1 (GIter 0 p' s')). constructor. eapply yields_shape; eauto.
      * replace (Z.of_nat (S len) - 1)%Z with (Z.of_nat len) by lia.
        destruct (refresh_yields w0 p' s' len (yields_shape _ _ _ _ HY')) as (s2 & E2 & HY2).
        rewrite E2. destruct (Nat.lt_ge_cases len w0) as [L|L].
        -- rewrite (glist_short (S len) (S w0)) by lia. destruct fuel as [|fuel]; [lia|].
           cbn [gi_next_fuel].
           destruct (Z.ltb_spec (Z.of_nat len + 1) (Z.of_nat (S w0))); [|lia].
           eexists. eexists. split; [reflexivity|]. split; [|lia]. constructor; [lia|].
           constructor. eapply yields_shape; eauto.
        -- assert (HY3 : yields (S w0) (Z.of_nat len) (Some (GIter w0 (Z.of_nat len - 1) s2))
                            (glist (S len) (S w0))).
           { cbn [glist]. constructor; auto; lia. }
           destruct (IH _ _ _ _ HY3) as (p4 & s4 & E4 & HY4 & Hle4); [lia|lia|].
           exists p4, s4. split; [exact E4|]. split; [exact HY4|lia].
    + cbn [hd_error tl map app] in *. rewrite shl_1 by lia. cbn [bind].
      eexists. eexists. split; [reflexivity|]. split; [|lia]. constructor; auto. lia.
Qed.

Lemma gi_next_ok w pos sub l : yields w pos sub l -> (pos < 64)%Z ->
  exists pos' sub',
    gi_next (GIter w pos sub) = Ok (hd_error l, GIter w pos' sub')
    /\ yields w pos' sub' (tl l) /\ (pos' <= pos)%Z.
Proof. intros H Hp. apply next_ok; auto. lia. Qed.

Lemma gi_take_ok n : forall w pos sub l, yields w pos sub l -> (pos < 64)%Z ->
  exists pos' sub', gi_take n (GIter w pos sub) = Ok (firstn n l, GIter w pos' sub')
    /\ yields w pos' sub' (skipn n l) /\ (pos' <= pos)%Z.
Proof.
  induction n as [|n IH]; intros w pos sub l HY Hp; simpl.
  - exists pos, sub. split; [reflexivity|]. split; [auto|lia].
  - destruct (gi_next_ok w pos sub l HY Hp) as (p1 & s1 & E & HY1 & H1).
    unfold gi_next in E. rewrite E. simpl.
    destruct l as [|x l]; simpl in *.
    + exists p1, s1. auto.
    + destruct (IH w p1 s1 l HY1) as (p2 & s2 & E2 & HY2 & H2); [lia|].
      rewrite E2. simpl. exists p2, s2. split; [reflexivity|]. split; [auto|lia].
Qed.

Lemma grade_iter_list_eq len w : len <= 64 -> grade_iter_list len w = Ok (glist len w).
Proof.
  intros Hl. unfold grade_iter_list, grade_iter.
  destruct (gi_take_ok (S (2 ^ len)) w _ None _ (yields_fresh w len)) as (p & s & E & _ & _); [lia|].
  rewrite E. cbn [bind]. rewrite firstn_all2; [reflexivity|].
  pose proof (glist_length len w). lia.
Qed.

Lemma grade_iter_list_ok len w : len < 64 -> exists l, grade_iter_list len w = Ok l
  /\ (forall x, In x l <-> (x < pow2 len)%N /\ popcount x = w) /\ NoDup l.
Proof.
  intros H. exists (glist len w). split; [apply grade_iter_list_eq; lia|].
  split; [apply glist_spec|apply glist_NoDup].
Qed.
End Iter.
