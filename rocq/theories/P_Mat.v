(** Matrices: entries, loops filling them, blocks. *)
From Verif Require Export M_CliFFT P_FFT2.
Local Open Scope nat_scope.

Lemma rm_lt h w i j : i < h -> j < w -> i * w + j < h * w.
Proof. nia. Qed.
Lemma rm_div w i j : j < w -> (i * w + j) / w = i.
Proof. intros H. rewrite Nat.add_comm, Nat.div_add by lia. rewrite Nat.div_small by auto. reflexivity. Qed.
Lemma rm_mod w i j : j < w -> (i * w + j) mod w = j.
Proof. intros H. rewrite Nat.add_comm, Nat.mod_add by lia. apply Nat.mod_small; auto. Qed.
Lemma rm_inj w i j k l : j < w -> l < w -> i * w + j = k * w + l -> i = k /\ j = l.
Proof.
  intros Hj Hl E. assert (i = k) by (rewrite <- (rm_div w i j Hj), <- (rm_div w k l Hl), E; reflexivity). subst. split; auto. lia.
Qed.
Lemma rm_split h w p : p < h * w -> p / w < h /\ p mod w < w /\ p = p / w * w + p mod w.
Proof.
  intros H. assert (w <> 0) by nia. repeat split.
  - apply Nat.div_lt_upper_bound; auto. lia.
  - apply Nat.mod_upper_bound; auto.
  - rewrite Nat.mul_comm. apply Nat.div_mod; auto.
Qed.

Lemma for_ij_ind {X} (P : nat -> nat -> X -> Prop) h w body st :
  P 0 0 st ->
  (forall i j st, i < h -> j < w -> P i j st -> exists st', body st i j = Ok st' /\ P i (S j) st') ->
  (forall i st, i < h -> P i w st -> P (S i) 0 st) ->
  exists st', for_ij h w body st = Ok st' /\ P h 0 st'.
Proof.
  intros H0 Hb Hn. unfold for_ij.
  assert (R : forall i st, i < h -> P i 0 st -> exists st', foldM (fun st j => body st i j) (seq 0 w) st = Ok st' /\ P i w st').
  { intros i s Hi Hs. assert (G : forall n j s, j + n = w -> P i j s -> exists st', foldM (fun st j => body st i j) (seq j n) s = Ok st' /\ P i w st').
    { induction n as [|n IH]; intros j s' Hj Hp; cbn.
      - exists s'. split; auto. replace w with j by lia. auto.
      - destruct (Hb i j s') as (s2 & -> & H2); auto; [lia|]. cbn. apply IH; auto. lia. }
    apply (G w 0); auto. }
  assert (G : forall n i s, i + n = h -> P i 0 s -> exists st', foldM (fun st i => foldM (fun st j => body st i j) (seq 0 w) st) (seq i n) s = Ok st' /\ P h 0 st').
  { induction n as [|n IH]; intros i s Hi Hp; cbn.
    - exists s. split; auto. replace h with i by lia. auto.
    - destruct (R i s) as (s2 & -> & H2); auto; [lia|]. cbn. apply IH; [lia|]. apply Hn; auto; lia. }
  apply (G h 0); auto.
Qed.

Section Mat.
Context {T : Type} {RO : RingOps T}.
Implicit Types (M : mat T) (X Y : nat -> nat -> T).

(** [M] is the h by w matrix with entries X. *)
Definition mis (h w : nat) M X : Prop :=
  m_nr M = h /\ m_nc M = w /\ m_ok M /\ forall i j, i < h -> j < w -> m_at M i j = X i j.

Lemma mis_eq h w M M' X : mis h w M X -> mis h w M' X -> M = M'.
Proof.
  intros (R & C & K & E) (R' & C' & K' & E'). destruct M as [r c d], M' as [r' c' d']. unfold m_ok, m_at in *. cbn in *. subst.
  f_equal. apply (nth_ext _ _ r0 r0); [lia|]. intros p Hp. rewrite K in Hp. apply rm_split in Hp as (H1 & H2 & ->).
  rewrite E, E' by auto. reflexivity.
Qed.
Lemma mis_ext h w M X Y : mis h w M X -> (forall i j, i < h -> j < w -> X i j = Y i j) -> mis h w M Y.
Proof. intros (R & C & K & E) H. repeat split; auto. intros i j Hi Hj. rewrite E; auto. Qed.
Lemma mis_self M : m_ok M -> mis (m_nr M) (m_nc M) M (m_at M).
Proof. intros H. repeat split; auto. Qed.
Lemma mis_at h w M X i j : mis h w M X -> i < h -> j < w -> m_at M i j = X i j.
Proof. intros (R & C & K & E). auto. Qed.
Lemma mis_get h w M X i j : mis h w M X -> i < h -> j < w -> m_get M i j = Ok (X i j).
Proof.
  intros (R & C & K & E) Hi Hj. unfold m_get. rewrite R, C. destruct (Nat.ltb_spec i h); [|lia]. destruct (Nat.ltb_spec j w); [|lia].
  cbn. rewrite E; auto.
Qed.

Lemma mis_build h w X : mis h w (m_build h w X) X.
Proof.
  unfold m_build. repeat split; cbn; auto.
  - unfold m_ok. cbn. rewrite map_length, seq_length. reflexivity.
  - intros i j Hi Hj. unfold m_at. cbn. pose proof (rm_lt h w i j Hi Hj) as Hp.
    rewrite (nth_indep _ r0 (X (0 / w) (0 mod w))) by (rewrite map_length, seq_length; auto).
    rewrite (map_nth (fun p => X (p / w) (p mod w))), seq_nth by auto. cbn [Nat.add]. rewrite rm_div, rm_mod by auto. reflexivity.
Qed.
Lemma mis_zeros h w : mis h w (m_zeros h w) (fun _ _ => r0).
Proof.
  unfold m_zeros. repeat split; cbn; auto.
  - unfold m_ok. cbn. apply repeat_length.
  - intros i j Hi Hj. unfold m_at. cbn. apply nth_repeat.
Qed.
Lemma mis_map h w M X f : mis h w M X -> mis h w (m_map f M) (fun i j => f (X i j)).
Proof.
  intros (R & C & K & E). unfold m_map. repeat split; cbn; auto.
  - unfold m_ok in *. cbn. rewrite map_length. auto.
  - intros i j Hi Hj. unfold m_at in *. cbn. rewrite <- E by auto. rewrite C in *.
    rewrite (nth_indep _ r0 (f r0)), map_nth; auto. rewrite map_length, K. rewrite R, C. apply rm_lt; auto.
Qed.
Lemma mis_t h w M X : mis h w M X -> mis w h (m_t M) (fun i j => X j i).
Proof.
  intros (R & C & K & E). unfold m_t. rewrite R, C. eapply mis_ext; [apply mis_build|]. intros i j Hi Hj. cbn. auto.
Qed.
Lemma fold_left_ext_in {X0 Y0 : Type} (f g : X0 -> Y0 -> X0) l : (forall a y, In y l -> f a y = g a y) -> forall a, fold_left f l a = fold_left g l a.
Proof. induction l as [|y l IH]; intros H a; cbn [fold_left]; auto. rewrite H by (left; reflexivity). apply IH. intros; apply H; right; auto. Qed.
Lemma mis_dotf h k w M X M' X' : mis h k M X -> mis k w M' X' ->
  exists P, m_dot M M' = Ok P /\ mis h w P (fun i j => fold_left (fun acc l => radd acc (rmul (X i l) (X' l j))) (seq 0 k) r0).
Proof.
  intros (R & C & K & E) (R' & C' & K' & E'). unfold m_dot. rewrite C, R', Nat.eqb_refl. eexists. split; [reflexivity|].
  rewrite R, C'. eapply mis_ext; [apply mis_build|]. intros i j Hi Hj. cbn beta. apply fold_left_ext_in. intros a l Hl. apply in_seq in Hl.
  rewrite E, E'; auto; lia.
Qed.
Lemma fold_left_suml {L : RingLaws T} {Y0 : Type} (f : Y0 -> T) l : forall a, fold_left (fun acc y => radd acc (f y)) l a = radd a (suml f l).
Proof. induction l as [|y l IH]; intros a; cbn [fold_left suml]; [abel|]. rewrite IH. abel. Qed.
Lemma mis_dot {L : RingLaws T} h k w M X M' X' : mis h k M X -> mis k w M' X' ->
  exists P, m_dot M M' = Ok P /\ mis h w P (fun i j => suml (fun l => rmul (X i l) (X' l j)) (seq 0 k)).
Proof.
  intros H H'. destruct (mis_dotf _ _ _ _ _ _ _ H H') as (P & E & HP). exists P. split; auto. eapply mis_ext; [exact HP|]. intros i j Hi Hj. cbn beta.
  rewrite (fold_left_suml (fun l => rmul (X i l) (X' l j))). abel.
Qed.
Lemma m_dot_bad M M' : m_nc M <> m_nr M' -> m_dot M M' = Panic.
Proof. intros H. unfold m_dot. apply Nat.eqb_neq in H. rewrite H. reflexivity. Qed.

(** Partly overwritten matrices, in the order of the loops. *)
Definition filled (h w i j : nat) M X Y : Prop :=
  mis h w M (fun k l => if (Nat.ltb k i || (Nat.eqb k i && Nat.ltb l j))%bool then X k l else Y k l).

Lemma filled_0 h w M X Y : mis h w M Y -> filled h w 0 0 M X Y.
Proof.
  intros H. eapply mis_ext; [exact H|]. intros i j Hi Hj. cbn beta. destruct (Nat.ltb_spec i 0); [lia|]. cbn.
  destruct (Nat.ltb_spec j 0); [lia|]. rewrite Bool.andb_false_r. reflexivity.
Qed.
Lemma filled_end h w M X Y : filled h w h 0 M X Y -> mis h w M X.
Proof.
  intros H. eapply mis_ext; [exact H|]. intros i j Hi Hj. cbn beta. destruct (Nat.ltb_spec i h); [|lia]. reflexivity.
Qed.
Lemma filled_row h w i M X Y : filled h w i w M X Y -> filled h w (S i) 0 M X Y.
Proof.
  intros H. eapply mis_ext; [exact H|]. intros k l Hk Hl. cbn beta.
  destruct (Nat.ltb_spec k i), (Nat.eqb_spec k i), (Nat.ltb_spec l w), (Nat.ltb_spec k (S i)), (Nat.ltb_spec l 0), (Nat.eqb_spec k (S i)); cbn; auto; lia.
Qed.
Lemma filled_get h w i j M X Y : filled h w i j M X Y -> i < h -> j < w -> m_get M i j = Ok (Y i j).
Proof.
  intros H Hi Hj. rewrite (mis_get _ _ _ _ _ _ H Hi Hj). rewrite Nat.ltb_irrefl, Nat.ltb_irrefl, Bool.andb_false_r. reflexivity.
Qed.
Lemma filled_set h w i j M X Y v : filled h w i j M X Y -> i < h -> j < w -> v = X i j ->
  exists M', m_set M i j v = Ok M' /\ filled h w i (S j) M' X Y.
Proof.
  intros (R & C & K & E) Hi Hj ->. unfold m_set. rewrite R, C. destruct (Nat.ltb_spec i h); [|lia]. destruct (Nat.ltb_spec j w); [|lia].
  cbn [andb]. eexists. split; [reflexivity|]. unfold m_ok in K. repeat split; auto.
  - unfold m_ok. cbn. rewrite length_upd, K, R, C. reflexivity.
  - intros k l Hk Hl. specialize (E k l Hk Hl). unfold m_at in *. cbn [m_data m_nr m_nc]. cbv beta in E. rewrite nth_upd, K, R, C.
    pose proof (rm_lt h w i j Hi Hj). destruct (Nat.ltb_spec (i * w + j) (h * w)); [|lia]. rewrite Bool.andb_true_r.
    destruct (Nat.eqb_spec (i * w + j) (k * w + l)) as [Q|Q].
    + apply rm_inj in Q as [-> ->]; auto. rewrite Nat.ltb_irrefl, Nat.eqb_refl. destruct (Nat.ltb_spec l (S l)); [|lia]. reflexivity.
    + rewrite C in E. rewrite E. destruct (Nat.ltb_spec k i); auto. destruct (Nat.eqb_spec k i); auto. subst. cbn [andb orb].
      destruct (Nat.ltb_spec l j), (Nat.ltb_spec l (S j)); auto; try lia.
Qed.
Lemma mis_set h w M X i j v : mis h w M X -> i < h -> j < w ->
  exists M', m_set M i j v = Ok M' /\ mis h w M' (fun k l => if (Nat.eqb k i && Nat.eqb l j)%bool then v else X k l).
Proof.
  intros (R & C & K & E) Hi Hj. unfold m_set. rewrite R, C. destruct (Nat.ltb_spec i h); [|lia]. destruct (Nat.ltb_spec j w); [|lia].
  cbn [andb]. eexists. split; [reflexivity|]. unfold m_ok in K. repeat split; auto.
  - unfold m_ok. cbn. rewrite length_upd, K, R, C. reflexivity.
  - intros k l Hk Hl. specialize (E k l Hk Hl). unfold m_at in *. cbn [m_data m_nr m_nc]. cbv beta in E. rewrite nth_upd, K, R, C.
    pose proof (rm_lt h w i j Hi Hj). destruct (Nat.ltb_spec (i * w + j) (h * w)); [|lia]. rewrite Bool.andb_true_r.
    destruct (Nat.eqb_spec (i * w + j) (k * w + l)) as [Q|Q].
    + apply rm_inj in Q as [-> ->]; auto. rewrite !Nat.eqb_refl. reflexivity.
    + rewrite C in E. rewrite E. destruct (Nat.eqb_spec k i), (Nat.eqb_spec l j); auto. subst. lia.
Qed.

(** Blocks. *)
Lemma mis_block h w M X r c h' w' : mis h w M X -> r + h' <= h -> c + w' <= w ->
  mis h' w' (m_block M r c h' w') (fun i j => X (r + i) (c + j)).
Proof.
  intros (R & C & K & E) Hr Hc. unfold m_block. eapply mis_ext; [apply mis_build|]. intros i j Hi Hj. cbn. apply E; lia.
Qed.
Lemma mis_split4 h w M X : mis (2 * h) (2 * w) M X ->
  exists a b c d, m_split4 M h w = Ok (a, b, c, d) /\ mis h w a X /\ mis h w b (fun i j => X i (w + j)) /\
    mis h w c (fun i j => X (h + i) j) /\ mis h w d (fun i j => X (h + i) (w + j)).
Proof.
  intros H. pose proof H as (R & C & K & E). unfold m_split4, m_split0. rewrite R, C.
  destruct (Nat.ltb_spec (2 * h) h); [lia|]. cbn [bind].
  assert (B1 : mis h (2 * w) (m_block M 0 0 h (2 * w)) X) by (apply (mis_block _ _ _ _ 0 0 h (2 * w) H); lia).
  assert (B2 : mis h (2 * w) (m_block M h 0 (2 * h - h) (2 * w)) (fun i j => X (h + i) j)).
  { replace (2 * h - h) with h by lia. apply (mis_block _ _ _ _ h 0 h (2 * w) H); lia. }
  unfold m_split1. destruct B1 as (R1 & C1 & _ & B1). destruct B2 as (R2 & C2 & _ & B2). rewrite C1, C2.
  destruct (Nat.ltb_spec (2 * w) w); [lia|]. cbn [bind].
  do 4 eexists. split; [reflexivity|]. rewrite R1, R2. replace (2 * w - w) with w by lia.
  repeat split; auto; try apply mis_build; intros i j Hi Hj.
  - unfold m_block at 1. rewrite (mis_at _ _ _ _ i j (mis_build _ _ _)) by auto. cbn [Nat.add]. apply B1; lia.
  - unfold m_block at 1. rewrite (mis_at _ _ _ _ i j (mis_build _ _ _)) by auto. cbn [Nat.add]. apply B1; lia.
  - unfold m_block at 1. rewrite (mis_at _ _ _ _ i j (mis_build _ _ _)) by auto. cbn [Nat.add]. apply B2; lia.
  - unfold m_block at 1. rewrite (mis_at _ _ _ _ i j (mis_build _ _ _)) by auto. cbn [Nat.add]. apply B2; lia.
Qed.
Lemma mis_join4 h w a b c d A B C D : mis h w a A -> mis h w b B -> mis h w c C -> mis h w d D ->
  mis (2 * h) (2 * w) (m_join4 a b c d) (fun i j =>
    if Nat.ltb i h then if Nat.ltb j w then A i j else B i (j - w)
    else if Nat.ltb j w then C (i - h) j else D (i - h) (j - w)).
Proof.
  intros (R1 & C1 & _ & E1) (R2 & C2 & _ & E2) (R3 & C3 & _ & E3) (R4 & C4 & _ & E4). unfold m_join4. rewrite R1, C1, R3, C2.
  replace (h + h) with (2 * h) by lia. replace (w + w) with (2 * w) by lia.
  eapply mis_ext; [apply mis_build|]. intros i j Hi Hj. cbn beta.
  destruct (Nat.ltb_spec i h), (Nat.ltb_spec j w); [apply E1|apply E2|apply E3|apply E4]; lia.
Qed.
End Mat.

(** Entries numbered by [N]. *)
Definition nn {T} (X : N -> N -> T) (i j : nat) : T := X (N.of_nat i) (N.of_nat j).
Definition mrep {T} {RO : RingOps T} (m : nat) (M : mat T) (X : N -> N -> T) : Prop := mis (2 ^ m) (2 ^ m) M (nn X).

Section Rep.
Context {T : Type} {RO : RingOps T}.
Lemma of_nat_lt m i : i < 2 ^ m -> (N.of_nat i < pow2 m)%N.
Proof. intros H. unfold pow2. rewrite <- pow2_nat in H. unfold pow2 in H. lia. Qed.
Lemma mrep_ext m (M : mat T) X Y : mrep m M X -> meq m X Y -> mrep m M Y.
Proof. intros H E. eapply mis_ext; [exact H|]. intros i j Hi Hj. apply E; apply of_nat_lt; auto. Qed.
Lemma mrep_eq m (M M' : mat T) X : mrep m M X -> mrep m M' X -> M = M'.
Proof. apply mis_eq. Qed.
Lemma mrep_fun m (M : mat T) X Y : mrep m M X -> mrep m M Y -> meq m X Y.
Proof.
  intros (R & C & K & E) (R' & C' & K' & E') i j Hi Hj. apply to_nat_lt_pow2 in Hi, Hj.
  specialize (E _ _ Hi Hj). specialize (E' _ _ Hi Hj). unfold nn in *. rewrite !N2Nat.id in *. congruence.
Qed.
(** The product with the additions in the order of the code. *)
Definition mmulf (m : nat) (X Y : N -> N -> T) : N -> N -> T := fun i j => fold_left (fun acc l => radd acc (rmul (X i l) (Y l j))) (idxs m) r0.
Lemma mrep_dotf m (M M' : mat T) X Y : mrep m M X -> mrep m M' Y -> exists P, m_dot M M' = Ok P /\ mrep m P (mmulf m X Y).
Proof.
  intros H H'. destruct (mis_dotf _ _ _ _ _ _ _ H H') as (P & E & HP). exists P. split; auto.
  eapply mis_ext; [exact HP|]. intros i j Hi Hj. unfold nn, mmulf, idxs. generalize (seq 0 (2 ^ m)), r0.
  intros l. induction l as [|y l IH]; intros a; cbn [fold_left map]; auto.
Qed.
Lemma mrep_dot {L : RingLaws T} m (M M' : mat T) X Y : mrep m M X -> mrep m M' Y -> exists P, m_dot M M' = Ok P /\ mrep m P (mmul m X Y).
Proof.
  intros H H'. destruct (mis_dot _ _ _ _ _ _ _ H H') as (P & E & HP). exists P. split; auto.
  eapply mis_ext; [exact HP|]. intros i j Hi Hj. unfold nn, mmul, sumI, idxs. rewrite suml_map, <- pow2_nat. reflexivity.
Qed.
Lemma mrep_blk m (a b c d : mat T) A B C D : mrep m a A -> mrep m b B -> mrep m c C -> mrep m d D ->
  mrep (S m) (m_join4 a b c d) (blk m A B C D).
Proof.
  intros Ha Hb Hc Hd. unfold mrep. change (2 ^ S m) with (2 * 2 ^ m). eapply mis_ext; [apply mis_join4; eauto|].
  intros i j Hi Hj. unfold nn, blk. rewrite <- (pow2_nat m) in *.
  repeat match goal with |- context [Nat.ltb ?x ?y] => destruct (Nat.ltb_spec x y) end;
  repeat match goal with |- context [N.ltb ?x ?y] => destruct (N.ltb_spec x y) end; try lia; f_equal; lia.
Qed.
End Rep.
