(** Laws shared by the three storages, and enumeration sums. *)
From Verif Require Export M_Storage P_Grade.
Local Open Scope nat_scope.

(** [enum_of d f p l]: the list l contains exactly once each index below 2^d that
    satisfies p and has a non-zero coefficient, possibly some zero ones, always
    paired with its coefficient. *)
Definition enum_of {T} {RO : RingOps T} (d : nat) (f : N -> T) (p : N -> bool) (l : list (N * T)) : Prop :=
  NoDup (map fst l) /\
  (forall i c, In (i, c) l -> (i < pow2 d)%N /\ p i = true /\ c = f i) /\
  (forall i, (i < pow2 d)%N -> p i = true -> f i <> r0 -> In (i, f i) l).

Class StorageLaws (T S : Type) {RO : RingOps T} {St : Storage T S} := {
  st_dim_ok : nat -> Prop;              (* dimensions the storage supports *)
  st_wf : nat -> S -> Prop;             (* a valid storage of dimension d *)
  st_coef : S -> N -> T;                (* the coefficient function it denotes *)
  st_wf_dim : forall d s, st_wf d s -> st_dim_ok d;
  st_dim_64 : forall d, st_dim_ok d -> d < 64;
  st_new_ok : forall d, st_dim_ok d ->
    exists s, st_new d = Ok s /\ st_wf d s /\ forall i, st_coef s i = r0;
  st_get_ok : forall d s i, st_wf d s -> (i < pow2 d)%N -> st_get s i = Ok (st_coef s i);
  st_coef_out : forall d s i, st_wf d s -> (pow2 d <= i)%N -> st_coef s i = r0;
  st_set_ok : forall d s i v, st_wf d s -> st_wf d (st_set s i v) /\
    forall j, st_coef (st_set s i v) j = if ((i =? j) && (i <? pow2 d))%N%bool then v else st_coef s j;
  st_enum_ok : forall d s, st_wf d s -> enum_of d (st_coef s) (fun _ => true) (st_enum s);
  st_enum_mut_ok : forall d s f, st_wf d s -> (forall i, f i r0 = r0) ->
    st_wf d (st_enum_mut f s) /\
    forall i, (i < pow2 d)%N -> st_coef (st_enum_mut f s) i = f i (st_coef s i);
  st_grade_ok : forall d s k, st_wf d s ->
    exists l, st_grade s k = Ok l /\ enum_of d (st_coef s) (fun i => Nat.eqb (popcount i) k) l;
  st_add_ok : forall d s t, st_wf d s -> st_wf d t ->
    exists r, st_add s t = Ok r /\ st_wf d r /\ forall i, st_coef r i = radd (st_coef s i) (st_coef t i);
  st_sub_ok : forall d s t, st_wf d s -> st_wf d t ->
    exists r, st_sub s t = Ok r /\ st_wf d r /\ forall i, st_coef r i = rsub (st_coef s i) (st_coef t i);
  st_eqb_ok : forall d s t, st_wf d s -> st_wf d t ->
    (st_eqb s t = true <-> forall i, reqb (st_coef s i) (st_coef t i) = true)
}.

(** ** Sums over an enumeration *)
Section Enum.
Context {T : Type} {RO : RingOps T} {L : RingLaws T}.

Lemma enum_sum d f p l (g : N -> T -> T) :
  enum_of d f p l -> (forall i, g i r0 = r0) ->
  suml (fun ic => g (fst ic) (snd ic)) l = sumI d (fun i => if p i then g i (f i) else r0).
Proof.
  intros (HN & Hin & Hall) Hg. unfold sumI.
  transitivity (suml (fun i => g i (f i)) (map fst l)).
  { rewrite suml_map. apply suml_ext. intros [i c] Hi. simpl. f_equal. apply (Hin i c Hi). }
  transitivity (suml (fun i => if p i then g i (f i) else r0) (map fst l)).
  { apply suml_ext. intros i Hi. apply in_map_iff in Hi. destruct Hi as ([j c] & <- & Hi).
    simpl. destruct (Hin j c Hi) as (_ & -> & _). reflexivity. }
  set (h := fun i => if p i then g i (f i) else r0).
  rewrite (suml_perm h (idxs d)
     (map fst l ++ filter (fun i => negb (existsb (N.eqb i) (map fst l))) (idxs d))%list).
  - rewrite suml_app. rewrite (suml_0 h (filter _ _)); [symmetry; apply add_0_r|].
    intros i Hi. apply filter_In in Hi. destruct Hi as [Hi1 Hi2].
    unfold h. destruct (p i) eqn:Ep; [|reflexivity].
    destruct (is0_dec (f i)) as [->|Hnz]; [apply Hg|].
    apply negb_true_iff in Hi2. exfalso.
    assert (HI : In i (map fst l)).
    { apply in_map_iff. exists (i, f i). split; auto. apply Hall; auto. apply in_idxs; auto. }
    assert (existsb (N.eqb i) (map fst l) = true); [|congruence].
    apply existsb_exists. exists i. split; auto. apply N.eqb_refl.
  - apply NoDup_Permutation.
    + apply NoDup_idxs.
    + assert (G : forall A (u v : list A), NoDup u -> NoDup v -> (forall x, In x u -> ~ In x v) -> NoDup (u ++ v)%list).
      { intros X u v Hu Hv Hd. induction u as [|x xs IH]; simpl; auto.
        inversion Hu; subst. constructor.
        - rewrite in_app_iff. intros [|]; [contradiction|]. apply (Hd x); simpl; auto.
        - apply IH; auto. intros y Hy. apply Hd. simpl; auto. }
      apply G; auto.
      * apply NoDup_filter. apply NoDup_idxs.
      * intros i Hi Hf. apply filter_In in Hf. destruct Hf as [_ Hf].
        apply negb_true_iff in Hf.
        assert (existsb (N.eqb i) (map fst l) = true); [|congruence].
        apply existsb_exists. exists i. split; auto. apply N.eqb_refl.
    + intros i. rewrite in_app_iff, filter_In, in_idxs. split.
      * intros Hi. destruct (existsb (N.eqb i) (map fst l)) eqn:E.
        -- left. apply existsb_exists in E. destruct E as (j & Hj & Hij). apply N.eqb_eq in Hij. subst; auto.
        -- right. auto.
      * intros [Hi|[Hi _]]; auto. apply in_map_iff in Hi. destruct Hi as ([j c] & <- & Hi).
        apply (Hin j c Hi).
Qed.

Lemma enum_sum_all d f l (g : N -> T -> T) :
  enum_of d f (fun _ => true) l -> (forall i, g i r0 = r0) ->
  suml (fun ic => g (fst ic) (snd ic)) l = sumI d (fun i => g i (f i)).
Proof. intros H Hg. rewrite (enum_sum d f _ l g H Hg). reflexivity. Qed.

End Enum.

(** ** Dense *)
Section Dense.
Context {T : Type} {RO : RingOps T} {W : NumLaws T} {m : Mode}.

Lemma length_enumerate {X} (l : list X) : length (enumerate l) = length l.
Proof. unfold enumerate. rewrite combine_length, map_length, seq_length. lia. Qed.

Lemma nth_enumerate {X} (l : list X) i d : i < length l ->
  nth i (enumerate l) (N0, d) = (N.of_nat i, nth i l d).
Proof.
  intros H. unfold enumerate. rewrite combine_nth by (rewrite map_length, seq_length; reflexivity).
  f_equal. rewrite (nth_map_lt _ _ _ 0) by (rewrite seq_length; auto). rewrite nth_seq0; auto.
Qed.

Lemma map_fst_enumerate {X} (l : list X) : map fst (enumerate l) = map N.of_nat (seq 0 (length l)).
Proof.
  unfold enumerate. assert (G : forall (u : list N) (v : list X), length u = length v -> map fst (combine u v) = u).
  { induction u; intros [|y v]; simpl; intros; try lia; auto. f_equal. apply IHu. lia. }
  apply G. rewrite map_length, seq_length. reflexivity.
Qed.

Lemma in_enumerate {X} (l : list X) i c d :
  In (i, c) (enumerate l) <-> (N.to_nat i < length l /\ c = nth (N.to_nat i) l d).
Proof.
  split.
  - intros H. apply (In_nth _ _ (N0, d)) in H. destruct H as (n & Hn & H).
    rewrite length_enumerate in Hn. rewrite nth_enumerate in H by auto. inversion H; subst.
    rewrite Nat2N.id. auto.
  - intros [H ->]. replace (i, nth (N.to_nat i) l d) with (nth (N.to_nat i) (enumerate l) (N0, d)).
    + apply nth_In. rewrite length_enumerate. auto.
    + rewrite nth_enumerate by auto. rewrite N2Nat.id. reflexivity.
Qed.

Lemma NoDup_map_filter {X Y} (g : X -> Y) (p : X -> bool) l : NoDup (map g l) -> NoDup (map g (filter p l)).
Proof.
  induction l as [|x xs IH]; simpl; intros H; auto. inversion H; subst.
  destruct (p x); simpl; auto. constructor; auto.
  intros Hi. apply in_map_iff in Hi. destruct Hi as (y & Hy & Hi). apply filter_In in Hi.
  apply H2. apply in_map_iff. exists y. tauto.
Qed.

Lemma NoDup_enumerate {X} (l : list X) : NoDup (map fst (enumerate l)).
Proof.
  rewrite map_fst_enumerate. apply FinFun.Injective_map_NoDup; [|apply seq_NoDup].
  intros x y H. lia.
Qed.

Definition arr_wf (d : nat) (s : arr T) : Prop :=
  d < 64 /\ arr_dim s = d /\ length (arr_data s) = 2 ^ d.
Definition arr_coef (s : arr T) (i : N) : T := nth (N.to_nat i) (arr_data s) r0.

Lemma to_nat_lt_pow2 i d : N.to_nat i < 2 ^ d <-> (i < pow2 d)%N.
Proof. rewrite <- of_nat_pow2. lia. Qed.

Lemma list_eqb_spec (l1 l2 : list T) : length l1 = length l2 ->
  (list_eqb l1 l2 = true <-> forall n, reqb (nth n l1 r0) (nth n l2 r0) = true).
Proof.
  revert l2; induction l1 as [|x xs IH]; intros [|y ys] E; simpl in E; try discriminate; cbn [list_eqb].
  - split; auto. intros _ [|n]; apply n_reqb_0.
  - rewrite andb_true_iff, IH by lia. split.
    + intros [H1 H2] [|n]; cbn [nth]; auto.
    + intros Hn. split; [apply (Hn 0)|]. intros n. apply (Hn (S n)).
Qed.

Lemma arr_zip_ok f d s t : f (r0 : T) r0 = r0 -> arr_wf d s -> arr_wf d t ->
  exists r, arr_zip f s t = Ok r /\ arr_wf d r /\ forall i, arr_coef r i = f (arr_coef s i) (arr_coef t i).
Proof.
  intros Hf (Hd & Hs1 & Hs2) (_ & Ht1 & Ht2). unfold arr_zip. rewrite Hs2, Ht2, Nat.eqb_refl.
  eexists. split; [reflexivity|]. split.
  - repeat split; simpl; auto. rewrite length_map2, Hs2, Ht2. lia.
  - intros i. unfold arr_coef. simpl. destruct (Nat.lt_ge_cases (N.to_nat i) (2 ^ d)) as [H|H].
    + apply nth_map2; lia.
    + rewrite !nth_overflow; auto; rewrite ?length_map2; lia.
Qed.

#[global] Program Instance ArrLaws : StorageLaws T (arr T) := {|
  st_dim_ok := fun d => d < 64;
  st_wf := arr_wf;
  st_coef := arr_coef |}.
Next Obligation. apply H. Qed.
Next Obligation.
  unfold arr_new. rewrite shl_1 by auto. simpl. eexists. split; [reflexivity|]. split.
  - repeat split; auto. simpl. rewrite repeat_length. apply pow2_nat.
  - intros i. unfold arr_coef. simpl. apply nth_repeat.
Qed.
Next Obligation.
  destruct H as (_ & _ & Hl). unfold arr_get. rewrite Hl, of_nat_pow2.
  destruct (N.ltb_spec (pow2 d) i); [lia|]. apply nthr_nth. rewrite Hl. apply to_nat_lt_pow2; auto.
Qed.
Next Obligation.
  destruct H as (_ & _ & Hl). unfold arr_coef. apply nth_overflow. rewrite Hl.
  pose proof (to_nat_lt_pow2 i d). lia.
Qed.
Next Obligation.
  destruct H as (Hd & He & Hl). unfold arr_set. rewrite Hl, of_nat_pow2.
  destruct (N.ltb_spec i (pow2 d)) as [Hi|Hi]; simpl.
  - split; [repeat split; simpl; auto; rewrite length_upd; auto|].
    intros j. unfold arr_coef. simpl. rewrite nth_upd, Hl.
    replace (Nat.ltb (N.to_nat i) (2 ^ d)) with true
      by (symmetry; apply Nat.ltb_lt; apply to_nat_lt_pow2; auto).
    destruct (N.eqb_spec i j) as [->|Hne].
    + rewrite Nat.eqb_refl. reflexivity.
    + destruct (Nat.eqb_spec (N.to_nat i) (N.to_nat j)); [lia|reflexivity].
  - split; [repeat split; auto|]. intros j. rewrite andb_false_r. reflexivity.
Qed.
Next Obligation.
  destruct H as (Hd & He & Hl). unfold arr_enum. split; [|split].
  - apply NoDup_map_filter. apply NoDup_enumerate.
  - intros i c Hi. apply filter_In in Hi. destruct Hi as [Hi _].
    apply (in_enumerate _ _ _ r0) in Hi. destruct Hi as [Hi ->]. repeat split; auto.
    apply to_nat_lt_pow2. lia.
  - intros i Hi _ Hnz. apply filter_In. split.
    + apply (in_enumerate _ _ _ r0). split; auto. rewrite Hl. apply to_nat_lt_pow2; auto.
    + simpl. apply negb_true_iff. apply is0_false. auto.
Qed.
Next Obligation.
  destruct H as (Hd & He & Hl). unfold arr_enum_mut. split.
  - repeat split; simpl; auto. rewrite map_length, length_enumerate; auto.
  - intros i Hi. unfold arr_coef. simpl.
    assert (Hn : N.to_nat i < length (arr_data s)) by (rewrite Hl; apply to_nat_lt_pow2; auto).
    rewrite (nth_map_lt _ _ _ (N0, r0)) by (rewrite length_enumerate; auto).
    rewrite nth_enumerate by auto. simpl. rewrite N2Nat.id.
    destruct (ris0 (nth (N.to_nat i) (arr_data s) r0)) eqn:E; simpl; auto.
    apply n_is0_spec in E. rewrite E. symmetry. apply H0.
Qed.
Next Obligation.
  destruct H as (Hd & He & Hl). unfold arr_grade. rewrite He.
  destruct (grade_iter_list_ok d k Hd) as (l & El & Hp & HN). rewrite El. simpl.
  rewrite (mapM_Ok _ (fun idx => (idx, nth (N.to_nat idx) (arr_data s) r0))).
  - eexists. split; [reflexivity|]. split; [|split].
    + rewrite map_map. simpl. rewrite map_id. auto.
    + intros i c Hi. apply in_map_iff in Hi. destruct Hi as (j & E & Hj). inversion E; subst.
      apply Hp in Hj. destruct Hj as [Hj1 Hj2]. repeat split; auto. apply Nat.eqb_eq; auto.
    + intros i Hi Hk _. apply in_map_iff. exists i. split; [reflexivity|].
      apply Hp. split; auto. apply Nat.eqb_eq; auto.
  - intros i Hi. apply Hp in Hi. destruct Hi as [Hi _].
    rewrite (nthr_nth _ _ r0); [reflexivity|]. rewrite Hl. apply to_nat_lt_pow2; auto.
Qed.
Next Obligation. apply arr_zip_ok; auto. apply n_add_0_l. Qed.
Next Obligation. apply arr_zip_ok; auto. apply sub_0_r. Qed.
Next Obligation.
  destruct H as (Hd & He & Hl), H0 as (_ & He' & Hl'). unfold arr_eqb. rewrite list_eqb_spec by lia. unfold arr_coef. split.
  - intros H i. apply H.
  - intros H n. specialize (H (N.of_nat n)). rewrite Nat2N.id in H. exact H.
Qed.
End Dense.

(** ** Sparse *)
Section Sparse.
Context {T : Type} {RO : RingOps T} {W : NumLaws T} {m : Mode} {H : HashOrder}.

Definition sps_wf (d : nat) (s : sps T) : Prop :=
  d < 64 /\ sps_dim s = d /\ sps_size s = pow2 d /\ NoDup (map fst (sps_map s)) /\
  forall i c, In (i, c) (sps_map s) -> (i < pow2 d)%N.
Definition sps_coef (s : sps T) (i : N) : T :=
  match hm_get (sps_map s) i with Some v => v | None => r0 end.

Lemma hm_get_in (l : list (N * T)) k v : NoDup (map fst l) -> (hm_get l k = Some v <-> In (k, v) l).
Proof.
  induction l as [|[i c] l IH]; simpl; intros HN; [split; [discriminate|tauto]|].
  inversion HN; subst. destruct (N.eqb_spec i k) as [->|Hne].
  - split; [intros E; inversion E; auto|]. intros [E|E]; [inversion E; auto|].
    exfalso. apply H2. apply in_map_iff. exists (k, v). auto.
  - rewrite IH by auto. split; auto. intros [E|E]; auto. inversion E; contradiction.
Qed.

Lemma hm_get_none (l : list (N * T)) k : hm_get l k = None <-> ~ In k (map fst l).
Proof.
  induction l as [|[i c] l IH]; simpl; [tauto|].
  destruct (N.eqb_spec i k) as [->|Hne]; [split; [discriminate|tauto]|].
  rewrite IH. tauto.
Qed.

Lemma hm_get_remove (l : list (N * T)) k j :
  hm_get (hm_remove l k) j = if (k =? j)%N then None else hm_get l j.
Proof.
  induction l as [|[i c] l IH]; simpl; [destruct (k =? j)%N; reflexivity|].
  unfold hm_remove in *. simpl. destruct (N.eqb_spec i k) as [->|Hne]; simpl.
  - rewrite IH. destruct (k =? j)%N; reflexivity.
  - rewrite IH. destruct (N.eqb_spec i j) as [->|]; [|reflexivity].
    destruct (N.eqb_spec k j); [subst; contradiction|reflexivity].
Qed.

Lemma NoDup_remove_hm (l : list (N * T)) k : NoDup (map fst l) -> NoDup (map fst (hm_remove l k)).
Proof. apply NoDup_map_filter. Qed.

Lemma in_hm_remove (l : list (N * T)) k i c : In (i, c) (hm_remove l k) <-> In (i, c) l /\ i <> k.
Proof.
  unfold hm_remove. rewrite filter_In. simpl. rewrite negb_true_iff, N.eqb_neq. tauto.
Qed.

Lemma sps_enum_perm (s : sps T) : Permutation (sps_map s) (sps_enum s).
Proof. apply hm_order_perm. Qed.

Lemma sps_enum_of d s : sps_wf d s -> enum_of d (sps_coef s) (fun _ => true) (sps_enum s).
Proof.
  intros (Hd & He & Hsz & HN & Hr). pose proof (sps_enum_perm s) as HP. split; [|split].
  - eapply Permutation_NoDup; [|exact HN]. apply Permutation_map. exact HP.
  - intros i c Hi. apply (Permutation_in _ (Permutation_sym HP)) in Hi. repeat split.
    + eapply Hr; eauto.
    + unfold sps_coef. apply hm_get_in in Hi; auto. rewrite Hi. reflexivity.
  - intros i Hi _ Hnz. apply (Permutation_in _ HP). unfold sps_coef in *.
    destruct (hm_get (sps_map s) i) eqn:E; [|contradiction]. apply hm_get_in in E; auto.
Qed.

Lemma sps_set_ok' d s i v : sps_wf d s -> sps_wf d (sps_set s i v) /\
  forall j, sps_coef (sps_set s i v) j = if ((i =? j) && (i <? pow2 d))%N%bool then v else sps_coef s j.
Proof.
  intros (Hd & He & Hsz & HN & Hr). unfold sps_set. rewrite Hsz.
  destruct (N.ltb_spec i (pow2 d)) as [Hi|Hi].
  2:{ split; [repeat split; auto|]. intros j. rewrite andb_false_r. reflexivity. }
  destruct (ris0 v) eqn:Ev.
  - apply n_is0_spec in Ev. subst v. split.
    + repeat split; simpl; auto; [apply NoDup_remove_hm; auto|].
      intros j c Hj. apply in_hm_remove in Hj. eapply Hr; apply Hj.
    + intros j. unfold sps_coef. simpl. rewrite hm_get_remove, andb_true_r.
      destruct (i =? j)%N; reflexivity.
  - split.
    + repeat split; simpl; auto.
      * constructor; [|apply NoDup_remove_hm; auto].
        intros Hx. apply in_map_iff in Hx. destruct Hx as ([a b] & E & Hx). simpl in E. subst.
        apply in_hm_remove in Hx. tauto.
      * intros j c [E|Hj]; [inversion E; subst; auto|]. apply in_hm_remove in Hj. eapply Hr; apply Hj.
    + intros j. unfold sps_coef. simpl. rewrite andb_true_r.
      destruct (N.eqb_spec i j) as [->|Hne]; [reflexivity|].
      rewrite hm_get_remove. destruct (N.eqb_spec i j); [contradiction|reflexivity].
Qed.

Lemma sps_new_ok' d : d < 64 ->
  exists s, sps_new d = Ok s /\ sps_wf d s /\ forall i, sps_coef s i = r0.
Proof.
  intros Hd. unfold sps_new. rewrite shl_1 by auto. simpl. eexists. split; [reflexivity|].
  split; [|reflexivity]. repeat split; simpl; auto; [constructor|tauto].
Qed.

(** Writing a list of entries with distinct indices. *)
Lemma sps_copy d l : forall s, sps_wf d s -> NoDup (map fst l) ->
  (forall i c, In (i, c) l -> (i < pow2 d)%N) ->
  let s' := fold_left (fun r iv => sps_set r (fst iv) (snd iv)) l s in
  sps_wf d s' /\ forall j, sps_coef s' j = match hm_get l j with Some v => v | None => sps_coef s j end.
Proof.
  induction l as [|[i c] l IH]; intros s Hs HN Hr; simpl; [auto|].
  inversion HN; subst.
  destruct (sps_set_ok' d s i c Hs) as [Hs1 Hc1].
  destruct (IH (sps_set s i c) Hs1 H3) as [Hs2 Hc2]; [intros; eapply Hr; simpl; eauto|].
  split; [exact Hs2|]. intros j. rewrite Hc2. simpl. rewrite Hc1.
  assert (Hi : (i < pow2 d)%N) by (eapply Hr; simpl; eauto). apply N.ltb_lt in Hi.
  rewrite Hi, andb_true_r. destruct (N.eqb_spec i j) as [->|]; [|reflexivity].
  apply hm_get_none in H2. rewrite H2. reflexivity.
Qed.

Lemma sps_combine (f : T -> T -> T) d l : forall s, sps_wf d s -> NoDup (map fst l) ->
  (forall i c, In (i, c) l -> (i < pow2 d)%N) ->
  exists s', foldM (fun r iv => c <- sps_get r (fst iv) ;; Ok (sps_set r (fst iv) (f c (snd iv)))) l s = Ok s'
  /\ sps_wf d s' /\ forall j, sps_coef s' j = match hm_get l j with Some v => f (sps_coef s j) v | None => sps_coef s j end.
Proof.
  induction l as [|[i c] l IH]; intros s Hs HN Hr; simpl; [eauto|].
  inversion HN; subst. fold (sps_coef s i).
  destruct (sps_set_ok' d s i (f (sps_coef s i) c) Hs) as [Hs1 Hc1].
  destruct (IH (sps_set s i (f (sps_coef s i) c)) Hs1 H3) as (s' & E & Hs2 & Hc2);
    [intros; eapply Hr; simpl; eauto|].
  exists s'. split; [exact E|]. split; [exact Hs2|]. intros j. rewrite Hc2, Hc1.
  assert (Hi : (i < pow2 d)%N) by (eapply Hr; simpl; eauto). apply N.ltb_lt in Hi.
  rewrite Hi, andb_true_r. destruct (N.eqb_spec i j) as [->|]; [|reflexivity].
  apply hm_get_none in H2. rewrite H2. reflexivity.
Qed.

Lemma sps_enum_get d s j : sps_wf d s ->
  match hm_get (sps_enum s) j with Some v => v | None => r0 end = sps_coef s j.
Proof.
  intros Hs. destruct (sps_enum_of d s Hs) as (HN & Hin & Hall).
  destruct (hm_get (sps_enum s) j) eqn:E.
  - apply hm_get_in in E; auto. apply Hin in E. apply E.
  - destruct (is0_dec (sps_coef s j)) as [->|Hnz]; auto. exfalso.
    apply hm_get_none in E. apply E. apply in_map_iff. exists (j, sps_coef s j). split; auto.
    apply Hall; auto. destruct Hs as (_ & _ & _ & HN' & Hr). unfold sps_coef in Hnz.
    destruct (hm_get (sps_map s) j) eqn:E'; [|contradiction]. apply hm_get_in in E'; auto.
    eapply Hr; eauto.
Qed.

Lemma sps_zip_ok f d s t : (forall x, f x (r0 : T) = x) -> sps_wf d s -> sps_wf d t ->
  exists r, sps_zip f s t = Ok r /\ sps_wf d r /\ forall i, sps_coef r i = f (sps_coef s i) (sps_coef t i).
Proof.
  intros Hf Hs Ht. unfold sps_zip. pose proof Hs as (Hd & He & _). rewrite He.
  destruct (sps_new_ok' d Hd) as (z & Ez & Hz & Hz0). rewrite Ez. simpl.
  destruct (sps_enum_of d s Hs) as (HNs & Hins & _).
  destruct (sps_enum_of d t Ht) as (HNt & Hint & _).
  destruct (sps_copy d (sps_enum s) z Hz HNs) as [H1 H2]; [intros; eapply Hins; eauto|].
  set (z1 := fold_left _ _ _) in *.
  destruct (sps_combine f d (sps_enum t) z1 H1 HNt) as (r & Er & Hr & Hrc); [intros; eapply Hint; eauto|].
  exists r. split; [exact Er|]. split; [exact Hr|]. intros i. rewrite Hrc.
  assert (Ez1 : sps_coef z1 i = sps_coef s i).
  { rewrite H2, <- (sps_enum_get d s i Hs), Hz0. reflexivity. }
  rewrite Ez1, <- (sps_enum_get d t i Ht).
  destruct (hm_get (sps_enum t) i); auto.
Qed.


Lemma sps_eqb_ok' d s t : sps_wf d s -> sps_wf d t ->
  (sps_eqb s t = true <-> forall i, reqb (sps_coef s i) (sps_coef t i) = true).
Proof.
  intros Hs Ht. unfold sps_eqb.
  assert (G : forall s t, sps_wf d s -> sps_wf d t ->
     (sps_covers s t = true <-> forall i c, In (i, c) (sps_enum s) -> reqb (sps_coef t i) (sps_coef s i) = true)).
  { clear s t Hs Ht. intros s t Hs Ht. unfold sps_covers. rewrite forallb_forall.
    destruct (sps_enum_of d s Hs) as (HN & Hin & _). split.
    - intros Hx i c Hi. specialize (Hx _ Hi). unfold sps_get in Hx.
      fold (sps_coef t (fst (i, c))) in Hx. simpl in Hx. destruct (Hin i c Hi) as (_ & _ & E). rewrite E in Hx. exact Hx.
    - intros Hx [i c] Hi. unfold sps_get. fold (sps_coef t (fst (i, c))). simpl.
      specialize (Hx i c Hi). destruct (Hin i c Hi) as (_ & _ & E). rewrite E. exact Hx. }
  rewrite andb_true_iff, (G s t Hs Ht), (G t s Ht Hs). split.
  - intros [H1 H2] i.
    destruct (is0_dec (sps_coef s i)) as [Z|NZ].
    + destruct (is0_dec (sps_coef t i)) as [Z'|NZ']; [rewrite Z, Z'; apply n_reqb_0|].
      destruct (sps_enum_of d t Ht) as (_ & _ & Hall).
      destruct (N.lt_ge_cases i (pow2 d)) as [Hi|Hi].
      * apply (H2 i (sps_coef t i)). apply Hall; auto.
      * exfalso. apply NZ'. destruct Ht as (_ & _ & _ & HN' & Hr). unfold sps_coef.
        destruct (hm_get (sps_map t) i) eqn:E'; auto. apply hm_get_in in E'; auto.
        apply Hr in E'. lia.
    + destruct (sps_enum_of d s Hs) as (_ & _ & Hall).
      destruct (N.lt_ge_cases i (pow2 d)) as [Hi|Hi].
      * rewrite n_reqb_sym. apply (H1 i (sps_coef s i)). apply Hall; auto.
      * exfalso. apply NZ. destruct Hs as (_ & _ & _ & HN' & Hr). unfold sps_coef.
        destruct (hm_get (sps_map s) i) eqn:E'; auto. apply hm_get_in in E'; auto.
        apply Hr in E'. lia.
  - intros Hx. split; intros; auto. rewrite n_reqb_sym. auto.
Qed.

#[global] Program Instance SpsLaws : StorageLaws T (sps T) := {|
  st_dim_ok := fun d => d < 64;
  st_wf := sps_wf;
  st_coef := sps_coef |}.
Next Obligation. apply H0. Qed.
Next Obligation. apply sps_new_ok'; auto. Qed.
Next Obligation.
  destruct H0 as (_ & _ & _ & HN & Hr). unfold sps_coef.
  destruct (hm_get (sps_map s) i) eqn:E; auto. apply hm_get_in in E; auto. apply Hr in E. lia.
Qed.
Next Obligation. apply sps_set_ok'; auto. Qed.
Next Obligation. apply sps_enum_of; auto. Qed.
Next Obligation.
  destruct H0 as (Hd & He & Hsz & HN & Hr). unfold sps_enum_mut. split.
  - repeat split; simpl; auto.
    + rewrite map_map. simpl. exact HN.
    + intros i c Hi. apply in_map_iff in Hi. destruct Hi as ([j v] & E & Hi). inversion E; subst.
      eapply Hr; eauto.
  - intros i Hi. unfold sps_coef. simpl.
    assert (G : forall l, hm_get (map (fun iv : N * T => (fst iv, f (fst iv) (snd iv))) l) i
                = match hm_get l i with Some v => Some (f i v) | None => None end).
    { induction l as [|[j v] l IH]; simpl; auto. destruct (N.eqb_spec j i) as [->|]; auto. }
    rewrite G. destruct (hm_get (sps_map s) i); auto.
Qed.
Next Obligation.
  eexists. split; [reflexivity|]. destruct (sps_enum_of d s H0) as (HN & Hin & Hall). split; [|split].
  - apply NoDup_map_filter; auto.
  - intros i c Hi. apply filter_In in Hi. destruct Hi as [Hi Hk]. simpl in Hk.
    destruct (Hin i c Hi) as (? & ? & ?). auto.
  - intros i Hi Hk Hnz. apply filter_In. split; auto.
Qed.
Next Obligation. apply sps_zip_ok; auto. apply add_0_r. Qed.
Next Obligation. apply sps_zip_ok; auto. apply sub_0_r. Qed.
Next Obligation. apply (sps_eqb_ok' d); auto. Qed.
End Sparse.

(** ** Quaternions *)
Section Quat.
Context {T : Type} {RO : RingOps T} {W : NumLaws T}.

Definition qst_coef (s : qst T) (i : N) : T :=
  match i with 0%N => q_0 s | 1%N => q_1 s | 2%N => q_2 s | 3%N => q_3 s | _ => r0 end.

Lemma lt4 i : (i < pow2 2)%N -> i = 0%N \/ i = 1%N \/ i = 2%N \/ i = 3%N.
Proof. change (pow2 2) with 4%N. lia. Qed.

Lemma ge4 (s : qst T) i : (pow2 2 <= i)%N -> qst_coef s i = r0.
Proof.
  change (pow2 2) with 4%N. intros Hi. unfold qst_coef.
  destruct i as [|[[p|p|]|[p|p|]|]]; auto; lia.
Qed.

#[global] Program Instance QLaws : StorageLaws T (qst T) := {|
  st_dim_ok := fun d => d = 2;
  st_wf := fun d _ => d = 2;
  st_coef := qst_coef |}.
Next Obligation. lia. Qed.
Next Obligation.
  eexists. split; [reflexivity|]. split; auto. intros i. unfold qst_coef. simpl.
  destruct i as [|[[p|p|]|[p|p|]|]]; auto.
Qed.
Next Obligation. apply ge4; auto. Qed.
Next Obligation.
  split; auto. intros j. destruct (N.lt_ge_cases i 4) as [Hi|Hi].
  - change (pow2 2) with 4%N. replace (i <? 4)%N with true by (symmetry; apply N.ltb_lt; auto).
    rewrite andb_true_r. destruct (lt4 i Hi) as [-> | [-> | [-> | -> ]]];
    destruct (N.lt_ge_cases j 4) as [Hj|Hj];
    try (destruct (lt4 j Hj) as [-> | [-> | [-> | -> ]]]; reflexivity);
    (rewrite !ge4 by auto; destruct (N.eqb_spec 0 j), (N.eqb_spec 1 j), (N.eqb_spec 2 j), (N.eqb_spec 3 j); try lia; auto).
  - change (pow2 2) with 4%N. replace (i <? 4)%N with false by (symmetry; apply N.ltb_ge; auto).
    rewrite andb_false_r. replace (qst_set s i v) with s; auto.
    unfold qst_set. destruct i as [|[[p|p|]|[p|p|]|]]; auto; lia.
Qed.
Next Obligation.
  split; [|split].
  - simpl. repeat constructor; simpl; intuition discriminate.
  - intros i c Hi. simpl in Hi.
    destruct Hi as [E|[E|[E|[E|[]]]]]; inversion E; subst; repeat split; auto; reflexivity.
  - intros i Hi _ _. destruct (lt4 i Hi) as [-> | [-> | [-> | -> ]]]; simpl; auto.
Qed.
Next Obligation.
  split; auto. intros i Hi. destruct (lt4 i Hi) as [-> | [-> | [-> | -> ]]]; reflexivity.
Qed.
Next Obligation.
  eexists. split; [reflexivity|]. split; [|split].
  - apply NoDup_map_filter. simpl. repeat constructor; simpl; intuition discriminate.
  - intros i c Hi. apply filter_In in Hi. destruct Hi as [Hi Hk]. simpl in Hk.
    simpl in Hi. destruct Hi as [E|[E|[E|[E|[]]]]]; inversion E; subst; repeat split; auto; reflexivity.
  - intros i Hi Hk _. apply filter_In. split; auto.
    destruct (lt4 i Hi) as [-> | [-> | [-> | -> ]]]; simpl; auto.
Qed.
Next Obligation.
  eexists. split; [reflexivity|]. split; auto. intros i.
  destruct (N.lt_ge_cases i 4) as [Hi|Hi].
  - destruct (lt4 i Hi) as [-> | [-> | [-> | -> ]]]; reflexivity.
  - rewrite !ge4 by auto. symmetry; apply n_add_0_l.
Qed.
Next Obligation.
  eexists. split; [reflexivity|]. split; auto. intros i.
  destruct (N.lt_ge_cases i 4) as [Hi|Hi].
  - destruct (lt4 i Hi) as [-> | [-> | [-> | -> ]]]; reflexivity.
  - rewrite !ge4 by auto. symmetry; apply sub_0_r.
Qed.
Next Obligation.
  unfold qst_eqb. rewrite !andb_true_iff. split.
  - intros [[[E0 E1] E2] E3] i. destruct (N.lt_ge_cases i 4) as [Hi|Hi].
    + destruct (lt4 i Hi) as [-> | [-> | [-> | -> ]]]; assumption.
    + rewrite !ge4 by auto. apply n_reqb_0.
  - intros Hx. pose proof (Hx 0%N). pose proof (Hx 1%N). pose proof (Hx 2%N). pose proof (Hx 3%N). auto.
Qed.
End Quat.
