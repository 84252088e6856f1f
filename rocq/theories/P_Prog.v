(** Programs over the API: agreement of storages (C11) and the sparse invariant (C10). *)
From Verif Require Export P_Total.
Local Open Scope nat_scope.

Section Prog.
Context {T : Type} {RO : RingOps T} {W : NumLaws T} {DV : DivOps T} {CJ : ConjOps T} {m : Mode} {H : HashOrder}.
Variable A : algebra.
Variable sg : list tok.
Hypothesis D : declared sg A.
Hypothesis C0 : rconj (T := T) r0 = r0.
Local Notation d := (a_dim A).
Local Notation AOK := (declared_ok sg A D).

(** What a program denotes. *)
Inductive out := OE (e : clerr) | OF (f : N -> T).
Definition ob (o : out) (k : (N -> T) -> out) : out := match o with OE e => OE e | OF f => k f end.
Fixpoint den (e : expr T) : out :=
  match e with
  | EZero => OF (fun _ => r0)
  | EOne => OF (del 0 r1)
  | EScalar t => OF (del 0 t)
  | EVec cs => if Nat.eqb (length cs) d
      then OF (fun i => match find (fun n => (pow2 n =? i)%N) (seq 0 d) with Some n => nth n cs r0 | None => r0 end)
      else OE InvalidShape
  | EIdx l => if existsb (fun ic => (pow2 d <=? fst ic)%N) l then OE IndexOutOfBounds else OF (last_write l)
  | EBasis n => OF (del (pow2 n) r1)
  | ESet e i v => ob (den e) (fun f => OF (fun j => if (j =? i)%N then v else f j))
  | EAdd e f => ob (den e) (fun x => ob (den f) (fun y => OF (fadd x y)))
  | ESub e f => ob (den e) (fun x => ob (den f) (fun y => OF (fsub x y)))
  | ENeg e => ob (den e) (fun x => OF (fneg x))
  | EMul e f => ob (den e) (fun x => ob (den f) (fun y => OF (gp d (a_imag A) (a_proj A) x y)))
  | EWedge e f => ob (den e) (fun x => ob (den f) (fun y => OF (gp d 0 (ones d) x y)))
  | EMeet e f => ob (den e) (fun x => ob (den f) (fun y => OF (fmeet A x y)))
  | EScale e t => ob (den e) (fun x => OF (fun i => rmul (x i) t))
  | EDivs e t => ob (den e) (fun x => OF (fun i => rdiv (x i) t))
  | EFlip e => ob (den e) (fun x => OF (alpha x))
  | EFlipSub e mask => ob (den e) (fun x => OF (alpham mask x))
  | ERev e => ob (den e) (fun x => OF (frev x))
  | ERevc e => ob (den e) (fun x => OF (frev (fun i => rconj (x i))))
  | EDual e => ob (den e) (fun x => OF (fdual A x))
  | EUndual e => ob (den e) (fun x => OF (fundual A x))
  | EPow e n => ob (den e) (fun x => OF (fpow A x n))
  | EGrade e g | EGradeAs _ e g => ob (den e) (fun x => OF (fun i => if Nat.eqb (popcount i) g then x i else r0))
  | EVia _ e => den e
  | EFilter f e => ob (den e) (fun x => OF (fun i => if f i (x i) then x i else r0))
  | EGrades gs e | ERetain gs e =>
      ob (den e) (fun x => OF (fun i => if existsb (Nat.eqb (popcount i)) gs then x i else r0))
  | ERevm _ | ERevcm _ | EDiv _ _ => OE InvalidShape
  end.

Definition den_ok {S} {St : Storage T S} {SL : StorageLaws T S} (r : res S) (o : out) : Prop :=
  match o with OE e => r = Err e | OF f => gives A r f end.

Lemma den_bind {S S'} {St : Storage T S} {SL : StorageLaws T S} {St' : Storage T S'} {SL' : StorageLaws T S'}
  (r : res S) (k : S -> res S') o kk :
  den_ok r o -> (forall x, valid A x -> forall f, feq d (rd x) f -> den_ok (k x) (kk f)) ->
  den_ok (bind r k) (ob o kk).
Proof.
  destruct o as [e|f]; intros Hr Hk; cbn [ob].
  - cbn in Hr. rewrite Hr. reflexivity.
  - destruct Hr as (z & -> & Hz & Hc). cbn [bind]. apply Hk; auto. intros i Hi. unfold rd. rewrite Hc; auto.
Qed.

Lemma fpow_ext x y n : feq d x y -> feq d (fpow A x n) (fpow A (y : N -> T) n).
Proof. intros E. induction n as [|n IH]; intros k Hk; simpl; auto. apply gp_ext; auto. Qed.

(** Filtering. *)
Lemma enum_filter f p l (q : N -> T -> bool) :
  enum_of d f p l ->
  NoDup (map fst (filter (fun ic => q (fst ic) (snd ic)) l)) /\
  (forall i c, In (i, c) (filter (fun ic => q (fst ic) (snd ic)) l) -> (i < pow2 d)%N) /\
  (forall i, (i < pow2 d)%N -> p i = true ->
     match hm_get (filter (fun ic => q (fst ic) (snd ic)) l) i with Some c => c | None => r0 end
     = if q i (f i) then f i else r0).
Proof.
  intros (HN & Hin & Hall). split; [|split].
  - apply NoDup_map_filter; auto.
  - intros i c Hi. apply filter_In in Hi. destruct Hi as [Hi _]. apply (Hin i c Hi).
  - intros i Hi Hp. destruct (hm_get _ i) as [c|] eqn:E.
    + apply hm_get_in in E; [|apply NoDup_map_filter; auto]. apply filter_In in E. destruct E as [E1 E2].
      destruct (Hin i c E1) as (_ & _ & ->). cbn [fst snd] in E2. rewrite E2. reflexivity.
    + destruct (q i (f i)) eqn:Eq; auto. destruct (is0_dec (f i)) as [->|Hnz]; auto. exfalso.
      apply hm_get_none in E. apply E. apply in_map_iff. exists (i, f i). split; auto. apply filter_In. auto.
Qed.

Lemma hm_get_perm (l l' : list (N * T)) k : NoDup (map fst l) -> Permutation l l' -> hm_get l k = hm_get l' k.
Proof.
  intros HN HP. assert (HN' : NoDup (map fst l')) by (eapply Permutation_NoDup; [apply Permutation_map; exact HP|auto]).
  destruct (hm_get l k) as [c|] eqn:E, (hm_get l' k) as [c'|] eqn:E'; auto.
  - apply hm_get_in in E, E'; auto. f_equal. apply (Permutation_in _ HP) in E.
    clear -E E' HN'. induction l' as [|[a b] l' IH]; [contradiction|]. inversion HN'; subst.
    destruct E as [E|E], E' as [E'|E']; auto; try congruence; exfalso; apply H1; apply in_map_iff;
    [exists (k, c')|exists (k, c)]; split; auto; cbn; congruence.
  - exfalso. apply hm_get_in in E; auto. apply hm_get_none in E'. apply E'. apply in_map_iff. exists (k, c). split; auto.
    eapply Permutation_in; eauto.
  - exfalso. apply hm_get_in in E'; auto. apply hm_get_none in E. apply E. apply in_map_iff. exists (k, c'). split; auto.
    eapply Permutation_in; [apply Permutation_sym|]; eauto.
Qed.

Lemma from_indexed_filter {S} {St : Storage T S} {SL : StorageLaws T S} (x : S) (q : N -> T -> bool) : valid A x ->
  gives A (unwrap (mv_from_indexed_iter A (filter (fun ic => q (fst ic) (snd ic)) (st_enum x))))
    (fun i => if q i (rd x i) then rd x i else r0).
Proof.
  intros Hx. destruct (enum_filter _ _ _ q (st_enum_ok d x Hx)) as (H1 & H2 & H3).
  destruct (from_indexed_ok (S := S) A AOK (valid_dim A x Hx) _ H2) as (z & E & Hz & Hc).
  rewrite E. apply gives_iff. exists z. split; auto. split; auto. intros i Hi. rewrite Hc.
  rewrite <- (hm_get_perm _ _ i H1 (Permutation_rev _)). rewrite H3 by auto. rewrite (rd_coef d) by auto. reflexivity.
Qed.

Lemma sparse_filter_eq (x : sps T) (q : N -> T -> bool) :
  sps_map (sparse_filter_inplace x (fun i v => (v, q i v))) = filter (fun ic => q (fst ic) (snd ic)) (sps_map x).
Proof.
  unfold sparse_filter_inplace. cbn [sps_map]. induction (sps_map x) as [|[i c] l IH]; [reflexivity|].
  cbn [flat_map filter fst snd]. rewrite IH. destruct (q i c); reflexivity.
Qed.

Lemma g_sparse_filter (x : sps T) (q : N -> T -> bool) : valid A x ->
  gives A (Ok (sparse_filter_inplace x (fun i v => (v, q i v)))) (fun i => if q i (rd x i) then rd x i else r0).
Proof.
  intros Hx. pose proof Hx as (Hd & Dx & Sx & HN & Hin). eexists. split; [reflexivity|]. split.
  - split; auto. split; auto. split; auto. rewrite sparse_filter_eq. split.
    + apply NoDup_map_filter; auto.
    + intros i c Hi. apply filter_In in Hi. apply (Hin i c). tauto.
  - intros i Hi. unfold mv_get_by_idx, rd. cbn. unfold sps_get. cbn [mv_get_by_idx st_get SpsStorage sps_get].
    rewrite sparse_filter_eq. f_equal. unfold mv_get_by_idx. cbn. unfold sps_get.
    clear -HN W. induction (sps_map x) as [|[a b] l IH]; cbn [filter hm_get fst snd].
    + destruct (q i r0); reflexivity.
    + inversion HN; subst. destruct (q a b) eqn:Eq; cbn [hm_get]; destruct (N.eqb_spec a i) as [->|Hne]; auto.
      * rewrite Eq. reflexivity.
      * rewrite Eq. destruct (hm_get (filter _ l) i) as [c|] eqn:E; auto.
        apply hm_get_in in E; [|apply NoDup_map_filter; auto]. exfalso. apply H1.
        apply filter_In in E. apply in_map_iff. exists (i, c). tauto.
Qed.

Lemma g_dense_wedge {L : RingLaws T} (x y : arr T) : valid A x -> valid A y ->
  gives A (dense_wedge A x y) (gp d 0 (ones d) (rd x) (rd y)).
Proof. intros. apply (dense_wedge_ok A sg); auto. Qed.

Lemma find_pow2 n : n < d -> find (fun k => (pow2 k =? pow2 n)%N) (seq 0 d) = Some n.
Proof.
  intros Hn. assert (G : forall a l, a <= n < a + l -> find (fun k => (pow2 k =? pow2 n)%N) (seq a l) = Some n).
  { intros a l; revert a; induction l as [|l IH]; intros a Ha; [lia|]. cbn [seq find].
    destruct (N.eqb_spec (pow2 a) (pow2 n)) as [E|E].
    - apply pow2_inj in E. congruence.
    - apply IH. assert (a <> n) by congruence. lia. }
  apply G. lia.
Qed.

Lemma w_scale {S} {St : Storage T S} {SL : StorageLaws T S} (x : S) t : rmul r0 t = r0 -> valid A x ->
  gives A (mv_scale A x t) (fun i => rmul (rd x i) t).
Proof.
  intros H0 Hx. destruct (pointwise_ok A (valid_dim A x Hx) (fun _ c => rmul c t) x Hx) as (z & E & Hz & Hc); auto.
  apply gives_iff. exists z. split; [exact E|]. split; auto. intros i Hi. rewrite Hc, (rd_coef d) by auto. reflexivity.
Qed.

Theorem eval_den (e : expr T) : forall k, supports k A -> wt k A e -> linear e \/ RingLaws T -> den_ok (eval k A e) (den e).
Proof.
  induction e; intros K Hs Hw HL; cbn [eval den wt linear] in *;
    repeat match goal with IH : forall k, supports k A -> wt k A ?e -> linear ?e \/ RingLaws T -> _ |- _ =>
      let G := fresh "G" in let J := fresh "J" in
      assert (G : linear e \/ RingLaws T) by (destruct HL as [HL|HL]; [left; tauto|right; exact HL]);
      pose proof (fun k Hs Hw => IH k Hs Hw G) as J; clear IH; rename J into IH end;
    try (assert (HD := supports_dim (T := T) sg A K D Hs)).
  - apply g_default; auto.
  - apply g_one; auto.
  - apply g_from_scalar; auto.
  - destruct (Nat.eqb_spec (length cs) d) as [Hl|Hl]; [|apply (from_vector_err A AOK HD); auto].
    destruct (from_vector_ok A AOK HD cs Hl) as (z & E & Hz & Hc & Ho). apply gives_iff. exists z. split; auto. split; auto.
    intros i Hi. destruct (find _ (seq 0 d)) as [n|] eqn:Ef.
    + apply find_some in Ef. destruct Ef as [Hn E2]. apply in_seq in Hn. apply N.eqb_eq in E2. subst i. apply Hc. lia.
    + apply Ho. intros n Hn ->. pose proof (find_none _ _ Ef n) as Hf. cbv beta in Hf. rewrite N.eqb_refl in Hf.
      discriminate Hf. apply in_seq. lia.
  - destruct (existsb _ l) eqn:Ex.
    + apply existsb_exists in Ex. destruct Ex as ([i c] & Hi & Hb). apply N.leb_le in Hb.
      apply (from_indexed_err A AOK HD l i c Hi Hb).
    + apply (from_indexed_thm K sg A l D Hs). intros i c Hi. apply N.lt_nge. intros Hle.
      assert (existsb (fun ic => (pow2 d <=? fst ic)%N) l = true); [|congruence].
      apply existsb_exists. exists (i, c). split; auto. apply N.leb_le. exact Hle.
  - destruct (basis_ok A AOK HD) as (l & E & Hl & Hb). rewrite E. cbn [bind].
    destruct (Hb n Hw) as (z & En & Hz & Hc). unfold nthr. rewrite En. apply gives_iff. exists z. auto.
  - apply (den_bind _ _ _ _ (IHe K Hs Hw)). intros x Hx f Hf. apply gives_iff. eexists. split; [reflexivity|].
    destruct (st_set_ok d x i v Hx) as [H1 H2]. split; [exact H1|]. intros j Hj. unfold mv_set_by_idx. rewrite H2.
    rewrite (N.eqb_sym j). destruct (N.eqb_spec i j) as [->|].
    + apply N.ltb_lt in Hj. rewrite Hj. reflexivity.
    + cbn [andb]. rewrite <- Hf, (rd_coef d) by auto. reflexivity.
  - destruct Hw as [Hw1 Hw2]. apply (den_bind _ _ _ _ (IHe1 K Hs Hw1)). intros x Hx f Hf.
    apply (den_bind _ _ _ _ (IHe2 K Hs Hw2)). intros y Hy g Hg. eapply gives_ext; [apply g_add; auto|].
    intros i Hi. unfold fadd. rewrite Hf, Hg; auto.
  - destruct Hw as [Hw1 Hw2]. apply (den_bind _ _ _ _ (IHe1 K Hs Hw1)). intros x Hx f Hf.
    apply (den_bind _ _ _ _ (IHe2 K Hs Hw2)). intros y Hy g Hg. eapply gives_ext; [apply g_sub; auto|].
    intros i Hi. unfold fsub. rewrite Hf, Hg; auto.
  - apply (den_bind _ _ _ _ (IHe K Hs Hw)). intros x Hx f Hf. eapply gives_ext; [apply (g_neg A sg D); auto|].
    intros i Hi. unfold fneg. rewrite Hf; auto.
  - destruct HL as [[]|L].
    destruct Hw as [Hw1 Hw2]. apply (den_bind _ _ _ _ (IHe1 K Hs Hw1)). intros x Hx f Hf.
    apply (den_bind _ _ _ _ (IHe2 K Hs Hw2)). intros y Hy g Hg. eapply gives_ext; [apply (g_mul A sg D); auto|].
    intros i Hi. apply gp_ext; auto.
  - destruct HL as [[]|L]. destruct Hw as (HK & Hw1 & Hw2). apply (den_bind _ _ _ _ (IHe1 K Hs Hw1)). intros x Hx f Hf.
    apply (den_bind _ _ _ _ (IHe2 K Hs Hw2)). intros y Hy g Hg.
    apply (gives_ext A _ (gp d 0 (ones d) (rd x) (rd y))).
    + destruct K; [apply g_dense_wedge; auto|apply (g_wedge A sg D x y); auto|congruence].
    + intros i Hi. apply gp_ext; auto.
  - destruct HL as [[]|L]. destruct Hw as (HK & Hw1 & Hw2). apply (den_bind _ _ _ _ (IHe1 K Hs Hw1)). intros x Hx f Hf.
    apply (den_bind _ _ _ _ (IHe2 K Hs Hw2)). intros y Hy g Hg.
    apply (gives_ext A _ (fmeet A (rd x) (rd y))).
    + destruct K; [apply (g_dense_meet A sg D); auto|apply (g_meet A sg D x y); auto|congruence].
    + apply fmeet_ext; auto.
  - assert (Z0 : rmul r0 t = r0) by (destruct HL as [HL|HL]; [tauto|apply mul_0_l]).
    apply (den_bind _ _ _ _ (IHe K Hs Hw)). intros x Hx f Hf. eapply gives_ext; [apply w_scale; auto|].
    intros i Hi. cbv beta. rewrite Hf; auto.
  - destruct Hw as [Hz Hw]. apply (den_bind _ _ _ _ (IHe K Hs Hw)). intros x Hx f Hf. eapply gives_ext; [apply g_divs; auto|].
    intros i Hi. cbv beta. rewrite Hf; auto.
  - apply (den_bind _ _ _ _ (IHe K Hs Hw)). intros x Hx f Hf. eapply gives_ext; [apply g_flip; auto|].
    intros i Hi. unfold alpha. rewrite Hf; auto.
  - apply (den_bind _ _ _ _ (IHe K Hs Hw)). intros x Hx f Hf. eapply gives_ext; [apply g_flip_subspace; auto|].
    intros i Hi. unfold alpham. rewrite Hf; auto.
  - apply (den_bind _ _ _ _ (IHe K Hs Hw)). intros x Hx f Hf. eapply gives_ext; [apply g_rev; auto|].
    intros i Hi. unfold frev. rewrite Hf; auto.
  - apply (den_bind _ _ _ _ (IHe K Hs Hw)). intros x Hx f Hf. eapply gives_ext; [apply (g_revc A sg D); auto|].
    intros i Hi. unfold frev. rewrite Hf; auto.
  - apply (den_bind _ _ _ _ (IHe K Hs Hw)). intros x Hx f Hf. eapply gives_ext; [apply (g_dual A sg D); auto|].
    apply fdual_ext; auto.
  - apply (den_bind _ _ _ _ (IHe K Hs Hw)). intros x Hx f Hf. eapply gives_ext; [apply (g_undual A sg D); auto|].
    apply fundual_ext; auto.
  - destruct HL as [[]|L].
    apply (den_bind _ _ _ _ (IHe K Hs Hw)). intros x Hx f Hf. eapply gives_ext; [apply (g_pow A sg D); auto|].
    apply fpow_ext; auto.
  - apply (den_bind _ _ _ _ (IHe K Hs Hw)). intros x Hx f Hf. eapply gives_ext; [apply g_grade_extract; auto|].
    intros i Hi. cbv beta. rewrite Hf; auto.
  - destruct Hw as [Hs' Hw]. apply (den_bind _ _ _ _ (IHe k Hs' Hw)). intros x Hx f Hf.
    destruct (grade_extract_as_ok (S' := store K T) A HD x g Hx) as (z & E & Hz & Hc). apply gives_iff.
    exists z. split; auto. split; auto. intros i Hi. rewrite Hc by auto. rewrite <- (Hf i Hi), (rd_coef d) by auto. reflexivity.
  - destruct Hw as [Hs' Hw]. replace (den e) with (ob (den e) (fun x => OF x)) by (destruct (den e); auto).
    apply (den_bind _ _ _ _ (IHe k Hs' Hw)). intros x Hx f Hf.
    destruct (to_storage_ok (S' := store K T) A HD x Hx) as (z & E & Hz & Hc). apply gives_iff.
    exists z. split; auto. split; auto. intros i Hi. rewrite Hc by auto. rewrite <- (Hf i Hi), (rd_coef d) by auto. reflexivity.
  - destruct Hw as [HK Hw]. apply (den_bind _ _ _ _ (IHe K Hs Hw)). intros x Hx g Hg.
    apply (gives_ext A _ (fun i => if f i (rd x i) then rd x i else r0)).
    + destruct K; [apply (from_indexed_filter x f Hx)|apply (g_sparse_filter x f Hx)|congruence].
    + intros i Hi. cbv beta. rewrite Hg; auto.
  - destruct Hw as [-> Hw]. apply (den_bind _ _ _ _ (IHe KSparse Hs Hw)). intros x Hx g Hg.
    eapply gives_ext; [apply (from_indexed_filter x (fun i _ => existsb (Nat.eqb (popcount i)) gs) Hx)|].
    intros i Hi. cbv beta. rewrite Hg; auto.
  - destruct Hw as [-> Hw]. apply (den_bind _ _ _ _ (IHe KSparse Hs Hw)). intros x Hx g Hg.
    eapply gives_ext; [apply (g_sparse_filter x (fun i _ => existsb (Nat.eqb (popcount i)) gs) Hx)|].
    intros i Hi. cbv beta. rewrite Hg; auto.
  - contradiction.
  - contradiction.
  - contradiction.
Qed.

Theorem prog_same (e : expr T) k k' : supports k A -> supports k' A -> wt k A e -> wt k' A e -> linear e \/ RingLaws T ->
  same_outcome A (eval k A e) (eval k' A e).
Proof.
  intros Hs Hs' Hw Hw' HL. pose proof (eval_den e k Hs Hw HL) as G. pose proof (eval_den e k' Hs' Hw' HL) as G'.
  destruct (den e) as [er|f]; cbn in G, G'.
  - rewrite G, G'. reflexivity.
  - destruct G as (z & -> & Hz & Hc), G' as (z' & -> & Hz' & Hc'). cbn. intros i Hi. exists (f i). split; auto.
Qed.

(** ** No stored zeros *)
Definition nz (x : sps T) : Prop := forall i c, In (i, c) (sps_map x) -> c <> r0.
Definition inv (k : kind) (x : store k T) : Prop :=
  valid A x /\ match k return store k T -> Prop with KSparse => nz | _ => fun _ => True end x.

Lemma inv_valid k x : inv k x -> valid A x. Proof. intros [G _]. exact G. Qed.

Lemma inv_default k (z : store k T) : mv_default A = Ok z -> inv k z.
Proof.
  pose proof (ok_dim A AOK) as Hd. intros E.
  assert (HD : st_dim_ok (StorageLaws := KLaws k) d).
  { destruct k; cbn; auto. cbn in E. unfold mv_default in E. cbn in E. unfold qst_new in E.
    destruct (Nat.eqb_spec d 2); auto. discriminate. }
  destruct (default_ok (S := store k T) A HD) as (z' & E' & Hz & Hc).
  assert (z' = z) by congruence. subst z'. split; [exact Hz|].
  destruct k; auto. unfold mv_default in E. cbn in E. unfold sps_new in E. destruct (shl 1 d); try discriminate.
  cbn in E. injection E as <-. intros i c [].
Qed.

Lemma inv_set k (x : store k T) i v : inv k x -> inv k (st_set x i v).
Proof.
  intros [Hx Hn]. split; [apply (st_set_ok d x i v Hx)|]. destruct k; auto. cbn. unfold sps_set.
  destruct (i <? sps_size x)%N; auto. intros j c. cbn [sps_map]. destruct (ris0 v) eqn:E.
  - intros Hi. apply filter_In in Hi. apply (Hn j c). tauto.
  - intros [Hi|Hi].
    + injection Hi as <- <-. apply is0_false. exact E.
    + apply filter_In in Hi. apply (Hn j c). tauto.
Qed.

Lemma fold_left_inv {X B} (P : B -> Prop) (f : B -> X -> B) l b :
  (forall b a, P b -> P (f b a)) -> P b -> P (fold_left f l b).
Proof. intros Hf. revert b. induction l as [|a l IH]; intros b Hb; cbn; auto. Qed.

Lemma foldM_inv2 {X B} (P : B -> Prop) (f : B -> X -> res B) l b b' :
  (forall b a b', P b -> f b a = Ok b' -> P b') -> P b -> foldM f l b = Ok b' -> P b'.
Proof.
  intros Hf. revert b. induction l as [|a l IH]; intros b Hb E; cbn in E; [congruence|].
  destruct (f b a) as [c| |] eqn:Ec; try discriminate. cbn in E. exact (IH c (Hf b a c Hb Ec) E).
Qed.

Lemma bind_Ok {X Y} (r : res X) (k : X -> res Y) y : bind r k = Ok y -> exists x, r = Ok x /\ k x = Ok y.
Proof. destruct r; cbn; intros E; try discriminate. eauto. Qed.

Lemma unwrap_Ok {X} (r : res X) y : unwrap r = Ok y -> r = Ok y.
Proof. destruct r; cbn; intros E; congruence. Qed.

Ltac bi E := let x := fresh "x" in let Ex := fresh "E" in apply bind_Ok in E; destruct E as (x & Ex & E).

Lemma inv_from_indexed k l (z : store k T) : mv_from_indexed_iter A l = Ok z -> inv k z.
Proof.
  unfold mv_from_indexed_iter. intros E. bi E. apply inv_default in E0. revert E0 E. apply foldM_inv2.
  intros b [i c] b' Hb E. bi E. destruct (_ <=? _)%N; [discriminate|]. injection E as <-. apply inv_set; auto.
Qed.

Lemma inv_accum k s (b : store k T) i c p : inv k b -> inv k (accum s b i c p).
Proof. intros Hb. destruct s; cbn; auto; apply inv_set; auto. Qed.

Lemma inv_mul k (x y z : store k T) : mv_mul A x y = Ok z -> inv k z.
Proof.
  unfold mv_mul. intros E. bi E. apply inv_default in E0. revert E0 E. apply foldM_inv2.
  intros b [i c] b' Hb. revert b' b Hb. intros b' b Hb. revert Hb. apply foldM_inv2.
  clear b b'. intros b [j c'] b' Hb E. bi E. bi E. injection E as <-. apply inv_accum; auto.
Qed.

Lemma inv_wedge k (x y z : store k T) : naive_wedge A x y = Ok z -> inv k z.
Proof.
  unfold naive_wedge. intros E. bi E. apply inv_default in E0. revert E0 E. apply foldM_inv2.
  intros b [i c] b' Hb. revert Hb. apply foldM_inv2.
  clear b b'. intros b [j c'] b' Hb E. bi E. bi E. injection E as <-. apply inv_accum; auto.
Qed.

Lemma inv_meet k (x y z : store k T) : naive_meet A x y = Ok z -> inv k z.
Proof.
  unfold naive_meet. intros E. bi E. apply inv_default in E0. revert E0 E. apply foldM_inv2.
  intros b [i c] b' Hb. revert Hb. apply foldM_inv2.
  clear b b'. intros b [j c'] b' Hb E. do 5 bi E. injection E as <-. apply inv_accum; auto.
Qed.

Lemma inv_one k (z : store k T) t : mv_from_scalar A t = Ok z -> inv k z.
Proof. unfold mv_from_scalar. intros E. bi E. injection E as <-. apply inv_set, inv_default; auto. Qed.

Lemma inv_pow_fuel k fuel : forall (x z : store k T) n, inv k x -> mv_pow_fuel A fuel x n = Ok z -> inv k z.
Proof.
  induction fuel as [|fuel IH]; intros x z n Hx E; cbn [mv_pow_fuel] in E; [discriminate|].
  destruct n as [|[|n]]; [apply inv_one in E; auto|congruence|].
  bi E. bi E. destruct (Nat.even _).
  - apply inv_mul in E1. congruence.
  - apply inv_mul in E. auto.
Qed.

Lemma inv_zip f (x y z : sps T) : valid A x -> sps_zip f x y = Ok z -> inv KSparse z.
Proof.
  unfold sps_zip. intros Hx E. bi E. pose proof Hx as (_ & Dx & _). rewrite Dx in E0.
  apply (inv_default KSparse) in E0. set (w := fold_left _ (sps_enum x) x0) in E.
  assert (Hw : inv KSparse w). { unfold w. apply (fold_left_inv (inv KSparse)); auto. intros; apply (inv_set KSparse); auto. }
  revert Hw E. apply (foldM_inv2 (inv KSparse)). intros b [i c] b' Hb E. bi E. injection E as <-. apply (inv_set KSparse); auto.
Qed.

Lemma inv_add k (x y z : store k T) : inv k x -> inv k y -> mv_add x y = Ok z -> inv k z.
Proof.
  intros [Hx _] [Hy _] E. destruct k.
  - split; auto. apply (gives_rd A _ _ _ (g_add A x y Hx Hy) E).
  - apply (inv_zip radd x y z Hx E).
  - split; [|exact I]. apply (gives_rd A _ _ _ (g_add A x y Hx Hy) E).
Qed.
Lemma inv_sub k (x y z : store k T) : inv k x -> inv k y -> mv_sub x y = Ok z -> inv k z.
Proof.
  intros [Hx _] [Hy _] E. destruct k.
  - split; auto. apply (gives_rd A _ _ _ (g_sub A x y Hx Hy) E).
  - apply (inv_zip rsub x y z Hx E).
  - split; [|exact I]. apply (gives_rd A _ _ _ (g_sub A x y Hx Hy) E).
Qed.

Lemma inv_divs k (x z : store k T) t : mv_divs A x t = Ok z -> inv k z.
Proof.
  unfold mv_divs. intros E. bi E. injection E as <-. apply fold_left_inv; [intros; apply inv_set; auto|].
  apply inv_default; auto.
Qed.

Lemma inv_filter k f (x z : store k T) : inv k x -> k_filter k A f x = Ok z -> inv k z.
Proof.
  intros [Hx Hn] E. destruct k; cbn in E; try discriminate.
  - apply unwrap_Ok in E. apply (inv_from_indexed KDense) in E. auto.
  - injection E as <-. split.
    + apply (gives_rd A _ _ _ (g_sparse_filter x f Hx) eq_refl).
    + intros i c. rewrite sparse_filter_eq. intros Hi. apply filter_In in Hi. apply (Hn i c). tauto.
Qed.

Theorem eval_inv (e : expr T) : forall k (z : store k T), eval k A e = Ok z -> inv k z.
Proof.
  induction e; intros K z E; cbn [eval] in E; try match type of E with bind _ _ = _ => bi E end.
  - apply inv_default; auto.
  - apply inv_one in E; auto.
  - apply inv_one in E; auto.
  - unfold mv_from_vector in E. bi E. apply inv_default in E0. bi E. destruct x0 as [w n].
    destruct (negb _); [discriminate|]. injection E as <-.
    change w with (fst (w, n)). revert E1. apply (foldM_inv2 (fun p => inv K (fst p))); [|exact E0].
    intros [b j] c [b' j'] Hb E1. cbn in Hb. destruct (Nat.leb _ _); [discriminate|]. bi E1. injection E1 as <- _. apply inv_set; auto.
  - apply inv_from_indexed in E; auto.
  - unfold mv_basis in E0. unfold nthr in E. destruct (nth_error x n) as [w|] eqn:En; [|discriminate].
    injection E as <-. apply nth_error_In in En.
    clear -W D E0 En. revert x E0 En. induction (seq 0 d) as [|a l IH]; intros x E0 Hw; cbn in E0.
    + injection E0 as <-. destruct Hw.
    + bi E0. bi E. bi E. injection E as <-. bi E0. injection E0 as <-. destruct Hw as [<-|Hw]; [|eapply IH; eauto].
      apply inv_set, inv_default; auto.
  - injection E as <-. apply inv_set. eapply IHe; eauto.
  - bi E. eapply inv_add; [eapply IHe1|eapply IHe2|]; eauto.
  - bi E. eapply inv_sub; [eapply IHe1|eapply IHe2|]; eauto.
  - unfold mv_neg in E. apply unwrap_Ok in E. eapply inv_from_indexed; eauto.
  - bi E. eapply inv_mul; eauto.
  - bi E. destruct K; cbn in E; try discriminate.
    + split; auto. apply IHe1 in E0. apply IHe2 in E1. destruct E0 as [E0 _], E1 as [E1 _].
      destruct (s_dense_wedge A sg D x x0 E0 E1) as (w & E' & Hw). assert (w = z) as <- by congruence. exact Hw.
    + apply (inv_wedge KSparse x x0 z E).
  - bi E. destruct K; cbn in E; try discriminate.
    + split; auto. apply IHe1 in E0. apply IHe2 in E1. destruct E0 as [E0 _], E1 as [E1 _].
      destruct (s_dense_meet A sg D x x0 E0 E1) as (w & E' & Hw). assert (w = z) as <- by congruence. exact Hw.
    + apply (inv_meet KSparse x x0 z E).
  - unfold mv_scale in E. bi E. injection E as <-. apply fold_left_inv; [intros; apply inv_set; auto|]. apply inv_default; auto.
  - eapply inv_divs; eauto.
  - unfold mv_flip in E. bi E. injection E as <-. apply fold_left_inv; [intros; apply inv_set; auto|]. apply inv_default; auto.
  - unfold mv_flip_subspace in E. bi E. injection E as <-. apply fold_left_inv; [intros; apply inv_set; auto|]. apply inv_default; auto.
  - unfold mv_rev in E. bi E. injection E as <-. apply fold_left_inv; [intros; apply inv_set; auto|]. apply inv_default; auto.
  - unfold mv_revc in E. apply unwrap_Ok in E. eapply inv_from_indexed; eauto.
  - unfold mv_dual in E. bi E. apply inv_default in E1. revert E1 E. apply foldM_inv2. intros b [i c] b' Hb E. bi E.
    destruct x1; try discriminate; injection E as <-; apply inv_set; auto.
  - unfold mv_undual in E. bi E. apply inv_default in E1. revert E1 E. apply foldM_inv2. intros b [i c] b' Hb E. bi E.
    destruct x1; try discriminate; injection E as <-; apply inv_set; auto.
  - eapply inv_pow_fuel; [eapply IHe|]; eauto.
  - unfold mv_grade_extract, mv_grade_extract_as in E. bi E. bi E. injection E as <-.
    apply fold_left_inv; [intros; apply inv_set; auto|]. apply inv_default; auto.
  - unfold mv_grade_extract_as in E. bi E. bi E. injection E as <-.
    apply fold_left_inv; [intros; apply inv_set; auto|]. apply inv_default; auto.
  - unfold mv_to_storage in E. bi E. injection E as <-.
    apply fold_left_inv; [intros b a Hb; destruct (ris0 (snd a)); auto; apply inv_set; auto|]. apply inv_default; auto.
  - eapply inv_filter; [eapply IHe|]; eauto.
  - destruct K; cbn in E; try discriminate. apply unwrap_Ok in E. apply (inv_from_indexed KSparse) in E. auto.
  - destruct K; cbn in E; try discriminate. injection E as <-.
    apply (inv_filter KSparse (fun i _ => existsb (Nat.eqb (popcount i)) gs) x); [eapply IHe; eauto|reflexivity].
  - unfold mv_revm in E. bi E. bi E. eapply inv_divs; eauto.
  - unfold mv_revcm in E. bi E. bi E. eapply inv_divs; eauto.
  - bi E. unfold mv_div in E. do 4 bi E. eapply inv_mul; eauto.
Qed.

Theorem sparse_hist (e : expr T) (z : sps T) : eval KSparse A e = Ok z ->
  valid A z /\
  (forall i c, In (i, c) (mv_coeff_enumerate z) -> (i < 2 ^ N.of_nat d)%N /\ c <> r0) /\
  sparse_coeff_count z = length (filter (fun i => negb (ris0 (rd z i))) (idxs d)).
Proof.
  intros E. destruct (eval_inv e KSparse z E) as [Hz Hn]. split; auto.
  pose proof Hz as (_ & _ & _ & HN & Hin). split.
  - intros i c Hi. unfold mv_coeff_enumerate in Hi. cbn in Hi. unfold sps_enum in Hi.
    apply (Permutation_in _ (Permutation_sym (hm_order_perm T _ _))) in Hi. split; [apply (Hin i c Hi)|eauto].
  - unfold sparse_coeff_count. rewrite <- (map_length fst (sps_map z)). apply Permutation_length.
    apply NoDup_Permutation; auto; [apply NoDup_filter, NoDup_idxs|].
    intros i. rewrite filter_In, in_idxs. split.
    + intros Hi. apply in_map_iff in Hi. destruct Hi as ([j c] & <- & Hi). split; [apply (Hin j c Hi)|].
      cbn [fst]. unfold rd, mv_get_by_idx. cbn. destruct (hm_get (sps_map z) j) as [c'|] eqn:Eg.
      * apply hm_get_in in Eg; auto. apply Hn in Eg. apply is0_false in Eg. rewrite Eg. reflexivity.
      * apply hm_get_none in Eg. exfalso. apply Eg. apply in_map_iff. exists (j, c). auto.
    + intros [Hi Hz']. unfold rd, mv_get_by_idx in Hz'. cbn in Hz'. destruct (hm_get (sps_map z) i) as [c'|] eqn:Eg.
      * apply hm_get_in in Eg; auto. apply in_map_iff. exists (i, c'). auto.
      * rewrite is0_r0 in Hz'. discriminate.
Qed.
End Prog.
