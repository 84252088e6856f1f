(** Exact programs. *)
From Verif Require Export P_IntProg.
From Coq Require Import Lia ZArith.
Local Open Scope Z_scope.

Section Prog.
Context {R F : Type} {RR : RingOps R} {LR : RingLaws R} {DR : DivOps R} {CR : ConjOps R}
  {RF : RingOps F} {DF : DivOps F} {CF : ConjOps F} {W : NumLaws F} {EM : Emb R F} {EL : EmbLaws R F} {m : Mode} {H : HashOrder}.
Local Notation size := (@size R F EM).
Local Notation top := (@top R F EM).
Local Notation emb := (@emb R F EM).
Local Notation emap := (@emap R F EM).
Local Notation small := (@small R F RR DR CR EM m H).

Variable sg : list tok.
Variable A : algebra.
Hypothesis D : declared sg A.
Local Notation d := (a_dim A).
Local Notation AOK := (declared_ok sg A D).

(** The function x stands for. *)
Definition sees {S} {St : Storage F S} {SL : StorageLaws F S} (x : S) (f : N -> R) : Prop :=
  forall i, (i < pow2 d)%N -> rd x i = emb (f i) /\ size (f i) <= top.
Definition fitx {S} {St : Storage F S} {SL : StorageLaws F S} (r : res S) (o : out (T := R)) : Prop :=
  match o with OE e => r = Err e | OF f => exists z, r = Ok z /\ valid A z /\ sees z f end.

Lemma fitx_bind {S S'} {St : Storage F S} {SL : StorageLaws F S} {St' : Storage F S'} {SL' : StorageLaws F S'}
  (r : res S) (k : S -> res S') o kk :
  fitx r o -> (forall x, valid A x -> forall f, o = OF f -> sees x f -> fitx (k x) (kk f)) -> fitx (bind r k) (ob o kk).
Proof.
  destruct o as [e|f]; intros Hr Hk; cbn [ob].
  - cbn in Hr. rewrite Hr. reflexivity.
  - destruct Hr as (z & E1 & Hz & Hc). rewrite E1. cbn [bind]. apply Hk; auto.
Qed.
Lemma fitx_gives {S} {St : Storage F S} {SL : StorageLaws F S} (r : res S) (g : N -> F) f : gives A r g ->
  (forall i, (i < pow2 d)%N -> g i = emb (f i) /\ size (f i) <= top) -> fitx r (OF f).
Proof.
  intros (z & E1 & Hz & Hc) HE. exists z. split; [exact E1|]. split; [exact Hz|]. intros i Hi.
  assert (Er : rd z i = g i) by (unfold rd; rewrite Hc by exact Hi; reflexivity). rewrite Er. auto.
Qed.

Lemma small_wt e : forall k, offers k A e -> small k A e -> wt k A e.
Proof.
  induction e; intros K Ho Ha; cbn [offers Spec_IntProg.small wt] in *; try contradiction; try exact I; try (apply IHe; auto; tauto); try (exact Ho).
  all: repeat match goal with H : _ /\ _ |- _ => destruct H end; repeat split; auto.
Qed.
Lemma value_den K e f i : supports K A -> offers K A e -> small K A e -> den A e = OF f -> (i < pow2 d)%N -> value K A e i = f i.
Proof.
  intros Hs Ho Ha E Hi. pose proof (eval_den (T := R) A sg D z_conj0 e K Hs (small_wt e K Ho Ha) (or_intror LR)) as G.
  rewrite E in G. destruct G as (z & E1 & Hz & Hc). unfold value. rewrite E1. unfold rd. rewrite Hc by exact Hi. reflexivity.
Qed.

Lemma z_top : size r0 <= top. Proof. rewrite z_0. apply top_pos. Qed.
Lemma ifx (b : bool) c (x : R) : c = emb x /\ size x <= top -> (if b then c else r0) = emb (if b then x else r0) /\ size (if b then x else r0) <= top.
Proof. intros [-> Hx]. destruct b; auto. rewrite w_0. split; [reflexivity|apply z_top]. Qed.
Lemma delx j c (x : R) i : c = emb x /\ size x <= top -> del j c i = emb (del j x i) /\ size (del j x i) <= top.
Proof. intros Hc. unfold del. apply (ifx (i =? j)%N). auto. Qed.
Lemma sgbx b c (x : R) : c = emb x /\ size x <= top -> sgb b c = emb (sgb b x) /\ size (sgb b x) <= top.
Proof. intros [-> Hx]. rewrite e_sgb, s_sgb. auto. Qed.
(** Products. *)
Lemma mul_fitx K (x y : store K F) f g : valid A x -> valid A y -> sees x f -> sees y g ->
  (forall i, (i < pow2 d)%N -> sumI d (fun j => size (f j) * size (g (N.lxor j i))) <= top) ->
  fitx (mv_mul A x y) (OF (gp d (a_imag A) (a_proj A) f g)).
Proof.
  intros Hx Hy Hf Hg HT. assert (M : metric (sq sg) d (a_imag A) (a_proj A)) by (apply declared_metric; auto).
  eapply fitx_gives; [apply (mul_seq A sg D x y Hx Hy)|]. intros i Hi. split; [|eapply Z.le_trans; [apply gp_size|apply HT; auto]].
  rewrite <- (spec_mul_gp (sq sg) d _ _ f g M i Hi), spec_mul_single by auto.
  apply (enum_exact d x y f g (fun j => N.lxor j i) (fun j => csign (sq sg) d j (N.lxor j i))); auto using lxor_lt.
Qed.
Lemma wedge_fitx K (x y : store K F) f g : K <> KQuat -> valid A x -> valid A y -> sees x f -> sees y g ->
  (forall i, (i < pow2 d)%N -> sumI d (fun j => size (f j) * size (g (N.lxor j i))) <= top) ->
  fitx (k_wedge K A x y) (OF (gp d 0 (ones d) f g)).
Proof.
  intros HK Hx Hy Hf Hg HT.
  assert (Gen : fitx (naive_wedge A x y) (OF (gp d 0 (ones d) f g))).
  { eapply fitx_gives; [apply (wedge_seq A sg D x y Hx Hy)|]. intros i Hi. split; [|eapply Z.le_trans; [apply gp_size|apply HT; auto]].
    rewrite <- (spec_mul_gp q0 d 0 (ones d) f g) by (auto using metric_q0). rewrite spec_mul_single by auto.
    apply (enum_exact d x y f g (fun j => N.lxor j i) (fun j => csign q0 d j (N.lxor j i))); auto using lxor_lt. }
  destruct K; [|exact Gen|congruence]. cbn [k_wedge]. destruct (Nat.lt_ge_cases d 6) as [H6|H6].
  - unfold dense_wedge. destruct (Nat.ltb_spec d 6); [exact Gen|lia].
  - eapply fitx_gives; [apply (dense_wedge_fwp A x y); auto|]. intros i Hi. split; [|eapply Z.le_trans; [apply gp_size|apply HT; auto]].
    apply fwp_exact; auto.
Qed.
Lemma msum_size (f g : N -> R) i : (i < pow2 d)%N ->
  sumI d (fun j => size (fdual A f j) * size (fdual A g (N.lxor j (cpl A i))))
  = sumI d (fun j => size (f j) * size (g (2 ^ N.of_nat d - 1 - N.lxor j i)%N)).
Proof.
  intros Hi. rewrite (sumI_cpl A (T := Z)). apply sumI_ext. intros j Hj. unfold fdual. rewrite !s_sgb, cpl_invol, lxor_cpl by auto.
  rewrite cpl_eq by (auto using lxor_lt). reflexivity.
Qed.
Lemma meet_fitx K (x y : store K F) f g : K <> KQuat -> valid A x -> valid A y -> sees x f -> sees y g ->
  (forall i, (i < pow2 d)%N -> sumI d (fun j => size (f j) * size (g (2 ^ N.of_nat d - 1 - N.lxor j i)%N)) <= top) ->
  fitx (k_meet K A x y) (OF (fmeet A f g)).
Proof.
  intros HK Hx Hy Hf Hg HT.
  assert (EP : forall i j, (i < pow2 d)%N -> (j < pow2 d)%N -> (2 ^ N.of_nat d - 1 - N.lxor j i)%N = cpl A (N.lxor j i)) by (intros i j Hi Hj; symmetry; apply cpl_eq; auto using lxor_lt).
  assert (HS : forall i, (i < pow2 d)%N -> size (fmeet A f g i) <= top).
  { intros i Hi. unfold fmeet, fundual. rewrite s_sgb. eapply Z.le_trans; [apply gp_size|]. rewrite msum_size by auto. auto. }
  assert (Gen : fitx (naive_meet A x y) (OF (fmeet A f g))).
  { eapply fitx_gives; [apply (meet_seq A sg D x y Hx Hy)|]. intros i Hi. split; [|auto]. unfold meet_sum.
    rewrite <- fmeet_terms by auto.
    apply (enum_exact d x y f g (fun j => cpl A (N.lxor j i)) (fun j => sign_i8 (P_MV.msign A j (cpl A (N.lxor j i))))); auto.
    - intros; apply cpl_lt.
    - eapply Z.le_trans; [|apply (HT i Hi)]. apply zsum_le. intros j Hj. apply in_idxs in Hj. rewrite EP by auto. lia. }
  destruct K; [|exact Gen|congruence]. cbn [k_meet]. destruct (Nat.lt_ge_cases d 6) as [H6|H6].
  - unfold dense_meet. destruct (Nat.ltb_spec d 6); [exact Gen|lia].
  - eapply fitx_gives; [apply (dense_meet_fwp A sg D x y); auto|]. intros i Hi. split; [|auto]. unfold fmeet, fundual.
    rewrite (fwp_exact d _ _ (fdual A f) (fdual A g)); [apply e_sgb|apply cpl_lt| | |rewrite msum_size; auto];
      intros j Hj; unfold fdual; apply sgbx; [apply Hf|apply Hg]; apply cpl_lt.
Qed.

Lemma last_write_emb (l : list (N * R)) i : (forall j c, In (j, c) l -> size c <= top) ->
  last_write (map (fun ic => (fst ic, emb (snd ic))) l) i = emb (last_write l i) /\ size (last_write l i) <= top.
Proof.
  unfold last_write. intros Hl. rewrite <- w_0. generalize z_top. generalize (@r0 R RR) as v. induction l as [|[j c] l IH]; intros v Hv; [cbn; auto|]. cbn [map fold_left fst snd].
  destruct (j =? i)%N; apply IH; auto; intros; eapply Hl; cbn; eauto.
Qed.

Theorem prog_fitx e : forall K, supports K A -> offers K A e -> small K A e -> fitx (eval K A (emap e)) (den A e).
Proof.
  assert (T1 : emb r1 = r1 /\ size r1 <= top) by (split; [apply w_1|apply z_1]).
  induction e; intros K Hs Ho Ha; pose proof (supports_dim (T := F) sg A K D Hs) as HD; cbn [offers Spec_IntProg.small] in Ho, Ha;
    try contradiction; cbn [eval Spec_IntProg.emap den] in *.
  - apply (fitx_gives _ (fun _ => r0)); [apply g_default; auto|]. intros i Hi. rewrite w_0. split; [reflexivity|apply z_top].
  - apply (fitx_gives _ (del 0 r1)); [apply g_one; auto|]. intros i Hi. apply delx. destruct T1; auto.
  - apply (fitx_gives _ (del 0 (emb t))); [apply g_from_scalar; auto|]. intros i Hi. apply delx. auto.
  - destruct (Nat.eqb_spec (length cs) d) as [Hl|Hl]; [|apply (from_vector_err A AOK HD); rewrite map_length; auto].
    destruct (from_vector_ok A AOK HD (map emb cs)) as (z & E & Hz & Hc & Ho'); [rewrite map_length; exact Hl|]. exists z. split; [exact E|]. split; [exact Hz|].
    intros i Hi. rewrite (rd_coef d) by auto. destruct (find _ (seq 0 d)) as [n|] eqn:Ef.
    + apply find_some in Ef. destruct Ef as [Hn E2]. apply in_seq in Hn. apply N.eqb_eq in E2. subst i. rewrite Hc by lia.
      rewrite <- w_0, map_nth. split; [reflexivity|]. apply Ha, nth_In. lia.
    + rewrite Ho'; [rewrite w_0; split; [reflexivity|apply z_top]|]. intros n Hn ->. pose proof (find_none _ _ Ef n) as Hf. cbv beta in Hf. rewrite N.eqb_refl in Hf.
      discriminate Hf. apply in_seq. lia.
  - assert (Ex : existsb (fun ic : N * F => (pow2 d <=? fst ic)%N) (map (fun ic => (fst ic, emb (snd ic))) l) = existsb (fun ic => (pow2 d <=? fst ic)%N) l).
    { clear. induction l as [|[i c] l IH]; [reflexivity|]. cbn [existsb map fst snd]. rewrite IH. reflexivity. }
    destruct (existsb (fun ic : N * R => (pow2 d <=? fst ic)%N) l) eqn:Ex'.
    + apply existsb_exists in Ex. destruct Ex as ([i c] & Hi & Hb). apply N.leb_le in Hb.
      apply (from_indexed_err A AOK HD _ i c Hi Hb).
    + apply (fitx_gives _ (last_write (map (fun ic => (fst ic, emb (snd ic))) l))).
      * apply (from_indexed_thm K sg A _ D Hs). intros i c Hi. apply N.lt_nge. intros Hle.
        assert (existsb (fun ic : N * F => (pow2 d <=? fst ic)%N) (map (fun ic => (fst ic, emb (snd ic))) l) = true); [|congruence].
        apply existsb_exists. exists (i, c). split; auto. apply N.leb_le. exact Hle.
      * intros i Hi. apply last_write_emb. exact Ha.
  - destruct (basis_ok (T := F) A AOK HD) as (l & E & Hl & Hb). rewrite E. cbn [bind].
    destruct (Hb n Ho) as (z & En & Hz & Hc). unfold nthr. rewrite En. exists z. split; [reflexivity|]. split; [exact Hz|].
    intros i Hi. rewrite (rd_coef d), Hc by auto. apply delx. destruct T1; auto.
  - destruct Ha as [Hv Ha]. refine (fitx_bind _ _ _ _ (IHe K Hs Ho Ha) _). intros x Hx f Ef Hf. destruct (st_set_ok d x i (emb v) Hx) as [H1 H2].
    eexists. split; [reflexivity|]. split; [exact H1|]. intros j Hj. rewrite (rd_coef d) by auto. unfold mv_set_by_idx. rewrite H2.
    rewrite ?(N.eqb_sym j). destruct (N.eqb_spec i j) as [->|].
    + apply N.ltb_lt in Hj. rewrite Hj. cbn [andb]. auto.
    + cbn [andb]. rewrite <- (rd_coef d) by auto. apply Hf; auto.
  - destruct Ho as [Ho1 Ho2], Ha as (Ha1 & Ha2 & HT).
    refine (fitx_bind _ _ _ (fun f => ob _ (fun g => OF (fadd f g))) (IHe1 K Hs Ho1 Ha1) _). intros x Hx f Ef Hf.
    refine (fitx_bind _ _ _ (fun g => OF (fadd f g)) (IHe2 K Hs Ho2 Ha2) _). intros y Hy g Eg Hg.
    apply (fitx_gives _ (fadd (rd x) (rd y))); [apply g_add; auto|]. intros i Hi. specialize (HT i Hi). cbv beta in HT.
    rewrite (value_den K _ f), (value_den K _ g) in HT by auto. unfold fadd. destruct (Hf i Hi) as [-> ?], (Hg i Hi) as [-> ?]. rewrite w_add by auto. auto.
  - destruct Ho as [Ho1 Ho2], Ha as (Ha1 & Ha2 & HT).
    refine (fitx_bind _ _ _ (fun f => ob _ (fun g => OF (fsub f g))) (IHe1 K Hs Ho1 Ha1) _). intros x Hx f Ef Hf.
    refine (fitx_bind _ _ _ (fun g => OF (fsub f g)) (IHe2 K Hs Ho2 Ha2) _). intros y Hy g Eg Hg.
    apply (fitx_gives _ (fsub (rd x) (rd y))); [apply g_sub; auto|]. intros i Hi. specialize (HT i Hi). cbv beta in HT.
    rewrite (value_den K _ f), (value_den K _ g) in HT by auto. unfold fsub. destruct (Hf i Hi) as [-> ?], (Hg i Hi) as [-> ?]. rewrite e_sub by auto. auto.
  - refine (fitx_bind _ _ _ _ (IHe K Hs Ho Ha) _). intros x Hx f Ef Hf.
    apply (fitx_gives _ (fneg (rd x))); [apply (g_neg A sg D); auto|]. intros i Hi. unfold fneg. exact (sgbx true _ _ (Hf i Hi)).
  - destruct Ho as [Ho1 Ho2], Ha as (Ha1 & Ha2 & HT).
    refine (fitx_bind _ _ _ (fun f => ob _ (fun g => OF (gp d (a_imag A) (a_proj A) f g))) (IHe1 K Hs Ho1 Ha1) _). intros x Hx f Ef Hf.
    refine (fitx_bind _ _ _ (fun g => OF (gp d (a_imag A) (a_proj A) f g)) (IHe2 K Hs Ho2 Ha2) _). intros y Hy g Eg Hg.
    apply (mul_fitx K x y f g); auto. intros i Hi. eapply Z.le_trans; [|apply (HT i Hi)]. apply zsum_le. intros j Hj. apply in_idxs in Hj.
    rewrite (value_den K e1 f), (value_den K e2 g) by (auto using lxor_lt). lia.
  - destruct Ho as (HK & Ho1 & Ho2), Ha as (Ha1 & Ha2 & HT).
    refine (fitx_bind _ _ _ (fun f => ob _ (fun g => OF (gp d 0 (ones d) f g))) (IHe1 K Hs Ho1 Ha1) _). intros x Hx f Ef Hf.
    refine (fitx_bind _ _ _ (fun g => OF (gp d 0 (ones d) f g)) (IHe2 K Hs Ho2 Ha2) _). intros y Hy g Eg Hg.
    apply (wedge_fitx K x y f g); auto. intros i Hi. eapply Z.le_trans; [|apply (HT i Hi)]. apply zsum_le. intros j Hj. apply in_idxs in Hj.
    rewrite (value_den K e1 f), (value_den K e2 g) by (auto using lxor_lt). lia.
  - destruct Ho as (HK & Ho1 & Ho2), Ha as (Ha1 & Ha2 & HT).
    refine (fitx_bind _ _ _ (fun f => ob _ (fun g => OF (fmeet A f g))) (IHe1 K Hs Ho1 Ha1) _). intros x Hx f Ef Hf.
    refine (fitx_bind _ _ _ (fun g => OF (fmeet A f g)) (IHe2 K Hs Ho2 Ha2) _). intros y Hy g Eg Hg.
    apply (meet_fitx K x y f g); auto. intros i Hi. eapply Z.le_trans; [|apply (HT i Hi)]. apply zsum_le. intros j Hj. apply in_idxs in Hj.
    assert (2 ^ N.of_nat d - 1 - N.lxor j i < pow2 d)%N by (rewrite <- cpl_eq by (auto using lxor_lt); apply cpl_lt).
    rewrite (value_den K e1 f), (value_den K e2 g) by auto. lia.
  - destruct Ha as (Ha & Ht & HT). refine (fitx_bind _ _ _ (fun x => OF (fun i => rmul (x i) t)) (IHe K Hs Ho Ha) _). intros x Hx f Ef Hf.
    pose proof (z_pos (F := F) t). pose proof (top_pos (R := R) (F := F)).
    apply (fitx_gives _ (fun i => rmul (rd x i) (emb t))).
    { apply w_scale; auto. rewrite <- w_0, w_mul; [rewrite mul_0_l; reflexivity|apply z_top|auto|rewrite z_0; lia]. }
    intros i Hi. specialize (HT i Hi). cbv beta in HT. rewrite (value_den K _ f) in HT by auto. destruct (Hf i Hi) as [-> ?]. rewrite w_mul by auto. split; [reflexivity|].
    eapply Z.le_trans; [apply z_mul|]. exact HT.
  - refine (fitx_bind _ _ _ _ (IHe K Hs Ho Ha) _). intros x Hx f Ef Hf.
    apply (fitx_gives _ (alpha (rd x))); [apply g_flip; auto|]. intros i Hi. unfold alpha. apply sgbx; auto.
  - refine (fitx_bind _ _ _ _ (IHe K Hs Ho Ha) _). intros x Hx f Ef Hf.
    apply (fitx_gives _ (alpham mask (rd x))); [apply g_flip_subspace; auto|]. intros i Hi. unfold alpham. apply sgbx; auto.
  - refine (fitx_bind _ _ _ _ (IHe K Hs Ho Ha) _). intros x Hx f Ef Hf.
    apply (fitx_gives _ (frev (rd x))); [apply g_rev; auto|]. intros i Hi. unfold frev. apply sgbx; auto.
  - refine (fitx_bind _ _ _ _ (IHe K Hs Ho Ha) _). intros x Hx f Ef Hf.
    apply (fitx_gives _ (frev (fun i => rconj (rd x i)))); [apply (g_revc A sg D); auto; rewrite <- w_0, w_conj, z_conj0; reflexivity|]. intros i Hi. unfold frev. apply sgbx.
    destruct (Hf i Hi) as [-> ?]. rewrite w_conj, z_conj. auto.
  - refine (fitx_bind _ _ _ _ (IHe K Hs Ho Ha) _). intros x Hx f Ef Hf.
    apply (fitx_gives _ (fdual A (rd x))); [apply (g_dual A sg D); auto|]. intros i Hi. unfold fdual. apply sgbx. apply Hf, cpl_lt.
  - refine (fitx_bind _ _ _ _ (IHe K Hs Ho Ha) _). intros x Hx f Ef Hf.
    apply (fitx_gives _ (fundual A (rd x))); [apply (g_undual A sg D); auto|]. intros i Hi. unfold fundual. apply sgbx. apply Hf, cpl_lt.
  - refine (fitx_bind _ _ _ _ (IHe K Hs Ho Ha) _). intros x Hx f Ef Hf.
    apply (fitx_gives _ (fun i => if Nat.eqb (popcount i) g then rd x i else r0)); [apply g_grade_extract; auto|]. intros i Hi. cbv beta. apply ifx; auto.
  - destruct Ho as [Hs' Ho]. refine (fitx_bind _ _ _ _ (IHe k Hs' Ho Ha) _). intros x Hx f Ef Hf.
    destruct (grade_extract_as_ok (S' := store K F) A HD x g Hx) as (z & E & Hz & Hc). exists z. split; [exact E|]. split; [exact Hz|]. intros i Hi.
    rewrite (rd_coef d), Hc by auto. rewrite <- (rd_coef d) by auto. apply ifx; auto.
  - destruct Ho as [Hs' Ho]. replace (den A e) with (ob (den A e) (fun x => OF x)) by (destruct (den A e); auto).
    refine (fitx_bind _ _ _ _ (IHe k Hs' Ho Ha) _). intros x Hx f Ef Hf.
    destruct (to_storage_ok (S' := store K F) A HD x Hx) as (z & E & Hz & Hc). exists z. split; [exact E|]. split; [exact Hz|]. intros i Hi.
    rewrite (rd_coef d), Hc by auto. rewrite <- (rd_coef d) by auto. apply Hf; auto.
  - destruct Ho as [-> Ho]. refine (fitx_bind _ _ _ _ (IHe KSparse Hs Ho Ha) _). intros x Hx f Ef Hf.
    eapply fitx_gives; [apply (from_indexed_filter A sg D x (fun i _ => existsb (Nat.eqb (popcount i)) gs) Hx)|]. intros i Hi. cbv beta. apply ifx; auto.
  - destruct Ho as [-> Ho]. refine (fitx_bind _ _ _ _ (IHe KSparse Hs Ho Ha) _). intros x Hx f Ef Hf.
    eapply fitx_gives; [apply (g_sparse_filter A x (fun i _ => existsb (Nat.eqb (popcount i)) gs) Hx)|]. intros i Hi. cbv beta. apply ifx; auto.
Qed.

Theorem prog_exact K e : supports K A -> offers K A e -> small K A e -> same_number (EM := EM) A (eval K A (emap e)) (eval K A e).
Proof.
  intros Hs Ho Ha. pose proof (prog_fitx e K Hs Ho Ha) as G. pose proof (eval_den (T := R) A sg D z_conj0 e K Hs (small_wt e K Ho Ha) (or_intror LR)) as G'.
  unfold same_number. destruct (den A e) as [b|f].
  - rewrite G, G'. reflexivity.
  - destruct G as (z & -> & Hz & Hc), G' as (z' & -> & Hz' & Hc'). split; [exact Hz|]. split; [exact Hz'|]. intros i Hi.
    assert (Er : rd z' i = f i) by (unfold rd; rewrite Hc' by exact Hi; reflexivity). rewrite Er. apply Hc; auto.
Qed.

(** Programs equal over the exact ring are equal as rounded, in whatever storages. *)
Theorem progs_equal K K' e e' (z : store K F) (z' : store K' F) : supports K A -> supports K' A ->
  offers K A e -> small K A e -> offers K' A e' -> small K' A e' ->
  (forall i, (i < 2 ^ N.of_nat d)%N -> value K A e i = value K' A e' i) ->
  eval K A (emap e) = Ok z -> eval K' A (emap e') = Ok z' ->
  forall i, (i < 2 ^ N.of_nat d)%N -> rd z i = rd z' i /\ reqb (rd z i) (rd z' i) = true.
Proof.
  intros Hs Hs' Ho Ha Ho' Ha' He Ez Ez' i Hi. specialize (He i Hi).
  pose proof (prog_exact K e Hs Ho Ha) as G. pose proof (prog_exact K' e' Hs' Ho' Ha') as G'. unfold same_number in G, G'. rewrite Ez in G. rewrite Ez' in G'.
  unfold value in He. destruct (eval K A e) as [x| |]; [|contradiction|contradiction]. destruct (eval K' A e') as [x'| |]; [|contradiction|contradiction].
  destruct G as (_ & _ & G), G' as (_ & _ & G'). destruct (G i Hi) as [-> S1], (G' i Hi) as [-> S2]. rewrite He. split; [reflexivity|].
  rewrite w_eqb by auto. apply reqb_spec. reflexivity.
Qed.
End Prog.
