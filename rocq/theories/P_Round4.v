(** Error bounds for programs. *)
From Verif Require Export Spec_RProg P_RWedge.
From Coq Require Import QArith Lqa Lia.
Local Open Scope Qc_scope.

Section Prog.
Context {F : Type} {RF : RingOps F} {DF : DivOps F} {CF : ConjOps F} {V : RoundOps F} {RL : RoundLaws F} {W : NumLaws F} {m : Mode} {H : HashOrder}.

Variable sg : list tok.
Variable A : algebra.
Hypothesis D : declared sg A.
Local Notation d := (a_dim A).
Local Notation AOK := (declared_ok sg A D).

Definition fit {S} {St : Storage F S} {SL : StorageLaws F S} (r : res S) (o : out (T := Qc)) (E : N -> Qc) : Prop :=
  match o with OE e => r = Err e
  | OF f => exists z, r = Ok z /\ valid A z /\ forall i, (i < pow2 d)%N -> Qcabs (val (rd z i) - f i) <= E i end.

Lemma fit_bind {S S'} {St : Storage F S} {SL : StorageLaws F S} {St' : Storage F S'} {SL' : StorageLaws F S'}
  (r : res S) (k : S -> res S') o kk E E' :
  fit r o E -> (forall x, r = Ok x -> valid A x -> forall f, o = OF f -> (forall i, (i < pow2 d)%N -> Qcabs (val (rd x i) - f i) <= E i) -> fit (k x) (kk f) E') ->
  fit (bind r k) (ob o kk) E'.
Proof.
  destruct o as [e|f]; intros Hr Hk; cbn [ob].
  - cbn in Hr. rewrite Hr. reflexivity.
  - destruct Hr as (z & E1 & Hz & Hc). rewrite E1. cbn [bind]. apply Hk; auto.
Qed.

(** From what the rounded operation gives. *)
Lemma fit_gives {S} {St : Storage F S} {SL : StorageLaws F S} (r : res S) (g : N -> F) f E : gives A r g ->
  (forall i, (i < pow2 d)%N -> (exists z, r = Ok z /\ rd z i = g i) -> Qcabs (val (g i) - f i) <= E i) -> fit r (OF f) E.
Proof.
  intros (z & E1 & Hz & Hc) HE. exists z. split; [exact E1|]. split; [exact Hz|]. intros i Hi.
  assert (Er : rd z i = g i) by (unfold rd; rewrite Hc by exact Hi; reflexivity). rewrite Er. apply HE; eauto.
Qed.

Lemma wt_ex e : forall k, offers k A e -> arith e -> wt k A (ex e).
Proof.
  induction e; intros K Ho Ha; cbn [offers arith ex wt] in *; try contradiction; try exact I; try (apply IHe; auto; fail).
  - exact Ho.
  - destruct Ho, Ha. split; auto.
  - destruct Ho, Ha. split; auto.
  - destruct Ho, Ha. split; auto.
  - destruct Ho as (HK & Ho1 & Ho2), Ha. split; auto.
  - destruct Ho as (HK & Ho1 & Ho2), Ha. split; auto.
  - apply IHe; tauto.
  - destruct Ha as (_ & _ & _ & Ha). split; auto. apply Qcmult_0_l.
  - apply IHe; tauto.
  - destruct Ho. split; auto.
  - destruct Ho. split; auto.
  - destruct Ho. split; auto.
  - destruct Ho. split; auto.
Qed.

Lemma exact_den K e f i : supports K A -> offers K A e -> arith e -> den A (ex e) = OF f -> (i < pow2 d)%N -> exact K A e i = f i.
Proof.
  intros Hs Ho Ha E Hi. pose proof (eval_den (T := Qc) A sg D eq_refl (ex e) K) as G. 
  assert (Hsq : supports K A) by exact Hs. specialize (G Hsq (wt_ex e K Ho Ha) (or_intror QcLaws)). rewrite E in G. destruct G as (z & E1 & Hz & Hc).
  unfold exact. rewrite E1. unfold rd. rewrite Hc by exact Hi. reflexivity.
Qed.

Lemma fit_ext {S} {St : Storage F S} {SL : StorageLaws F S} (r : res S) f f' E : fit r (OF f) E -> (forall i, (i < pow2 d)%N -> f i = f' i) -> fit r (OF f') E.
Proof. intros (z & E1 & Hz & Hc) Hf. exists z. split; [exact E1|]. split; [exact Hz|]. intros i Hi. rewrite <- Hf by auto. auto. Qed.

(** A product of inexact factors: terms pair index j with [p j i] and carry the sign [s j i]. *)
Lemma bil_fit K (x y : store K F) r (p : N -> N -> N) (s : N -> N -> Z) f g Ef Eg : valid A x -> valid A y -> all_finite K A r ->
  (forall i j, (i < pow2 d)%N -> (j < pow2 d)%N -> (p j i < pow2 d)%N) ->
  within A r (fun i => sumI d (fun j => zact (s j i) (val (rd x j) * val (rd y (p j i)))))
    (fun i => product_error (2 ^ d) (sumI d (fun j => Qcabs (val (rd x j)) * Qcabs (val (rd y (p j i)))))) ->
  (forall i, (i < pow2 d)%N -> Qcabs (val (rd x i) - f i) <= Ef i) -> (forall i, (i < pow2 d)%N -> Qcabs (val (rd y i) - g i) <= Eg i) ->
  fit r (OF (fun i => sumI d (fun j => zact (s j i) (f j * g (p j i))))) (fun i =>
    sumI d (fun j => Qcabs (f j) * Eg (p j i) + Ef j * Qcabs (g (p j i)) + Ef j * Eg (p j i))
    + product_error (2 ^ d) (sumI d (fun j => (Qcabs (f j) + Ef j) * (Qcabs (g (p j i)) + Eg (p j i))))).
Proof.
  intros Hx Hy Hfin Hp (z & E & Hz & He) Hf Hg. exists z. split; [exact E|]. split; [exact Hz|].
  intros i Hi. rewrite E in Hfin. specialize (He i Hi (Hfin i Hi)). cbv beta in He.
  set (X := fun j => val (rd x j)) in *. set (Y := fun j => val (rd y j)) in *.
  assert (bx : forall j, (j < pow2 d)%N -> Qcabs (X j) <= Qcabs (f j) + Ef j).
  { intros j Hj. replace (X j) with (f j + (X j - f j)) by ring. eapply Qcle_trans; [apply Qcabs_triangle|]. specialize (Hf j Hj). unfold X. qlra. }
  assert (by_ : forall j, (j < pow2 d)%N -> Qcabs (Y j) <= Qcabs (g j) + Eg j).
  { intros j Hj. replace (Y j) with (g j + (Y j - g j)) by ring. eapply Qcle_trans; [apply Qcabs_triangle|]. specialize (Hg j Hj). unfold Y. qlra. }
  assert (S1 : Qcabs (sumI d (fun j => zact (s j i) (X j * Y (p j i))) - sumI d (fun j => zact (s j i) (f j * g (p j i)))) <=
    sumI d (fun j => Qcabs (f j) * Eg (p j i) + Ef j * Qcabs (g (p j i)) + Ef j * Eg (p j i))).
  { unfold sumI at 1 2. rewrite qsum_sub. eapply Qcle_trans; [apply qsum_abs|]. apply qI_le. intros j Hj.
    rewrite zact_qsub. eapply Qcle_trans; [apply qabs_zact|]. set (l := p j i). assert (Hl : (l < pow2 d)%N) by (apply Hp; auto).
    replace (X j * Y l - f j * g l) with (f j * (Y l - g l) + (X j - f j) * g l + (X j - f j) * (Y l - g l)) by ring.
    specialize (Hf j Hj). specialize (Hg l Hl). fold X Y in Hf, Hg. change (val (rd x j)) with (X j) in Hf. change (val (rd y l)) with (Y l) in Hg.
    eapply Qcle_trans; [apply Qcabs_triangle|]. apply Qcplus_le_compat; [eapply Qcle_trans; [apply Qcabs_triangle|]; apply Qcplus_le_compat|]; rewrite Qcabs_Qcmult.
    - apply qmul_le; [apply Qcabs_nonneg|exact Hg].
    - apply Qcmult_le_compat_r; [exact Hf|apply Qcabs_nonneg].
    - apply qmul_le2; auto; apply Qcabs_nonneg. }
  assert (S2 : product_error (2 ^ d) (sumI d (fun j => Qcabs (X j) * Qcabs (Y (p j i)))) <=
    product_error (2 ^ d) (sumI d (fun j => (Qcabs (f j) + Ef j) * (Qcabs (g (p j i)) + Eg (p j i))))).
  { apply product_error_mono; auto.
    - apply qI_pos. intros j Hj. apply qmul_pos; apply Qcabs_nonneg.
    - apply qI_le. intros j Hj. apply qmul_le2; try apply Qcabs_nonneg; auto. }
  change (sumI d (fun j => zact (s j i) (val (rd x j) * val (rd y (p j i))))) with (sumI d (fun j => zact (s j i) (X j * Y (p j i)))) in He.
  replace (val (rd z i) - _) with ((val (rd z i) - sumI d (fun j => zact (s j i) (X j * Y (p j i)))) +
    (sumI d (fun j => zact (s j i) (X j * Y (p j i))) - sumI d (fun j => zact (s j i) (f j * g (p j i))))) by ring.
  eapply Qcle_trans; [apply Qcabs_triangle|]. rewrite Qcplus_comm. apply Qcplus_le_compat; [exact S1|]. eapply Qcle_trans; [exact He|exact S2].
Qed.

Lemma within_ext {S} {St : Storage F S} {SL : StorageLaws F S} (r : res S) f f' E E' : within A r f E ->
  (forall i, (i < pow2 d)%N -> f i = f' i) -> (forall i, (i < pow2 d)%N -> E i <= E' i) -> within A r f' E'.
Proof.
  intros (z & E1 & Hz & Hc) Hf HE. exists z. split; [exact E1|]. split; [exact Hz|]. intros i Hi Hfi. rewrite <- Hf by auto.
  eapply Qcle_trans; [apply Hc; auto|auto].
Qed.
Lemma mul_within K (x y : store K F) : valid A x -> valid A y ->
  within A (mv_mul A x y) (spec_mul (sq sg) d (fun j => val (rd x j)) (fun j => val (rd y j)))
    (fun i => product_error (2 ^ d) (sumI d (fun j => Qcabs (val (rd x j)) * Qcabs (val (rd y (N.lxor j i)))))).
Proof.
  intros Hx Hy. destruct (mul_error sg A D K x y Hx Hy) as (z & E & Hz & Hc). exists z. split; [exact E|]. split; [exact Hz|]. intros i Hi Hf.
  eapply Qcle_trans; [apply Hc; auto|]. apply product_error_mono; [exact (enum_len A x Hx)|apply psum_pos|apply Qcle_refl].
Qed.
Lemma mul_fit K (x y : store K F) f g Ef Eg : valid A x -> valid A y -> all_finite K A (mv_mul A x y) ->
  (forall i, (i < pow2 d)%N -> Qcabs (val (rd x i) - f i) <= Ef i) -> (forall i, (i < pow2 d)%N -> Qcabs (val (rd y i) - g i) <= Eg i) ->
  fit (mv_mul A x y) (OF (gp d (a_imag A) (a_proj A) f g)) (fun i =>
    sumI d (fun j => Qcabs (f j) * Eg (N.lxor j i) + Ef j * Qcabs (g (N.lxor j i)) + Ef j * Eg (N.lxor j i))
    + product_error (2 ^ d) (sumI d (fun j => (Qcabs (f j) + Ef j) * (Qcabs (g (N.lxor j i)) + Eg (N.lxor j i))))).
Proof.
  intros Hx Hy Hfin Hf Hg. assert (M : metric (sq sg) d (a_imag A) (a_proj A)) by (apply declared_metric; auto).
  eapply fit_ext; [apply (bil_fit K x y (mv_mul A x y) (fun j i => N.lxor j i) (fun j i => csign (sq sg) d j (N.lxor j i))); eauto using lxor_lt|].
  - eapply within_ext; [apply mul_within; auto| |intros; apply Qcle_refl]. intros i Hi. rewrite spec_mul_single by auto. reflexivity.
  - intros i Hi. rewrite <- (spec_mul_gp (sq sg) d _ _ f g M i Hi). rewrite spec_mul_single by auto. reflexivity.
Qed.
Lemma wedge_fit K (x y : store K F) f g Ef Eg : K <> KQuat -> valid A x -> valid A y -> all_finite K A (k_wedge K A x y) ->
  (forall i, (i < pow2 d)%N -> Qcabs (val (rd x i) - f i) <= Ef i) -> (forall i, (i < pow2 d)%N -> Qcabs (val (rd y i) - g i) <= Eg i) ->
  fit (k_wedge K A x y) (OF (gp d 0 (ones d) f g)) (fun i =>
    sumI d (fun j => Qcabs (f j) * Eg (N.lxor j i) + Ef j * Qcabs (g (N.lxor j i)) + Ef j * Eg (N.lxor j i))
    + product_error (2 ^ d) (sumI d (fun j => (Qcabs (f j) + Ef j) * (Qcabs (g (N.lxor j i)) + Eg (N.lxor j i))))).
Proof.
  intros HK Hx Hy Hfin Hf Hg.
  eapply fit_ext; [apply (bil_fit K x y (k_wedge K A x y) (fun j i => N.lxor j i) (fun j i => csign q0 d j (N.lxor j i))); eauto using lxor_lt|].
  - eapply within_ext; [apply (kwedge_near sg A D); auto| |intros; apply Qcle_refl]. intros i Hi. rewrite spec_mul_single by auto. reflexivity.
  - intros i Hi. rewrite <- q0_wp by auto. rewrite spec_mul_single by auto. reflexivity.
Qed.
Lemma meet_fit K (x y : store K F) f g Ef Eg : K <> KQuat -> valid A x -> valid A y -> all_finite K A (k_meet K A x y) ->
  (forall i, (i < pow2 d)%N -> Qcabs (val (rd x i) - f i) <= Ef i) -> (forall i, (i < pow2 d)%N -> Qcabs (val (rd y i) - g i) <= Eg i) ->
  fit (k_meet K A x y) (OF (fmeet A f g)) (fun i => let p j := (2 ^ N.of_nat d - 1 - N.lxor j i)%N in
    sumI d (fun j => Qcabs (f j) * Eg (p j) + Ef j * Qcabs (g (p j)) + Ef j * Eg (p j))
    + product_error (2 ^ d) (sumI d (fun j => (Qcabs (f j) + Ef j) * (Qcabs (g (p j)) + Eg (p j))))).
Proof.
  intros HK Hx Hy Hfin Hf Hg. 
  assert (EP : forall i j, (i < pow2 d)%N -> (j < pow2 d)%N -> (2 ^ N.of_nat d - 1 - N.lxor j i)%N = cpl A (N.lxor j i)) by (intros i j Hi Hj; symmetry; apply cpl_eq; auto using lxor_lt).
  eapply fit_ext; [apply (bil_fit K x y (k_meet K A x y) (fun j i => (2 ^ N.of_nat d - 1 - N.lxor j i)%N) (fun j i => sign_i8 (P_MV.msign A j (cpl A (N.lxor j i))))); auto|].
  - intros i j Hi Hj. rewrite EP by auto. apply cpl_lt.
  - eapply within_ext; [apply (kmeet_near sg A D); auto| |intros; apply Qcle_refl]. intros i Hi. cbv beta. rewrite <- fmeet_terms by auto.
    apply sumI_ext. intros j Hj. rewrite EP by auto. reflexivity.
  - intros i Hi. rewrite <- fmeet_terms by auto. apply sumI_ext. intros j Hj. rewrite EP by auto. reflexivity.
Qed.

Lemma if_le (b : bool) c x E : Qcabs (val c - x) <= E -> Qcabs (val (if b then c else r0) - (if b then x else r0)) <= E.
Proof.
  intros Hc. destruct b; auto. rewrite val_r0. change (@r0 Qc QcOps) with 0. rewrite abs_same. eapply Qcle_trans; [apply Qcabs_nonneg|exact Hc].
Qed.
Lemma last_write_val l i : val (last_write l i) = last_write (map (fun ic => (fst ic, val (snd ic))) l) i.
Proof.
  unfold last_write. change (@r0 Qc QcOps) with 0. rewrite <- val_r0. generalize (@r0 F RF) as v. induction l as [|[j c] l IH]; intros v; [reflexivity|]. cbn [map fold_left fst snd].
  rewrite IH. destruct (j =? i)%N; reflexivity.
Qed.

Theorem prog_fit e : forall K, supports K A -> offers K A e -> arith e -> fine K A e -> fit (eval K A e) (den A (ex e)) (err K A e).
Proof.
  pose proof ro_u as Hu.
  induction e; intros K Hs Ho Ha Hfn; pose proof (supports_dim (T := F) sg A K D Hs) as HD; cbn [offers arith fine] in Ho, Ha, Hfn; destruct Hfn as [HF Hfn];
    try contradiction; cbn [eval ex den err] in *.
  - apply (fit_gives _ (fun _ => r0)); [apply g_default; auto|]. intros i Hi _. rewrite val_r0. change (@r0 Qc QcOps) with 0. rewrite abs_same. apply Qcle_refl.
  - apply (fit_gives _ (del 0 r1)); [apply g_one; auto|]. intros i Hi _. rewrite val_del, val_r1. change (@r1 Qc QcOps) with 1. rewrite abs_same. apply Qcle_refl.
  - apply (fit_gives _ (del 0 t)); [apply g_from_scalar; auto|]. intros i Hi _. rewrite val_del, abs_same. apply Qcle_refl.
  - rewrite map_length. destruct (Nat.eqb_spec (length cs) d) as [Hl|Hl]; [|apply (from_vector_err A AOK HD); auto].
    destruct (from_vector_ok A AOK HD cs Hl) as (z & E & Hz & Hc & Ho'). exists z. split; [exact E|]. split; [exact Hz|].
    intros i Hi. rewrite (rd_coef d) by auto. destruct (find _ (seq 0 d)) as [n|] eqn:Ef.
    + apply find_some in Ef. destruct Ef as [Hn E2]. apply in_seq in Hn. apply N.eqb_eq in E2. subst i. rewrite Hc by lia.
      change (@r0 Qc QcOps) with 0.
      replace (nth n (map val cs) 0) with (val (nth n cs r0)) by (rewrite <- (map_nth val), val_r0; reflexivity). rewrite abs_same. apply Qcle_refl.
    + rewrite Ho'; [rewrite val_r0; change (@r0 Qc QcOps) with 0; rewrite abs_same; apply Qcle_refl|]. intros n Hn ->. pose proof (find_none _ _ Ef n) as Hf. cbv beta in Hf. rewrite N.eqb_refl in Hf.
      discriminate Hf. apply in_seq. lia.
  - assert (Ex : existsb (fun ic : N * Qc => (pow2 d <=? fst ic)%N) (map (fun ic => (fst ic, val (snd ic))) l) = existsb (fun ic => (pow2 d <=? fst ic)%N) l).
    { clear. induction l as [|[i c] l IH]; [reflexivity|]. cbn [existsb map fst snd]. rewrite IH. reflexivity. }
    rewrite Ex. clear Ex. destruct (existsb _ l) eqn:Ex.
    + apply existsb_exists in Ex. destruct Ex as ([i c] & Hi & Hb). apply N.leb_le in Hb.
      apply (from_indexed_err A AOK HD l i c Hi Hb).
    + apply (fit_gives _ (last_write l)).
      * apply (from_indexed_thm K sg A l D Hs). intros i c Hi. apply N.lt_nge. intros Hle.
        assert (existsb (fun ic => (pow2 d <=? fst ic)%N) l = true); [|congruence].
        apply existsb_exists. exists (i, c). split; auto. apply N.leb_le. exact Hle.
      * intros i Hi _. rewrite last_write_val, abs_same. apply Qcle_refl.
  - destruct (basis_ok (T := F) A AOK HD) as (l & E & Hl & Hb). rewrite E. cbn [bind].
    destruct (Hb n Ho) as (z & En & Hz & Hc). unfold nthr. rewrite En. exists z. split; [reflexivity|]. split; [exact Hz|].
    intros i Hi. rewrite (rd_coef d), Hc, val_del, val_r1, abs_same by auto. apply Qcle_refl.
  - apply (fit_bind _ _ _ _ _ _ (IHe K Hs Ho Ha Hfn)). intros x Ex Hx f Ef Hf. destruct (st_set_ok d x i v Hx) as [H1 H2].
    eexists. split; [reflexivity|]. split; [exact H1|]. intros j Hj. rewrite (rd_coef d) by auto. unfold mv_set_by_idx. rewrite H2.
    rewrite (N.eqb_sym j). destruct (N.eqb_spec i j) as [->|].
    + apply N.ltb_lt in Hj. rewrite Hj. cbn [andb]. rewrite abs_same. apply Qcle_refl.
    + cbn [andb]. rewrite <- (rd_coef d) by auto. apply Hf; auto.
  - destruct Ho as [Ho1 Ho2], Ha as [Ha1 Ha2], Hfn as [Hf1 Hf2].
    refine (fit_bind _ _ _ (fun f => ob _ (fun g => OF (fadd f g))) _ _ (IHe1 K Hs Ho1 Ha1 Hf1) _). intros x Ex Hx f Ef Hf.
    refine (fit_bind _ _ _ (fun g => OF (fadd f g)) _ _ (IHe2 K Hs Ho2 Ha2 Hf2) _). intros y Ey Hy g Eg Hg.
    apply (fit_gives _ (fadd (rd x) (rd y))); [apply g_add; auto|]. intros i Hi (z & Ez & Er). rewrite Ex, Ey in HF. cbn [bind] in HF. rewrite Ez in HF.
    specialize (HF i Hi). rewrite Er in HF. unfold fadd in *. destruct (ro_add _ _ HF) as (_ & _ & HR). rewrite (exact_den K _ f), (exact_den K _ g) by auto.
    refine (op_error _ _ _ _ _ _ Hu _ HR). cbn [radd QcOps]. specialize (Hf i Hi). specialize (Hg i Hi).
    replace (val (rd x i) + val (rd y i) - (f i + g i)) with ((val (rd x i) - f i) + (val (rd y i) - g i)) by ring.
    eapply Qcle_trans; [apply Qcabs_triangle|]. apply Qcplus_le_compat; assumption.
  - destruct Ho as [Ho1 Ho2], Ha as [Ha1 Ha2], Hfn as [Hf1 Hf2].
    refine (fit_bind _ _ _ (fun f => ob _ (fun g => OF (fsub f g))) _ _ (IHe1 K Hs Ho1 Ha1 Hf1) _). intros x Ex Hx f Ef Hf.
    refine (fit_bind _ _ _ (fun g => OF (fsub f g)) _ _ (IHe2 K Hs Ho2 Ha2 Hf2) _). intros y Ey Hy g Eg Hg.
    apply (fit_gives _ (fsub (rd x) (rd y))); [apply g_sub; auto|]. intros i Hi (z & Ez & Er). rewrite Ex, Ey in HF. cbn [bind] in HF. rewrite Ez in HF.
    specialize (HF i Hi). rewrite Er in HF. unfold fsub in *. destruct (ro_sub _ _ HF) as (_ & _ & HR). rewrite (exact_den K _ f), (exact_den K _ g) by auto.
    refine (op_error _ _ _ _ _ _ Hu _ HR). cbn [rsub QcOps]. specialize (Hf i Hi). specialize (Hg i Hi).
    replace (val (rd x i) - val (rd y i) - (f i - g i)) with ((val (rd x i) - f i) + - (val (rd y i) - g i)) by ring.
    eapply Qcle_trans; [apply Qcabs_triangle|]. rewrite Qcabs_opp. apply Qcplus_le_compat; assumption.
  - refine (fit_bind _ _ _ _ _ _ (IHe K Hs Ho Ha Hfn) _). intros x Ex Hx f Ef Hf.
    apply (fit_gives _ (fneg (rd x))); [apply (g_neg A sg D); auto|]. intros i Hi _. unfold fneg. destruct (ro_neg (rd x i)) as [-> _].
    change (rneg (f i)) with (- f i). replace (- val (rd x i) - - f i) with (- (val (rd x i) - f i)) by ring. rewrite Qcabs_opp. auto.
  - destruct Ho as [Ho1 Ho2], Ha as [Ha1 Ha2], Hfn as [Hf1 Hf2].
    refine (fit_bind _ _ _ (fun f => ob _ (fun g => OF (gp d (a_imag A) (a_proj A) f g))) _ _ (IHe1 K Hs Ho1 Ha1 Hf1) _). intros x Ex Hx f Ef Hf.
    refine (fit_bind _ _ _ (fun g => OF (gp d (a_imag A) (a_proj A) f g)) _ _ (IHe2 K Hs Ho2 Ha2 Hf2) _). intros y Ey Hy g Eg Hg.
    rewrite Ex, Ey in HF. cbn [bind] in HF. 
    destruct (mul_fit K x y f g _ _ Hx Hy HF Hf Hg) as (z & Ez & Hz & Hc). exists z. split; [exact Ez|]. split; [exact Hz|]. intros i Hi.
    eapply Qcle_trans; [apply Hc; auto|]. apply Qcplus_le_compat.
    + apply qI_le. intros j Hj. assert (N.lxor j i < pow2 d)%N by (apply lxor_lt; auto). rewrite (exact_den K e1 f), (exact_den K e2 g) by auto. apply Qcle_refl.
    + match goal with |- product_error _ ?a <= product_error _ ?b => replace b with a; [apply Qcle_refl|] end.
      apply sumI_ext. intros j Hj. assert (N.lxor j i < pow2 d)%N by (apply lxor_lt; auto). rewrite (exact_den K e1 f), (exact_den K e2 g) by auto. reflexivity.
  - destruct Ho as (HK & Ho1 & Ho2), Ha as [Ha1 Ha2], Hfn as [Hf1 Hf2].
    refine (fit_bind _ _ _ (fun f => ob _ (fun g => OF (gp d 0 (ones d) f g))) _ _ (IHe1 K Hs Ho1 Ha1 Hf1) _). intros x Ex Hx f Ef Hf.
    refine (fit_bind _ _ _ (fun g => OF (gp d 0 (ones d) f g)) _ _ (IHe2 K Hs Ho2 Ha2 Hf2) _). intros y Ey Hy g Eg Hg.
    rewrite Ex, Ey in HF. cbn [bind] in HF. 
    destruct (wedge_fit K x y f g _ _ HK Hx Hy HF Hf Hg) as (z & Ez & Hz & Hc). exists z. split; [exact Ez|]. split; [exact Hz|]. intros i Hi.
    eapply Qcle_trans; [apply Hc; auto|]. apply Qcplus_le_compat.
    + apply qI_le. intros j Hj. assert (N.lxor j i < pow2 d)%N by (apply lxor_lt; auto). rewrite (exact_den K e1 f), (exact_den K e2 g) by auto. apply Qcle_refl.
    + match goal with |- product_error _ ?a <= product_error _ ?b => replace b with a; [apply Qcle_refl|] end.
      apply sumI_ext. intros j Hj. assert (N.lxor j i < pow2 d)%N by (apply lxor_lt; auto). rewrite (exact_den K e1 f), (exact_den K e2 g) by auto. reflexivity.
  - destruct Ho as (HK & Ho1 & Ho2), Ha as [Ha1 Ha2], Hfn as [Hf1 Hf2].
    refine (fit_bind _ _ _ (fun f => ob _ (fun g => OF (fmeet A f g))) _ _ (IHe1 K Hs Ho1 Ha1 Hf1) _). intros x Ex Hx f Ef Hf.
    refine (fit_bind _ _ _ (fun g => OF (fmeet A f g)) _ _ (IHe2 K Hs Ho2 Ha2 Hf2) _). intros y Ey Hy g Eg Hg.
    rewrite Ex, Ey in HF. cbn [bind] in HF. 
    destruct (meet_fit K x y f g _ _ HK Hx Hy HF Hf Hg) as (z & Ez & Hz & Hc). exists z. split; [exact Ez|]. split; [exact Hz|]. intros i Hi.
    eapply Qcle_trans; [apply Hc; auto|]. apply Qcplus_le_compat.
    + apply qI_le. intros j Hj. assert (2 ^ N.of_nat d - 1 - N.lxor j i < pow2 d)%N by (rewrite <- cpl_eq by (auto using lxor_lt); apply cpl_lt). rewrite (exact_den K e1 f), (exact_den K e2 g) by auto. apply Qcle_refl.
    + match goal with |- product_error _ ?a <= product_error _ ?b => replace b with a; [apply Qcle_refl|] end.
      apply sumI_ext. intros j Hj. assert (2 ^ N.of_nat d - 1 - N.lxor j i < pow2 d)%N by (rewrite <- cpl_eq by (auto using lxor_lt); apply cpl_lt). rewrite (exact_den K e1 f), (exact_den K e2 g) by auto. reflexivity.
  - destruct Ha as [Ht Ha]. refine (fit_bind _ _ _ (fun x => OF (fun i => rmul (x i) (val t))) _ _ (IHe K Hs Ho Ha Hfn) _). intros x Ex Hx f Ef Hf.
    apply (fit_gives _ (fun i => rmul (rd x i) t)); [apply w_scale; auto; apply ro_mul_0; auto|]. intros i Hi (z & Ez & Er).
    rewrite Ex in HF. cbn [bind] in HF. rewrite Ez in HF. specialize (HF i Hi). rewrite Er in HF. destruct (ro_mul _ _ HF) as (_ & _ & HR).
    rewrite (exact_den K _ f) by auto. rewrite <- Qcmult_assoc. refine (op_error _ _ _ _ _ _ Hu _ HR). cbn [rmul QcOps]. specialize (Hf i Hi).
    replace (val (rd x i) * val t - f i * val t) with ((val (rd x i) - f i) * val t) by ring. rewrite Qcabs_Qcmult. apply Qcmult_le_compat_r; [exact Hf|apply Qcabs_nonneg].
  - destruct Ha as (Ht & Hn & H0 & Ha). refine (fit_bind _ _ _ (fun x => OF (fun i => rdiv (x i) (val t))) _ _ (IHe K Hs Ho Ha Hfn) _). intros x Ex Hx f Ef Hf.
    apply (fit_gives _ (fun i => rdiv (rd x i) t)); [apply g_divs; auto|]. intros i Hi (z & Ez & Er).
    rewrite Ex in HF. cbn [bind] in HF. rewrite Ez in HF. specialize (HF i Hi). rewrite Er in HF. destruct (ro_div _ _ Ht Hn HF) as (_ & HR).
    rewrite (exact_den K _ f) by auto. rewrite <- Qcmult_assoc. refine (op_error _ _ _ _ _ _ Hu _ HR). cbn [rdiv QcDiv]. specialize (Hf i Hi). unfold Qcdiv.
    replace (val (rd x i) * / val t - f i * / val t) with ((val (rd x i) - f i) * / val t) by ring. rewrite Qcabs_Qcmult. apply Qcmult_le_compat_r; [exact Hf|apply Qcabs_nonneg].
  - refine (fit_bind _ _ _ _ _ _ (IHe K Hs Ho Ha Hfn) _). intros x Ex Hx f Ef Hf.
    apply (fit_gives _ (alpha (rd x))); [apply g_flip; auto|]. intros i Hi _. unfold alpha. rewrite val_sgb, abs_sgb. auto.
  - refine (fit_bind _ _ _ _ _ _ (IHe K Hs Ho Ha Hfn) _). intros x Ex Hx f Ef Hf.
    apply (fit_gives _ (alpham mask (rd x))); [apply g_flip_subspace; auto|]. intros i Hi _. unfold alpham. rewrite val_sgb, abs_sgb. auto.
  - refine (fit_bind _ _ _ _ _ _ (IHe K Hs Ho Ha Hfn) _). intros x Ex Hx f Ef Hf.
    apply (fit_gives _ (frev (rd x))); [apply g_rev; auto|]. intros i Hi _. unfold frev. rewrite val_sgb, abs_sgb. auto.
  - destruct Ha as [Hcj Ha]. refine (fit_bind _ _ _ _ _ _ (IHe K Hs Ho Ha Hfn) _). intros x Ex Hx f Ef Hf.
    apply (fit_gives _ (frev (fun i => rconj (rd x i)))); [apply (g_revc A sg D); auto|]. intros i Hi _. unfold frev. rewrite Hcj, val_sgb. change (@rconj Qc QcConj (f i)) with (f i). rewrite abs_sgb. auto.
  - refine (fit_bind _ _ _ _ _ _ (IHe K Hs Ho Ha Hfn) _). intros x Ex Hx f Ef Hf.
    apply (fit_gives _ (fdual A (rd x))); [apply (g_dual A sg D); auto|]. intros i Hi _. unfold fdual. rewrite val_sgb, abs_sgb, <- cpl_eq by auto. apply Hf, cpl_lt.
  - refine (fit_bind _ _ _ _ _ _ (IHe K Hs Ho Ha Hfn) _). intros x Ex Hx f Ef Hf.
    apply (fit_gives _ (fundual A (rd x))); [apply (g_undual A sg D); auto|]. intros i Hi _. unfold fundual. rewrite val_sgb, abs_sgb, <- cpl_eq by auto. apply Hf, cpl_lt.
  - refine (fit_bind _ _ _ _ _ _ (IHe K Hs Ho Ha Hfn) _). intros x Ex Hx f Ef Hf.
    apply (fit_gives _ (fun i => if Nat.eqb (popcount i) g then rd x i else r0)); [apply g_grade_extract; auto|]. intros i Hi _. cbv beta. apply if_le; auto.
  - destruct Ho as [Hs' Ho]. refine (fit_bind _ _ _ _ _ _ (IHe k Hs' Ho Ha Hfn) _). intros x Ex Hx f Ef Hf.
    destruct (grade_extract_as_ok (S' := store K F) A HD x g Hx) as (z & E & Hz & Hc). exists z. split; [exact E|]. split; [exact Hz|]. intros i Hi.
    rewrite (rd_coef d), Hc by auto. rewrite <- (rd_coef d) by auto. apply if_le; auto.
  - destruct Ho as [Hs' Ho]. replace (den A (ex e)) with (ob (den A (ex e)) (fun x => OF x)) by (destruct (den A (ex e)); auto).
    refine (fit_bind _ _ _ _ _ _ (IHe k Hs' Ho Ha Hfn) _). intros x Ex Hx f Ef Hf.
    destruct (to_storage_ok (S' := store K F) A HD x Hx) as (z & E & Hz & Hc). exists z. split; [exact E|]. split; [exact Hz|]. intros i Hi.
    rewrite (rd_coef d), Hc by auto. rewrite <- (rd_coef d) by auto. apply Hf; auto.
  - destruct Ho as [-> Ho]. refine (fit_bind _ _ _ _ _ _ (IHe KSparse Hs Ho Ha Hfn) _). intros x Ex Hx f Ef Hf.
    eapply fit_gives; [apply (from_indexed_filter A sg D x (fun i _ => existsb (Nat.eqb (popcount i)) gs) Hx)|]. intros i Hi _. cbv beta. apply if_le; auto.
  - destruct Ho as [-> Ho]. refine (fit_bind _ _ _ _ _ _ (IHe KSparse Hs Ho Ha Hfn) _). intros x Ex Hx f Ef Hf.
    eapply fit_gives; [apply (g_sparse_filter A x (fun i _ => existsb (Nat.eqb (popcount i)) gs) Hx)|]. intros i Hi _. cbv beta. apply if_le; auto.
Qed.

Theorem prog_error K e : supports K A -> offers K A e -> arith e -> fine K A e ->
  match eval K A e, eval K A (ex e) with
  | Ok z, Ok z' => valid A z /\ valid A z' /\ forall i, (i < 2 ^ N.of_nat d)%N -> Qcabs (val (rd z i) - rd z' i) <= err K A e i
  | Err a, Err b => a = b
  | _, _ => False
  end.
Proof.
  intros Hs Ho Ha Hf. pose proof (prog_fit e K Hs Ho Ha Hf) as G. pose proof (eval_den (T := Qc) A sg D eq_refl (ex e) K Hs (wt_ex e K Ho Ha) (or_intror QcLaws)) as G'.
  destruct (den A (ex e)) as [b|f].
  - rewrite G, G'. reflexivity.
  - destruct G as (z & -> & Hz & Hc), G' as (z' & -> & Hz' & Hc'). split; [exact Hz|]. split; [exact Hz'|]. intros i Hi.
    unfold rd at 2. rewrite Hc' by exact Hi. apply Hc; auto.
Qed.
End Prog.

(** ** Consequences *)
Section Cons.
Context {F : Type} {RF : RingOps F} {DF : DivOps F} {CF : ConjOps F} {V : RoundOps F} {RL : RoundLaws F} {W : NumLaws F} {m : Mode} {H : HashOrder}.
Variable sg : list tok.
Variable A : algebra.
Hypothesis D : declared sg A.
Local Notation d := (a_dim A).

Theorem progs_close K K' e e' (z : store K F) (z' : store K' F) : supports K A -> supports K' A ->
  offers K A e -> arith e -> fine K A e -> offers K' A e' -> arith e' -> fine K' A e' ->
  (forall i, (i < 2 ^ N.of_nat d)%N -> exact K A e i = exact K' A e' i) ->
  eval K A e = Ok z -> eval K' A e' = Ok z' ->
  forall i, (i < 2 ^ N.of_nat d)%N -> Qcabs (val (rd z i) - val (rd z' i)) <= err K A e i + err K' A e' i.
Proof.
  intros Hs Hs' Ho Ha Hf Ho' Ha' Hf' He Ez Ez' i Hi. specialize (He i Hi).
  pose proof (prog_error sg A D K e Hs Ho Ha Hf) as G. pose proof (prog_error sg A D K' e' Hs' Ho' Ha' Hf') as G'.
  rewrite Ez in G. rewrite Ez' in G'. unfold exact in He. destruct (eval K A (ex e)) as [x| |]; [|contradiction|contradiction].
  destruct (eval K' A (ex e')) as [x'| |]; [|contradiction|contradiction]. destruct G as (_ & _ & G), G' as (_ & _ & G'). specialize (G i Hi). specialize (G' i Hi).
  rewrite He in G. replace (val (rd z i) - val (rd z' i)) with ((val (rd z i) - rd x' i) + - (val (rd z' i) - rd x' i)) by ring.
  eapply Qcle_trans; [apply Qcabs_triangle|]. rewrite Qcabs_opp. apply Qcplus_le_compat; assumption.
Qed.

Theorem mul_close K K' (x y : store K F) (x' y' : store K' F) z z' : valid A x -> valid A y -> valid A x' -> valid A y' ->
  (forall i, (i < 2 ^ N.of_nat d)%N -> rd x i = rd x' i /\ rd y i = rd y' i) ->
  mv_mul A x y = Ok z -> mv_mul A x' y' = Ok z' ->
  forall i, (i < 2 ^ N.of_nat d)%N -> finite (rd z i) = true -> finite (rd z' i) = true ->
  Qcabs (val (rd z i) - val (rd z' i)) <=
  product_error (length (mv_coeff_enumerate x)) (sumI d (fun j => Qcabs (val (rd x j)) * Qcabs (val (rd y (N.lxor j i))))) +
  product_error (length (mv_coeff_enumerate x')) (sumI d (fun j => Qcabs (val (rd x j)) * Qcabs (val (rd y (N.lxor j i))))).
Proof.
  intros Hx Hy Hx' Hy' Eq Ez Ez' i Hi Hf Hf'.
  destruct (mul_error sg A D K x y Hx Hy) as (w & Ew & _ & Hw). rewrite Ew in Ez. injection Ez as ->.
  destruct (mul_error sg A D K' x' y' Hx' Hy') as (w' & Ew' & _ & Hw'). rewrite Ew' in Ez'. injection Ez' as ->.
  specialize (Hw i Hi Hf). specialize (Hw' i Hi Hf').
  assert (S1 : sumI d (fun j => Qcabs (val (rd x' j)) * Qcabs (val (rd y' (N.lxor j i)))) = sumI d (fun j => Qcabs (val (rd x j)) * Qcabs (val (rd y (N.lxor j i))))).
  { apply sumI_ext. intros j Hj. destruct (Eq j Hj) as [-> _]. destruct (Eq (N.lxor j i)) as [_ ->]; [apply lxor_lt; auto|reflexivity]. }
  rewrite S1 in Hw'.
  assert (S2 : spec_mul (sq sg) d (fun j => val (rd x' j)) (fun j => val (rd y' j)) i = spec_mul (sq sg) d (fun j => val (rd x j)) (fun j => val (rd y j)) i).
  { rewrite !spec_mul_single by auto. apply sumI_ext. intros j Hj. destruct (Eq j Hj) as [-> _]. destruct (Eq (N.lxor j i)) as [_ ->]; [apply lxor_lt; auto|reflexivity]. }
  rewrite S2 in Hw'. set (s := spec_mul _ _ _ _ _) in *.
  replace (val (rd z i) - val (rd z' i)) with ((val (rd z i) - s) + - (val (rd z' i) - s)) by ring.
  eapply Qcle_trans; [apply Qcabs_triangle|]. rewrite Qcabs_opp. apply Qcplus_le_compat; assumption.
Qed.

Theorem linear_error K (x y : store K F) t : valid A x -> valid A y ->
  (exists z, mv_add x y = Ok z /\ valid A z /\ forall i, (i < 2 ^ N.of_nat d)%N -> finite (rd z i) = true -> rounds (val (rd z i)) (val (rd x i) + val (rd y i))) /\
  (exists z, mv_sub x y = Ok z /\ valid A z /\ forall i, (i < 2 ^ N.of_nat d)%N -> finite (rd z i) = true -> rounds (val (rd z i)) (val (rd x i) - val (rd y i))) /\
  (finite t = true ->
   exists z, mv_scale A x t = Ok z /\ valid A z /\ forall i, (i < 2 ^ N.of_nat d)%N -> finite (rd z i) = true -> rounds (val (rd z i)) (val (rd x i) * val t)) /\
  (finite t = true -> val t <> 0 -> rdiv r0 t = r0 ->
   exists z, mv_divs A x t = Ok z /\ valid A z /\ forall i, (i < 2 ^ N.of_nat d)%N -> finite (rd z i) = true -> rounds (val (rd z i)) (val (rd x i) / val t)).
Proof.
  intros Hx Hy. 
  assert (G : forall (r : res (store K F)) g (b : N -> Qc), gives A r g -> (forall i, finite (g i) = true -> rounds (val (g i)) (b i)) ->
    exists z, r = Ok z /\ valid A z /\ forall i, (i < 2 ^ N.of_nat d)%N -> finite (rd z i) = true -> rounds (val (rd z i)) (b i)).
  { intros r g b (z & E & Hz & Hc) Hb. exists z. split; [exact E|]. split; [exact Hz|]. intros i Hi.
    assert (Er : rd z i = g i) by (unfold rd; rewrite Hc by exact Hi; reflexivity). rewrite Er. apply Hb. }
  split; [eapply G; [apply g_add; auto|]; intros i Hf; apply ro_add, Hf|].
  split; [eapply G; [apply g_sub; auto|]; intros i Hf; apply ro_sub, Hf|].
  split; [intros Ht; eapply G; [apply w_scale; auto; apply ro_mul_0; auto|]; intros i Hf; apply ro_mul, Hf|].
  intros Ht Hn H0. eapply G; [apply g_divs; auto|]. intros i Hf. apply ro_div; auto.
Qed.

Theorem meet_error K (x y : store K F) (x' y' : store K Qc) : K <> KQuat -> valid A x -> valid A y -> valid A x' -> valid A y' ->
  (forall i, (i < 2 ^ N.of_nat d)%N -> rd x' i = val (rd x i) /\ rd y' i = val (rd y i)) ->
  exists z z', k_meet K A x y = Ok z /\ k_meet K A x' y' = Ok z' /\ valid A z /\ valid A z' /\
  forall i, (i < 2 ^ N.of_nat d)%N -> finite (rd z i) = true ->
  Qcabs (val (rd z i) - rd z' i) <= product_error (2 ^ d) (sumI d (fun j => Qcabs (val (rd x j)) * Qcabs (val (rd y (2 ^ N.of_nat d - 1 - N.lxor j i)%N)))).
Proof.
  intros HK Hx Hy Hx' Hy' Heq. destruct (kmeet_near sg A D K x y HK Hx Hy) as (z & Ez & Hz & Hc).
  assert (G : gives A (k_meet K A x' y') (fmeet A (rd x') (rd y'))).
  { destruct K; [apply (g_dense_meet A sg D); auto|apply (g_meet A sg D x' y'); auto|congruence]. }
  destruct G as (z' & Ez' & Hz' & Hc'). exists z, z'. do 2 (split; [assumption|]). split; [exact Hz|]. split; [exact Hz'|]. intros i Hi Hf.
  assert (Er : rd z' i = fmeet A (fun j => val (rd x j)) (fun j => val (rd y j)) i).
  { unfold rd at 1. rewrite Hc' by exact Hi. apply fmeet_ext; auto; intros j Hj; apply Heq; auto. }
  rewrite Er. apply Hc; auto.
Qed.
Theorem kwedge_error K (x y : store K F) : K <> KQuat -> valid A x -> valid A y -> 
  exists z, k_wedge K A x y = Ok z /\ valid A z /\ forall i, (i < 2 ^ N.of_nat d)%N -> finite (rd z i) = true ->
  Qcabs (val (rd z i) - spec_mul q0 d (fun j => val (rd x j)) (fun j => val (rd y j)) i)
   <= product_error (2 ^ d) (sumI d (fun j => Qcabs (val (rd x j)) * Qcabs (val (rd y (N.lxor j i))))).
Proof. exact (kwedge_near sg A D K x y). Qed.
Theorem dense_wedge_error (x y : store KDense F) : (6 <= d)%nat -> valid A x -> valid A y -> 
  exists z, k_wedge KDense A x y = Ok z /\ valid A z /\ forall i, (i < 2 ^ N.of_nat d)%N -> finite (rd z i) = true ->
  Qcabs (val (rd z i) - spec_mul q0 d (fun j => val (rd x j)) (fun j => val (rd y j)) i)
   <= tree_error d (sumI d (fun j => Qcabs (val (rd x j)) * Qcabs (val (rd y (N.lxor j i))))).
Proof. exact (dense_wedge_near A x y). Qed.
End Cons.

(** Powers. *)
Section Unroll.
Context {F : Type} {RF : RingOps F} {DF : DivOps F} {CF : ConjOps F} {m : Mode} {H : HashOrder}.
Variable A : algebra.
Variable K : kind.
Lemma unroll_fuel (e : expr F) x : eval K A e = Ok x -> forall fuel n, (0 < n)%nat -> (n < fuel)%nat ->
  eval K A (unroll fuel e n) = mv_pow_fuel A fuel x n.
Proof.
  intros Ex. induction fuel as [|fuel IH]; intros n Hn Hf; [lia|]. destruct n as [|[|n]]; [lia|exact Ex|].
  cbn [unroll mv_pow_fuel]. set (q := Nat.div2 (S (S n))).
  assert (Hq : (0 < q /\ q < fuel)%nat).
  { unfold q. pose proof (Nat.lt_div2 (S (S n)) ltac:(lia)). cbn [Nat.div2] in *. lia. }
  specialize (IH q (proj1 Hq) (proj2 Hq)). destruct (Nat.even (S (S n))); cbn [eval]; rewrite !IH; destruct (mv_pow_fuel A fuel x q) as [h| |]; cbn [bind]; auto;
  [destruct (mv_mul A h h); reflexivity|]. destruct (mv_mul A h h) as [hh| |]; cbn [bind]; auto. rewrite Ex. reflexivity.
Qed.
Theorem unroll_pow (e : expr F) n : (0 < n)%nat -> eval K A (EPow e n) = eval K A (unroll (S n) e n).
Proof.
  intros Hn. cbn [eval]. destruct (eval K A e) as [x|er|] eqn:Ex; cbn [bind].
  - rewrite (unroll_fuel e x Ex) by lia. reflexivity.
  - assert (G : forall fuel n, eval K A (unroll fuel e n) = Err er); [|rewrite G; reflexivity].
    clear Hn n. induction fuel as [|fuel IH]; intros [|[|n]]; try exact Ex. cbn [unroll]. destruct (Nat.even _); cbn [eval]; rewrite IH; reflexivity.
  - assert (G : forall fuel n, eval K A (unroll fuel e n) = Panic); [|rewrite G; reflexivity].
    clear Hn n. induction fuel as [|fuel IH]; intros [|[|n]]; try exact Ex. cbn [unroll]. destruct (Nat.even _); cbn [eval]; rewrite IH; reflexivity.
Qed.
Lemma unroll_arith {V : RoundOps F} (e : expr F) : arith e -> forall fuel n, arith (unroll fuel e n).
Proof. intros He. induction fuel as [|fuel IH]; intros [|[|n]]; try exact He. cbn [unroll]. cbv zeta. destruct (Nat.even _); cbn [arith]; auto. Qed.
End Unroll.
