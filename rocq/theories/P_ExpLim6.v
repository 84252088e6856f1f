(** exp(x) exp(y) against exp(x + y) for commuting x, y. *)
From Verif Require Export P_ExpLim4.
From Coq Require Import QArith Lqa Lia.
Local Open Scope Qc_scope.
Notation SS := Datatypes.S.

(** Numbers: the square of terms against the triangle. *)
Fixpoint qsumto (w : nat -> Qc) (K : nat) : Qc := match K with O => w O | SS k => qsumto w k + w (SS k) end.
Fixpoint qtri (u w : nat -> Qc) (K : nat) : Qc := match K with O => u O * w O | SS k => u O * qsumto w (SS k) + qtri (fun j => u (SS j)) w k end.
Lemma qtri_S w K : forall u, qtri u w (SS K) = qtri u w K + conv u w (SS K).
Proof.
  induction K as [|K IH]; intros u; [cbn [qtri qsumto conv]; ring|]. set (u' := fun j => u (SS j)).
  change (qtri u w (SS (SS K))) with (u O * (qsumto w (SS K) + w (SS (SS K))) + qtri u' w (SS K)). rewrite (IH u').
  change (qtri u w (SS K)) with (u O * qsumto w (SS K) + qtri u' w K). change (conv u w (SS (SS K))) with (u O * w (SS (SS K)) + conv u' w (SS K)). ring.
Qed.
Lemma qsum_exp K r : qsumto (ecf r) K = exp_num K r.
Proof. induction K as [|K IH]; [cbn [qsumto exp_num]; unfold ecf; cbn [Qcpower qfact]; field; discriminate|]. rewrite exp_num_ecf, <- IH. reflexivity. Qed.
Lemma qtri_exp K p q : qtri (ecf p) (ecf q) K = exp_num K (p + q).
Proof.
  induction K as [|K IH]; [cbn [qtri exp_num]; unfold ecf; cbn [Qcpower qfact]; field; discriminate|].
  rewrite qtri_S, IH, ecf_conv, exp_num_ecf. reflexivity.
Qed.

Section Poly.
Context {T : Type} {RO : RingOps T} {L : RingLaws T} {CT : CommLaws T} {FF : FromF T Qc} {FRM : FromLaws T Qc} {SZ : SizeLaws T}.
Variables (sg : list tok) (A : algebra).
Hypothesis D : declared sg A.
Local Notation d := (a_dim A).
Local Notation gpA := (gp d (a_imag A) (a_proj A)).
Local Open Scope rg_scope.
Implicit Types u v w : nat -> N -> T.
Definition fsc (q : Qc) (f : N -> T) : N -> T := fun i => f i * from_f q.
Fixpoint fconv u w (k : nat) : N -> T := match k with O => gpA (u O) (w O) | SS k' => fadd (gpA (u O) (w (SS k'))) (fconv (fun j => u (SS j)) w k') end.
Lemma fconv_ext k : forall u u' w w', (forall j, feq d (u j) (u' j)) -> (forall j, feq d (w j) (w' j)) -> feq d (fconv u w k) (fconv u' w' k).
Proof.
  induction k as [|k IH]; intros u u' w w' E E'; cbn [fconv]; [apply gp_feq; auto|]. intros i Hi. unfold fadd. f_equal; [apply gp_ext; auto|]. apply IH; auto.
Qed.
Lemma fconv_add k i : forall u v w, fconv (fun j => fadd (u j) (v j)) w k i = fconv u w k i + fconv v w k i.
Proof.
  induction k as [|k IH]; intros u v w; cbn [fconv]; [apply gp_add_l|]. set (u' := fun j => u (SS j)). set (v' := fun j => v (SS j)).
  change (gpA (fadd (u O) (v O)) (w (SS k)) i + fconv (fun j => fadd (u' j) (v' j)) w k i = gpA (u O) (w (SS k)) i + fconv u' w k i + (gpA (v O) (w (SS k)) i + fconv v' w k i)).
  rewrite gp_add_l, (IH u' v' w). abel.
Qed.
Definition fdif u (j : nat) : N -> T := fsc (natq (SS j)) (u (SS j)).
Lemma from_natS n : from_f (T := T) (natq (SS n)) = from_f (natq n) + 1.
Proof. rewrite natq_S. change (natq n + 1)%Qc with (radd (natq n) (r1 : Qc)). rewrite from_add, from_one. reflexivity. Qed.
Lemma from_nat0 : from_f (T := T) (natq 0) = 0.
Proof. change (natq 0) with 0%Qc. apply from0. Qed.
Lemma fleib w k : forall u i, (i < pow2 d)%N -> fconv u w (SS k) i * from_f (natq (SS k)) = fconv (fdif u) w k i + fconv u (fdif w) k i.
Proof.
  induction k as [|k IH]; intros u i Hi.
  - cbn [fconv]. unfold fdif, fsc, fadd. rewrite gp_smul_l, gp_scale_r by auto. rewrite from_natS, from_nat0, add_0_l, !mul_1_r. apply add_comm.
  - set (u' := fun j => u (SS j)). change (fconv u w (SS (SS k)) i) with (gpA (u O) (w (SS (SS k))) i + fconv u' w (SS k) i).
    change (fconv (fdif u) w (SS k) i) with (gpA (fdif u O) (w (SS k)) i + fconv (fun j => fdif u (SS j)) w k i).
    change (fconv u (fdif w) (SS k) i) with (gpA (u O) (fdif w (SS k)) i + fconv u' (fdif w) k i).
    rewrite (fconv_ext k (fun j => fdif u (SS j)) (fun j => fadd (fdif u' j) (u' (SS j))) w w (ltac:(intros j i' _; unfold fdif, fsc, fadd, u'; rewrite (from_natS (SS j)), mul_add_r, mul_1_r; reflexivity)) (fun j => feq_refl _ _) i Hi).
    rewrite (fconv_add k i (fdif u') (fun j => u' (SS j)) w). specialize (IH u' i Hi).
    assert (E : fconv u' w (SS k) i = gpA (u 1%nat) (w (SS k)) i + fconv (fun j => u' (SS j)) w k i) by reflexivity.
    assert (E0 : gpA (fdif u O) (w (SS k)) i = gpA (u 1%nat) (w (SS k)) i) by (unfold fdif, fsc; rewrite gp_smul_l by auto; rewrite from_natS, from_nat0, add_0_l; apply mul_1_r).
    rewrite E0. unfold fdif at 2, fsc. rewrite gp_scale_r. rewrite (from_natS (SS k)), !mul_add_l, !mul_add_r, !mul_1_r, IH. rewrite E at 1. abel.
Qed.
(** f^k/k!. *)
Definition ter (f : N -> T) (k : nat) : N -> T := fsc (1 / qfact k)%Qc (fpow A f k).
Lemma fsc_fsc p q f : feq d (fsc p (fsc q f)) (fsc (q * p)%Qc f).
Proof. intros i _. unfold fsc. change (q * p)%Qc with (rmul q p). rewrite from_mul. symmetry. apply mul_assoc. Qed.
Lemma ter_S f k : feq d (fdif (ter f) k) (gpA f (ter f k)).
Proof.
  intros i Hi. unfold fdif, ter. rewrite (fsc_fsc _ _ _ i Hi). unfold fsc. rewrite gp_scale_r. f_equal; [cbn [fpow]; symmetry; apply (fpow_comm A f k i Hi)|].
  f_equal. cbn [qfact]. fold (natq (SS k)). field. split; [apply qfact_nz|apply natq_nz].
Qed.
Lemma fconv_gl h k : forall u w, feq d (fconv (fun j => gpA h (u j)) w k) (gpA h (fconv u w k)).
Proof.
  induction k as [|k IH]; intros u w i Hi; cbn [fconv]; [apply gp_assoc; auto|]. rewrite gp_add_r. unfold fadd. rewrite (IH (fun j => u (SS j)) w i Hi). f_equal. apply gp_assoc; auto.
Qed.
Lemma fconv_gr h k : forall u w, (forall j, feq d (gpA h (u j)) (gpA (u j) h)) -> feq d (fconv u (fun j => gpA h (w j)) k) (gpA h (fconv u w k)).
Proof.
  assert (E : forall u w j l i, (i < pow2 d)%N -> feq d (gpA h (u j)) (gpA (u j) h) -> gpA (u j) (gpA h (w l)) i = gpA h (gpA (u j) (w l)) i).
  { intros u w j l i Hi C. rewrite <- !gp_assoc by auto. apply gp_ext; auto using feq_refl. apply feq_sym. exact C. }
  induction k as [|k IH]; intros u w C i Hi; cbn [fconv]; [apply E; auto|]. rewrite gp_add_r. unfold fadd. rewrite (IH (fun j => u (SS j)) w (fun j => C (SS j)) i Hi). f_equal. apply E; auto.
Qed.
Lemma ter_comm f g k : feq d (gpA f g) (gpA g f) -> feq d (gpA f (ter g k)) (gpA (ter g k) f).
Proof. intros C i Hi. unfold ter, fsc. rewrite gp_scale_r, gp_smul_l by auto. f_equal. apply (comm_pow A f g k C i Hi). Qed.
Lemma ter_0 f : feq d (ter f 0) (del 0 1).
Proof. intros i Hi. unfold ter, fsc. cbn [fpow qfact]. replace (1 / 1)%Qc with (r1 : Qc) by (change (1 = 1 / 1)%Qc; field; discriminate). rewrite from_one. apply mul_1_r. Qed.
Lemma binom f g k : feq d (gpA f g) (gpA g f) -> feq d (fconv (ter f) (ter g) k) (ter (fadd f g) k).
Proof.
  intros C. induction k as [|k IH]; intros i Hi.
  - cbn [fconv]. rewrite (ter_0 _ i Hi), (gp_ext d _ _ _ (del 0 1) _ (ter g 0) i Hi (ter_0 f) (feq_refl _ _)), gp_1_l. apply (ter_0 g i Hi).
  - assert (E : fconv (ter f) (ter g) (SS k) i * from_f (natq (SS k)) = ter (fadd f g) (SS k) i * from_f (natq (SS k))).
    { rewrite fleib by auto. transitivity (fdif (ter (fadd f g)) k i); [|reflexivity]. rewrite (ter_S (fadd f g) k i Hi), gp_add_l.
      rewrite (fconv_ext k _ _ _ _ (ter_S f) (fun j => feq_refl d (ter g j)) i Hi), (fconv_gl f k _ _ i Hi).
      rewrite (fconv_ext k _ _ _ _ (fun j => feq_refl d (ter f j)) (ter_S g) i Hi), (fconv_gr g k _ _ (fun j => ter_comm g f j (feq_sym _ _ _ C)) i Hi).
      f_equal; apply gp_ext; auto using feq_refl. }
    apply (f_equal (fun t => t * from_f (1 / natq (SS k))%Qc)) in E. rewrite <- !mul_assoc, <- from_mul in E.
    replace (rmul (natq (SS k)) (1 / natq (SS k))%Qc) with (r1 : Qc) in E by (change (1 = natq (SS k) * (1 / natq (SS k)))%Qc; field; apply natq_nz). rewrite from_one, !mul_1_r in E. exact E.
Qed.
(** Partial sums and the triangle. *)
Fixpoint fsumto w (K : nat) : N -> T := match K with O => w O | SS k => fadd (fsumto w k) (w (SS k)) end.
Fixpoint ftri u w (K : nat) : N -> T := match K with O => gpA (u O) (w O) | SS k => fadd (gpA (u O) (fsumto w (SS k))) (ftri (fun j => u (SS j)) w k) end.
Lemma ftri_S w K i : forall u, ftri u w (SS K) i = ftri u w K i + fconv u w (SS K) i.
Proof.
  induction K as [|K IH]; intros u; [cbn [ftri fsumto fconv]; unfold fadd at 1; rewrite gp_add_r; unfold fadd; abel|]. set (u' := fun j => u (SS j)).
  change (ftri u w (SS (SS K)) i) with (gpA (u O) (fadd (fsumto w (SS K)) (w (SS (SS K)))) i + ftri u' w (SS K) i). rewrite (IH u'), gp_add_r.
  change (ftri u w (SS K) i) with (gpA (u O) (fsumto w (SS K)) i + ftri u' w K i). change (fconv u w (SS (SS K)) i) with (gpA (u O) (w (SS (SS K))) i + fconv u' w (SS K) i). abel.
Qed.
Lemma sum_ter f K : feq d (fsumto (ter f) K) (tay (F := Qc) A f K).
Proof.
  induction K as [|K IH]; intros i Hi; cbn [fsumto tay]; [apply ter_0; auto|]. unfold fadd. rewrite (IH i Hi), fact_qfact. reflexivity.
Qed.
Lemma ftri_ter f g K : feq d (gpA f g) (gpA g f) -> feq d (ftri (ter f) (ter g) K) (tay (F := Qc) A (fadd f g) K).
Proof.
  intros C. eapply feq_trans; [|apply sum_ter]. induction K as [|K IH]; intros i Hi; [apply (binom f g 0 C i Hi)|].
  rewrite ftri_S. cbn [fsumto]. unfold fadd at 1. rewrite (IH i Hi). f_equal. apply (binom f g (SS K) C i Hi).
Qed.
(** Sizes. *)
Local Open Scope Qc_scope.
Lemma total_ter f k : total d (ter f k) <= ecf (total d f) k.
Proof.
  unfold ecf, Qcdiv. eapply Qcle_trans; [apply total_scale|]. rewrite Qcabs_pos by (unfold Qcdiv; rewrite Qcmult_1_l; apply qinv_pos, qfact_pos).
  unfold Qcdiv. rewrite Qcmult_1_l. apply Qcmult_le_compat_r; [|apply qinv_pos, qfact_pos].
  induction k as [|k IH]; [cbn [fpow Qcpower]; rewrite total_one; apply Qcle_refl|]. cbn [fpow Qcpower]. eapply Qcle_trans; [apply total_mul|]. rewrite Qcmult_comm. apply qmul_le; [apply total_pos|exact IH].
Qed.
Lemma tail_total w (q : nat -> Qc) m K : (forall j, total d (w j) <= q j) -> (m <= K)%nat -> total d (fsub (fsumto w K) (fsumto w m)) <= qsumto q K - qsumto q m.
Proof.
  intros H. induction 1 as [|K HK IH].
  - replace (_ - _) with 0 by ring. unfold total. rewrite sumI_0; [apply Qcle_refl|]. intros i _. unfold fsub. rewrite sub_def, add_neg_r. apply size_0.
  - cbn [fsumto qsumto]. rewrite (total_ext A _ (fadd (fsub (fsumto w K) (fsumto w m)) (w (SS K)))) by (intros i _; unfold fsub, fadd; abel).
    eapply Qcle_trans; [apply total_add|]. replace (qsumto q K + q (SS K) - qsumto q m) with (qsumto q K - qsumto q m + q (SS K)) by ring. apply Qcplus_le_compat; auto.
Qed.
Lemma fsumto_shift u m i : fsumto u (SS m) i = radd (u O i) (fsumto (fun j => u (SS j)) m i).
Proof.
  induction m as [|m IH]; [reflexivity|]. change (radd (fsumto u (SS m) i) (u (SS (SS m)) i) = radd (u O i) (radd (fsumto (fun j => u (SS j)) m i) (u (SS (SS m)) i))). rewrite IH. symmetry. apply add_assoc.
Qed.
Lemma qsumto_shift (u : nat -> Qc) m : qsumto u (SS m) = u O + qsumto (fun j => u (SS j)) m.
Proof. induction m as [|m IH]; [reflexivity|]. change (qsumto u (SS m) + u (SS (SS m)) = u O + (qsumto (fun j => u (SS j)) m + u (SS (SS m)))). rewrite IH. ring. Qed.
Lemma square_tri w (q : nat -> Qc) K m : (forall j, total d (w j) <= q j) -> (m <= K)%nat -> forall u (p : nat -> Qc), (forall j, total d (u j) <= p j) ->
  total d (fsub (gpA (fsumto u m) (fsumto w K)) (ftri u w m)) <= qsumto p m * qsumto q K - qtri p q m.
Proof.
  intros Hw. induction m as [|m IH]; intros HK u p Hu.
  - cbn [fsumto ftri qsumto qtri]. replace (p O * qsumto q K - p O * q O) with (p O * (qsumto q K - qsumto q O)) by (cbn [qsumto]; ring).
    rewrite (total_ext A _ (gpA (u O) (fsub (fsumto w K) (fsumto w O)))) by (intros i _; rewrite gp_sub_r; reflexivity).
    eapply Qcle_trans; [apply total_mul|]. apply qmul_le2; try apply total_pos; auto. apply tail_total; auto.
  - set (u' := fun j => u (SS j)). set (p' := fun j => p (SS j)). rewrite qsumto_shift. fold p'.
    change (qtri p q (SS m)) with (p O * qsumto q (SS m) + qtri p' q m). change (ftri u w (SS m)) with (fadd (gpA (u O) (fsumto w (SS m))) (ftri u' w m)).
    replace (_ - _) with (p O * (qsumto q K - qsumto q (SS m)) + (qsumto p' m * qsumto q K - qtri p' q m)) by ring.
    rewrite (total_ext A _ (fadd (gpA (u O) (fsub (fsumto w K) (fsumto w (SS m)))) (fsub (gpA (fsumto u' m) (fsumto w K)) (ftri u' w m)))).
    2:{ intros i Hi. match goal with |- _ = fadd ?a ?b i => change (fadd a b i) with (radd (a i) (b i)) end. rewrite gp_sub_r. match goal with |- fsub ?a ?b i = _ => change (fsub a b i) with (rsub (a i) (b i)) end.
        match goal with |- _ = radd _ (fsub ?a ?b i) => change (fsub a b i) with (rsub (a i) (b i)) end. match goal with |- rsub _ (fadd ?a ?b i) = _ => change (fadd a b i) with (radd (a i) (b i)) end.
        rewrite (gp_ext d _ _ (fsumto u (SS m)) (fadd (u O) (fsumto u' m)) (fsumto w K) (fsumto w K) i Hi (fun j _ => fsumto_shift u m j) (feq_refl _ _)), gp_add_l. abel. }
    eapply Qcle_trans; [apply total_add|]. apply Qcplus_le_compat; [|apply IH; [lia|intros j; apply Hu]].
    eapply Qcle_trans; [apply total_mul|]. apply qmul_le2; try apply total_pos; auto. apply tail_total; auto.
Qed.
Lemma sums_mul f g K : feq d (gpA f g) (gpA g f) ->
  total d (fsub (gpA (tay (F := Qc) A f K) (tay (F := Qc) A g K)) (tay (F := Qc) A (fadd f g) K)) <= exp_num K (total d f) * exp_num K (total d g) - exp_num K (total d f + total d g).
Proof.
  intros C. rewrite <- qtri_exp, <- !qsum_exp. eapply Qcle_trans; [|apply (square_tri (ter g) (ecf (total d g)) K K (total_ter g) (Nat.le_refl K) (ter f) (ecf (total d f)) (total_ter f))].
  rewrite (total_ext A _ (fsub (gpA (fsumto (ter f) K) (fsumto (ter g) K)) (ftri (ter f) (ter g) K))); [apply Qcle_refl|]. intros i Hi. unfold fsub. f_equal; [|symmetry; apply ftri_ter; auto].
  apply gp_ext; auto; apply feq_sym, sum_ter.
Qed.
(** Products of approximations. *)
Lemma prod_near (a b a' b' : N -> T) g1 g2 E1 E2 : total d a <= g1 -> total d b' <= E2 -> g1 <= E1 -> g2 <= E2 ->
  total d (fsub a a') <= E1 - g1 -> total d (fsub b b') <= E2 - g2 -> total d (fsub (gpA a b) (gpA a' b')) <= E1 * E2 - g1 * g2.
Proof.
  intros Ha Hb H1 H2 Da Db. rewrite (total_ext A _ (fadd (gpA a (fsub b b')) (gpA (fsub a a') b'))).
  2:{ intros i Hi. unfold fadd. rewrite gp_sub_r, gp_sub_l. unfold fsub. abel. }
  eapply Qcle_trans; [apply total_add|]. replace (E1 * E2 - g1 * g2) with (g1 * (E2 - g2) + (E1 - g1) * E2) by ring.
  apply Qcplus_le_compat; (eapply Qcle_trans; [apply total_mul|]); apply qmul_le2; auto; apply total_pos.
Qed.
End Poly.
