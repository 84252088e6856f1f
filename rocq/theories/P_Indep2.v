(** C85 for the API. *)
From Verif Require Export P_Indep Spec_Indep.
Local Open Scope nat_scope.

Section API.
Context {T : Type} {RO : RingOps T} {L : RingLaws T} {CL : CommLaws T} {DV : DivOps T} {FL : FieldLaws T} {m : Mode} {H : HashOrder}.
Add Ring TrI2 : comm_ring_theory.
Variables (k : kind) (sg : list tok) (A : algebra).
Hypothesis D : declared sg A.
Hypothesis Hs : supports k A.
Hypothesis Hk : k <> KQuat.
Hypothesis two : radd (r1 : T) r1 <> r0.
Local Notation Sk := (store k T).
Local Notation d := (a_dim A).
Implicit Types vs : list Sk.

Lemma lin_gives vs : Forall (valid A) vs -> forall cs, gives A (lin A cs vs) (flin cs (map rd vs)).
Proof.
  assert (HD := supports_dim (T := T) sg A k D Hs). induction 1 as [|v vs Hv _ IH]; intros [|c cs]; cbn [lin map flin]; try (apply g_default; auto).
  eapply gives_bind; [apply IH|]. intros r Hr Fr. eapply gives_bind; [apply (h_scale A v c (rd v) Hv (feq_refl _ _))|]. intros s Hs' Fs.
  eapply gives_ext; [apply (h_add A s r _ _ Hs' Hr Fs Fr)|]. intros i Hi. unfold fadd. ring.
Qed.
Lemma zero_iff (x : Sk) f : valid A x -> (forall i, (i < pow2 d)%N -> mv_get_by_idx x i = Ok (f i)) -> (mv_is_zero x = true <-> feq d f (fun _ => r0)).
Proof.
  intros Hx Fx. rewrite (is_zero_thm k A x Hx). split; intros E i Hi.
  - specialize (E i Hi). rewrite Fx in E by auto. injection E as E. exact E.
  - rewrite Fx, E by auto. reflexivity.
Qed.
Lemma wedges_give vs : Forall (valid A) vs -> gives A (prod_list (k_wedge k A) A vs) (fwedge d (map rd vs)).
Proof.
  intros Hv. assert (HD := supports_dim (T := T) sg A k D Hs). rewrite <- fold_fwedge. apply prod_list_gives; auto. intros. apply (h_kwedge A sg D); auto.
Qed.
Lemma c85_dependent vs : Forall (valid A) vs -> Forall (of_grade A 1) vs ->
  exists w, prod_list (k_wedge k A) A vs = Ok w /\
    (mv_is_zero w = true <-> exists cs z, length cs = length vs /\ nonzero cs /\ lin A cs vs = Ok z /\ mv_is_zero z = true).
Proof.
  intros Hv Hg. destruct (wedges_give vs Hv) as (w & Ew & Vw & Fw). exists w. split; [exact Ew|]. pose proof (vecs_of k A vs Hg) as Hvs.
  rewrite (zero_iff w _ Vw Fw), (wedge_dep A two _ Hvs). rewrite map_length. split.
  - intros (cs & Hl & Hn & E). destruct (lin_gives vs Hv cs) as (z & Ez & Vz & Fz). exists cs, z. repeat split; auto. apply (zero_iff z _ Vz Fz). exact E.
  - intros (cs & z & Hl & Hn & Ez & Hz). exists cs. repeat split; auto. destruct (lin_gives vs Hv cs) as (z' & Ez' & Vz & Fz). rewrite Ez in Ez'. injection Ez' as <-. apply (zero_iff z _ Vz Fz). exact Hz.
Qed.
Lemma eq_iff (x y : Sk) f g : valid A x -> valid A y -> (forall i, (i < pow2 d)%N -> mv_get_by_idx x i = Ok (f i)) -> (forall i, (i < pow2 d)%N -> mv_get_by_idx y i = Ok (g i)) ->
  (mv_eqb x y = true <-> feq d f g).
Proof.
  intros Hx Hy Fx Fy. rewrite (eq_thm k A x y Hx Hy). split; intros E i Hi.
  - specialize (E i Hi). rewrite Fx, Fy in E by auto. injection E as E. exact E.
  - rewrite Fx, Fy, E by auto. reflexivity.
Qed.
Lemma c85_span vs w u : Forall (valid A) vs -> Forall (of_grade A 1) vs -> prod_list (k_wedge k A) A vs = Ok w -> mv_is_zero w = false -> valid A u -> of_grade A 1 u ->
  exists z, k_wedge k A u w = Ok z /\ (mv_is_zero z = true <-> exists cs v, length cs = length vs /\ lin A cs vs = Ok v /\ mv_eqb u v = true).
Proof.
  intros Hv Hg Ew Hw Hu Gu. pose proof (vecs_of k A vs Hg) as Hvs. pose proof (vecs_of k A [u] (Forall_cons _ Gu (Forall_nil _))) as Hu'. apply Forall_inv in Hu'.
  destruct (wedges_give vs Hv) as (w' & Ew' & Vw & Fw). rewrite Ew in Ew'. injection Ew' as <-.
  assert (Fw' : feq d (rd w) (fwedge d (map rd vs))) by (intros i Hi; unfold rd; rewrite Fw; auto).
  destruct (h_kwedge A sg D k u w (rd u) _ Hk Hu Vw (feq_refl _ _) Fw') as (z & Ez & Vz & Fz). exists z. split; [exact Ez|].
  destruct (gives_Ok A u Hu) as (u0 & Eu0 & _ & Fu). injection Eu0 as <-.
  rewrite (zero_iff z _ Vz Fz). split.
  - intros Z. destruct (wedge_span A two (rd u) (map rd vs) Hu' Hvs Z) as (cs & Hl & E).
    + destruct (dec_zero A (fwedge d (map rd vs))) as [X|X]; auto. exfalso. apply (zero_iff w _ Vw Fw) in X. rewrite X in Hw. discriminate.
    + rewrite map_length in Hl. destruct (lin_gives vs Hv cs) as (v & Ev & Vv & Fv). exists cs, v. split; auto. split; auto. apply (eq_iff u v _ _ Hu Vv Fu Fv). exact E.
  - intros (cs & v & Hl & Ev & E). destruct (lin_gives vs Hv cs) as (v' & Ev' & Vv & Fv). rewrite Ev in Ev'. injection Ev' as <-. apply (span_wedge A (rd u) (map rd vs) cs); auto. apply (eq_iff u v _ _ Hu Vv Fu Fv). exact E.
Qed.
Lemma grade_zero (x : Sk) r : valid A x -> of_grade A r x -> d < r -> mv_is_zero x = true.
Proof.
  intros Hx Hg Hr. destruct (gives_Ok A x Hx) as (y & Ey & _ & Fy). injection Ey as <-. apply (zero_iff x _ Hx Fy). intros i Hi. apply Hg; auto. pose proof (popcount_le d i Hi). lia.
Qed.
Lemma c85_basis vs w u : Forall (valid A) vs -> Forall (of_grade A 1) vs -> length vs = d -> prod_list (k_wedge k A) A vs = Ok w -> mv_is_zero w = false -> valid A u -> of_grade A 1 u ->
  exists cs v, length cs = length vs /\ lin A cs vs = Ok v /\ mv_eqb u v = true.
Proof.
  intros Hv Hg Hl Ew Hw Hu Gu. destruct (c85_span vs w u Hv Hg Ew Hw Hu Gu) as (z & Ez & E). apply E. pose proof (vecs_of k A vs Hg) as Hvs.
  destruct (wedges_give (u :: vs) (Forall_cons _ Hu Hv)) as (z' & Ez' & Vz & Fz). cbn [prod_list] in Ez'. rewrite Ew in Ez'. cbn [bind] in Ez'. rewrite Ez in Ez'. injection Ez' as <-.
  apply (zero_iff z _ Vz Fz). intros i Hi. pose proof (vecs_of k A (u :: vs) (Forall_cons _ Gu Hg)) as Hvs'. apply (homog_fwedge d _ Hvs'); auto. cbn [map length]. rewrite map_length. pose proof (popcount_le d i Hi). lia.
Qed.
End API.
