(** C82 for the API. *)
From Verif Require Export P_Sandwich4.
Local Open Scope nat_scope.

Lemma normp_app {T} {RO : RingOps T} {L : RingLaws T} {CL : CommLaws T} d Q P (vs ws : list (N -> T)) :
  normp d Q P (vs ++ ws) = rmul (normp d Q P vs) (normp d Q P ws).
Proof.
  induction vs as [|v vs IH]; cbn [normp app]; [symmetry; apply mul_1_l|]. rewrite IH, <- !mul_assoc. f_equal. apply mul_comm.
Qed.
Lemma fprod_app {T} {RO : RingOps T} {L : RingLaws T} d Q P (vs ws : list (N -> T)) : feq d (fprod d Q P (vs ++ ws)) (gp d Q P (fprod d Q P vs) (fprod d Q P ws)).
Proof.
  induction vs as [|v vs IH]; cbn [fprod app]; intros k Hk; [rewrite gp_1_l; reflexivity|].
  rewrite gp_assoc by auto. apply gp_ext; auto using feq_refl.
Qed.

Section API.
Context {T : Type} {RO : RingOps T} {L : RingLaws T} {CL : CommLaws T} {DV : DivOps T} {F : FieldLaws T} {m : Mode} {H : HashOrder}.
Variables (k : kind) (sg : list tok) (A : algebra).
Hypothesis D : declared sg A.
Hypothesis S : supports k A.
Local Notation d := (a_dim A).
Local Notation Q := (a_imag A).
Local Notation P := (a_proj A).
Implicit Types x y : store k T.

Lemma versor_facts (vs : list (store k T)) s n : versor A vs s n ->
  valid A s /\ vecs d (map rd vs) /\ feq d (rd s) (fprod d Q P (map rd vs)) /\ n = normp d Q P (map rd vs) /\
  Forall (fun w => dotv d Q P w w <> r0) (map rd vs).
Proof.
  intros (Hv & Hg & Es & En & Hn). assert (HD := supports_dim (T := T) sg A k D S).
  assert (Gs : gives A (prod_list (mv_mul A) A vs) (fprod d Q P (map rd vs))).
  { rewrite <- fold_fprod. apply prod_list_gives; auto. intros. apply (h_mul A sg D); auto. }
  destruct (gives_rd A _ _ s Gs Es) as (Vs & Fs). pose proof (vecs_of k A vs Hg) as Hvs.
  assert (E : n = normp d Q P (map rd vs)).
  { rewrite (v_mag2 A sg D s Vs) in En. injection En as <-. transitivity (gp d Q P (frev (fprod d Q P (map rd vs))) (fprod d Q P (map rd vs)) 0%N).
    - apply gp_ext; auto using pow2_pos. intros j Hj. unfold frev. rewrite Fs; auto.
    - rewrite (rev_versor d Q P _ Hvs 0%N (pow2_pos d)), del_eq. reflexivity. }
  split; [exact Vs|]. split; [exact Hvs|]. split; [exact Fs|]. split; [exact E|]. apply normp_cons. rewrite <- E. exact Hn.
Qed.
Lemma h_sandwich (vs : list (store k T)) s n x g : versor A vs s n -> valid A x -> feq d (rd x) g ->
  gives A (sandwich A s x) (chain d Q P (map rd vs) g).
Proof.
  intros Hs Hx Hg. destruct (versor_facts vs s n Hs) as (Vs & Hvs & Fs & En & Hq). destruct Hs as (_ & _ & _ & Em & Hn).
  pose proof (revm_gives k A s n Vs Em Hn) as Hr. unfold sandwich.
  eapply gives_ext.
  - eapply gives_bind; [exact Hr|]. intros z Hz Hf. eapply gives_bind; [apply (h_mul A sg D s x _ _ Vs Hx (feq_refl _ _) Hg)|]. intros w Hw Hf2.
    apply (h_mul A sg D w z _ _ Hw Hz Hf2 Hf).
  - intros i Hi. rewrite (div_fun_r A) by auto. rewrite gp_assoc by auto.
    rewrite (gp_ext d Q P (rd s) (fprod d Q P (map rd vs)) _ (gp d Q P g (frev (fprod d Q P (map rd vs))))); auto.
    + rewrite (chain_fprod d Q P _ g Hvs Hq i Hi). rewrite <- En. rewrite mul_comm. apply (mul_cancel_r _ _ n Hn). rewrite div_mul by auto. reflexivity.
    + apply gp_feq; auto using feq_refl. intros j Hj. unfold frev. rewrite Fs; auto.
Qed.

Section One.
Hypothesis two : radd (r1 : T) r1 <> r0.
Variables (vs : list (store k T)) (s : store k T) (n : T).
Hypothesis Hs : versor A vs s n.
Local Notation f := (chain d Q P (map rd vs)).

Lemma s_auto : auto d Q P f.
Proof. destruct (versor_facts vs s n Hs) as (_ & Hvs & _ & _ & Hq). apply chain_auto; auto. Qed.
Lemma s_ps : feq d (f (del (ones d) r1)) (del (ones d) (sgb (Nat.even d && Nat.odd (length vs)) r1)).
Proof. destruct (versor_facts vs s n Hs) as (_ & Hvs & _ & _ & Hq). rewrite <- (map_length rd vs). apply chain_ps; auto. Qed.
Local Ltac sw := eapply gives_bind; [|let z := fresh "z" in let Hz := fresh "Hz" in let Hf := fresh "Hf" in intros z Hz Hf].

Lemma c82_grades x g : valid A x ->
  agree A (y <- sandwich A s x ;; mv_grade_extract A y g) (z <- mv_grade_extract A x g ;; sandwich A s z) /\
  (of_grade A g x -> exists y, sandwich A s x = Ok y /\ valid A y /\ of_grade A g y).
Proof.
  intros Hx. split.
  - eapply agree_intro; [sw; [apply (h_sandwich vs s n x _ Hs Hx (feq_refl _ _))|gv D]|sw; [gv D|apply (h_sandwich vs s n z _ Hs Hz Hf)]|].
    apply feq_sym. exact (au_grade d Q P two f s_auto g (rd x)).
  - intros Hg. destruct (h_sandwich vs s n x _ Hs Hx (feq_refl _ _)) as (y & Ey & Vy & Fy). exists y. split; [exact Ey|]. split; [exact Vy|].
    intros i Hi Hne. unfold rd. rewrite Fy by auto. apply (au_homog d Q P two f s_auto g (rd x) Hg i Hi Hne).
Qed.
Lemma c82_products x y : valid A x -> valid A y ->
  agree A (p <- mv_mul A x y ;; sandwich A s p) (a <- sandwich A s x ;; b <- sandwich A s y ;; mv_mul A a b) /\
  agree A (p <- mv_add x y ;; sandwich A s p) (a <- sandwich A s x ;; b <- sandwich A s y ;; mv_add a b) /\
  agree A (e <- mv_one A ;; sandwich A s e) (mv_one A).
Proof.
  intros Hx Hy. assert (HD := valid_of A x Hx).
  assert (Sx := h_sandwich vs s n x _ Hs Hx (feq_refl _ _)). assert (Sy := h_sandwich vs s n y _ Hs Hy (feq_refl _ _)).
  split; [|split].
  - eapply agree_intro; [sw; [gv D|apply (h_sandwich vs s n z _ Hs Hz Hf)]|sw; [exact Sx|sw; [exact Sy|gv D]]|]. apply (au_mul d Q P f s_auto).
  - eapply agree_intro; [sw; [gv D|apply (h_sandwich vs s n z _ Hs Hz Hf)]|sw; [exact Sx|sw; [exact Sy|gv D]]|]. apply (au_add d Q P f s_auto).
  - eapply agree_intro; [sw; [gv D|apply (h_sandwich vs s n z _ Hs Hz Hf)]|gv D|]. apply (au_one d Q P f s_auto).
Qed.
Lemma c82_wedge x y : k <> KQuat -> valid A x -> valid A y ->
  agree A (p <- k_wedge k A x y ;; sandwich A s p) (a <- sandwich A s x ;; b <- sandwich A s y ;; k_wedge k A a b).
Proof.
  intros Hk Hx Hy.
  assert (Sx := h_sandwich vs s n x _ Hs Hx (feq_refl _ _)). assert (Sy := h_sandwich vs s n y _ Hs Hy (feq_refl _ _)).
  eapply agree_intro; [sw; [gv D|apply (h_sandwich vs s n z _ Hs Hz Hf)]|sw; [exact Sx|sw; [exact Sy|gv D]]|]. apply (au_wedge d Q P two f s_auto).
Qed.
Lemma c82_regressive x y : k <> KQuat -> valid A x -> valid A y ->
  agree A (p <- k_meet k A x y ;; sandwich A s p)
    (a <- sandwich A s x ;; b <- sandwich A s y ;; q <- k_meet k A a b ;; if Nat.even d && Nat.odd (length vs) then mv_neg A q else Ok q).
Proof.
  intros Hk Hx Hy.
  assert (Sx := h_sandwich vs s n x _ Hs Hx (feq_refl _ _)). assert (Sy := h_sandwich vs s n y _ Hs Hy (feq_refl _ _)).
  pose proof (au_meet A two Q P f _ s_auto s_ps (rd x) (rd y)) as E. destruct (Nat.even d && Nat.odd (length vs)).
  all: eapply agree_intro; [sw; [gv D|apply (h_sandwich vs s n z _ Hs Hz Hf)]|sw; [exact Sx|sw; [exact Sy|gv D]]|]; exact E.
Qed.
Lemma c82_metric x : valid A x ->
  (y <- sandwich A s x ;; mv_mag2 A y) = mv_mag2 A x /\
  (y <- sandwich A s x ;; mv_scalar_part y) = mv_scalar_part x /\
  agree A (y <- mv_rev A x ;; sandwich A s y) (y <- sandwich A s x ;; mv_rev A y) /\
  agree A (y <- mv_flip A x ;; sandwich A s y) (y <- sandwich A s x ;; mv_flip A y).
Proof.
  intros Hx. assert (Sx := h_sandwich vs s n x _ Hs Hx (feq_refl _ _)). destruct Sx as (y & Ey & Vy & Fy).
  assert (Ry : feq d (rd y) (f (rd x))) by (intros i Hi; unfold rd; rewrite Fy; auto).
  assert (Sx : gives A (sandwich A s x) (f (rd x))) by (exists y; auto).
  split; [|split; [|split]].
  - rewrite Ey. cbn [bind]. rewrite (v_mag2 A sg D y Vy), (v_mag2 A sg D x Hx). f_equal.
    rewrite <- (au_mag2 d Q P two f s_auto (rd x)). apply gp_ext; auto using pow2_pos. intros j Hj. unfold frev. rewrite Ry; auto.
  - rewrite Ey. cbn [bind]. rewrite (v_scalar A y Vy), (v_scalar A x Hx). f_equal. etransitivity; [apply (Ry 0%N (pow2_pos d))|]. apply (au_scal d Q P two f s_auto).
  - eapply agree_intro; [sw; [gv D|apply (h_sandwich vs s n z _ Hs Hz Hf)]|sw; [exact Sx|gv D]|]. apply (au_rev d Q P two f s_auto).
  - eapply agree_intro; [sw; [gv D|apply (h_sandwich vs s n z _ Hs Hz Hf)]|sw; [exact Sx|gv D]|]. apply (au_alpha d Q P two f s_auto).
Qed.
Lemma c82_pseudoscalar :
  agree A (i <- unit_blade A (2 ^ N.of_nat d - 1) ;; sandwich A s i)
    (i <- unit_blade A (2 ^ N.of_nat d - 1) ;; if Nat.even d && Nat.odd (length vs) then mv_neg A i else Ok i).
Proof.
  assert (HD := supports_dim (T := T) sg A k D S).
  assert (Eo : (2 ^ N.of_nat d - 1)%N = ones d) by (unfold ones; rewrite N.ones_equiv; unfold pow2; rewrite N.sub_1_r; reflexivity).
  rewrite Eo. pose proof (unit_blade_gives k A (ones d) HD (ones_lt d)) as U. pose proof s_ps as E.
  destruct (Nat.even d && Nat.odd (length vs)).
  all: eapply agree_intro; [sw; [exact U|apply (h_sandwich vs s n z _ Hs Hz Hf)]|sw; [exact U|gv D]|].
  all: intros i Hi; rewrite E by auto; unfold fneg, del; destruct (i =? ones d)%N; cbn [sgb]; auto; symmetry; apply neg_0.
Qed.
End One.

Lemma c82_reflection (v w : store k T) n : valid A v -> of_grade A 1 v -> valid A w -> of_grade A 1 w -> mv_mag2 A v = Ok n -> n <> r0 ->
  agree A (sandwich A v v) (Ok v) /\
  (agree A (mv_mul A v w) (p <- mv_mul A w v ;; mv_neg A p) -> radd (r1 : T) r1 <> r0 -> agree A (sandwich A v w) (mv_neg A w)).
Proof.
  intros Hv Gv Hw Gw En Hn.
  assert (En' : dotv d Q P (rd v) (rd v) = n).
  { rewrite (v_mag2 A sg D v Hv) in En. injection En as <-. apply gp_ext; auto using pow2_pos, feq_refl. apply feq_sym, frev_vec. exact Gv. }
  assert (Hc : rmul (rdiv r1 n) (dotv d Q P (rd v) (rd v)) = r1) by (rewrite En'; apply div_mul; auto).
  assert (G : forall x, valid A x -> gives A (sandwich A v x) (psi d Q P (rd v) (rdiv r1 n) (rd x))).
  { intros x Hx. unfold sandwich. eapply gives_ext.
    - eapply gives_bind; [apply (revm_gives k A v n Hv En Hn)|]. intros z Hz Hf.
      eapply gives_bind; [apply (h_mul A sg D v x _ _ Hv Hx (feq_refl _ _) (feq_refl _ _))|]. intros z2 Hz2 Hf2. apply (h_mul A sg D z2 z _ _ Hz2 Hz Hf2 Hf).
    - intros i Hi. rewrite (div_fun_r A) by auto. rewrite div_as_mul by auto. rewrite mul_comm. unfold psi. f_equal. rewrite gp_assoc by auto.
      apply gp_ext; auto using feq_refl. apply gp_feq; auto using feq_refl. apply frev_vec. exact Gv. }
  split.
  - eapply agree_intro; [apply G; auto|gv D|]. apply psi_self; auto.
  - intros Ho two. eapply agree_intro; [apply G; auto|gv D|]. apply psi_orth; auto. unfold dotv.
    assert (G1 : gives A (mv_mul A v w) (gp d Q P (rd v) (rd w))) by gv D.
    assert (G2 : gives A (p <- mv_mul A w v ;; mv_neg A p) (fneg (gp d Q P (rd w) (rd v)))) by gv D.
    destruct Ho as (z1 & z2 & E1 & E2 & _ & _ & _ & Ez).
    destruct (gives_rd A _ _ z1 G1 E1) as (_ & F1). destruct (gives_rd A _ _ z2 G2 E2) as (_ & F2).
    assert (E5 : gp d Q P (rd v) (rd w) 0%N = rneg (gp d Q P (rd w) (rd v) 0%N)) by (rewrite <- (F1 0%N (pow2_pos d)), Ez by apply pow2_pos; apply (F2 0%N (pow2_pos d))).
    apply (cancel2 two). rewrite add_0_r. rewrite E5 at 1. fold (dotv d Q P (rd w) (rd v)). rewrite dotv_comm by auto.
    unfold dotv. rewrite add_comm. apply add_neg_r.
Qed.

Lemma c82_compose (vs ws : list (store k T)) s t (n n' : T) x : versor A vs s n -> versor A ws t n' -> valid A x ->
  exists p, mv_mul A s t = Ok p /\ mv_mag2 A p = Ok (rmul n n') /\
  agree A (sandwich A p x) (y <- sandwich A t x ;; sandwich A s y).
Proof.
  intros Hs Ht Hx. destruct (versor_facts vs s n Hs) as (Vs & Hvs & Fs & En & Hq). destruct (versor_facts ws t n' Ht) as (Vt & Hwt & Ft & En' & Hq').
  assert (Hn : n <> r0) by apply Hs. assert (Hn' : n' <> r0) by apply Ht.
  destruct (h_mul A sg D s t _ _ Vs Vt Fs Ft) as (p & Ep & Vp & Fp). exists p. split; [exact Ep|].
  assert (Rp : feq d (rd p) (fprod d Q P (map rd vs ++ map rd ws))) by (intros i Hi; unfold rd; rewrite Fp, fprod_app by auto; reflexivity).
  assert (Hv2 : vecs d (map rd vs ++ map rd ws)) by (apply Forall_app; auto).
  assert (Em : mv_mag2 A p = Ok (rmul n n')).
  { rewrite (v_mag2 A sg D p Vp). f_equal. transitivity (gp d Q P (frev (fprod d Q P (map rd vs ++ map rd ws))) (fprod d Q P (map rd vs ++ map rd ws)) 0%N).
    - apply gp_ext; auto using pow2_pos. intros j Hj. unfold frev. rewrite Rp; auto.
    - rewrite (rev_versor d Q P _ Hv2 0%N (pow2_pos d)), del_eq, normp_app, <- En, <- En'. reflexivity. }
  split; [exact Em|].
  assert (Hnn : rmul n n' <> r0) by (intros E; apply Hn; apply (mul_cancel_r _ _ n' Hn'); rewrite E, mul_0_l; reflexivity).
  eapply agree_intro.
  - unfold sandwich. eapply gives_bind; [apply (revm_gives k A p _ Vp Em Hnn)|]. intros z Hz Hf.
    eapply gives_bind; [apply (h_mul A sg D p x _ _ Vp Hx (feq_refl _ _) (feq_refl _ _))|]. intros z2 Hz2 Hf2. apply (h_mul A sg D z2 z _ _ Hz2 Hz Hf2 Hf).
  - eapply gives_bind; [apply (h_sandwich ws t n' x _ Ht Hx (feq_refl _ _))|]. intros y Hy Hf. apply (h_sandwich vs s n y _ Hs Hy Hf).
  - intros i Hi. rewrite (div_fun_r A) by auto. rewrite gp_assoc by auto. rewrite <- chain_app by auto.
    rewrite (gp_ext d Q P (rd p) (fprod d Q P (map rd vs ++ map rd ws)) _ (gp d Q P (rd x) (frev (fprod d Q P (map rd vs ++ map rd ws))))); auto.
    + rewrite (chain_fprod d Q P _ (rd x) Hv2) by (auto; apply Forall_app; auto). rewrite normp_app, <- En, <- En'.
      rewrite mul_comm. apply (mul_cancel_r _ _ _ Hnn). rewrite div_mul by auto. reflexivity.
    + apply gp_feq; auto using feq_refl. intros j Hj. unfold frev. rewrite Rp; auto.
Qed.
End API.
