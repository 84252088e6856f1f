(** Vectors, orthogonalisation and versors: lemmas behind C24, C29, C31, C32. *)
From Verif Require Export P_Props4.
Local Open Scope nat_scope.

Section Vectors.
Context {T : Type} {RO : RingOps T} {L : RingLaws T} {CL : CommLaws T}.
Add Ring TR : comm_ring_theory.
Variables (d : nat) (Q P : N).
Local Notation gpd := (gp d Q P).
Local Notation wp := (gp d 0 (ones d)).
Local Open Scope rg_scope.

Lemma pop1_land i j : popcount i = 1%nat -> N.land i j <> 0%N -> N.land i j = i.
Proof.
  intros Hi Hne. pose proof (popcount_lxor i (N.land i j)) as Hp.
  replace (N.land i (N.land i j)) with (N.land i j) in Hp by (rewrite N.land_assoc, N.land_diag; auto).
  assert (Hn : popcount (N.land i j) <> 0%nat) by (intros E; apply Hne, popcount_eq0; auto).
  assert (E : popcount (N.lxor i (N.land i j)) = 0%nat) by lia. apply popcount_eq0 in E.
  apply N.lxor_eq in E. auto.
Qed.

Lemma two_wedge v x : homog d 1 v -> feq d (fun k => wp v x k + wp v x k) (fun k => gpd v x k + gpd (alpha x) v k).
Proof.
  intros Hv k Hk. cbv beta. unfold gp. rewrite <- sumI_add.
  rewrite (sumI_lxor d k (fun i => act _ (alpha x i * _))) by auto. rewrite <- sumI_add.
  apply sumI_ext. intros i Hi. rewrite lxor_cancel_r. set (j := N.lxor i k).
  assert (Hj : (j < pow2 d)%N) by (apply lxor_lt; auto).
  destruct (Nat.eq_dec (popcount i) 1%nat) as [E1|E1]; [|rewrite (Hv i) by auto; rewrite !mul_0_l, !mul_0_r, !act_0; reflexivity].
  unfold alpha. rewrite (mul_comm _ (v i)), sgb_mul_r. rewrite <- (wsign_gsign d 0) by auto. unfold wsign, gsign.
  rewrite (N.land_comm j i). rewrite (beta_comm d i j) by auto.
  assert (Ei : par i = true) by (unfold par; rewrite E1; reflexivity). rewrite Ei, andb_true_l.
  destruct (N.eqb_spec (N.land i j) 0) as [E|E].
  - rewrite E, !N.land_0_l, par_0. cbn [N.eqb negb]. rewrite !act_of_bool, sgb_sgb. destruct (beta d i j), (par j); reflexivity.
  - rewrite (pop1_land i j E1 E). cbn [negb act].
    destruct (N.eqb_spec (N.land i P) 0); cbn [negb act]; [|ring].
    rewrite !act_of_bool, sgb_sgb, Ei. destruct (beta d i j), (par j), (par (N.land i Q)); cbn; ring.
Qed.

Definition dotv (v w : N -> T) : T := gpd v w 0%N.

Lemma dotv_comm v w : homog d 1 v -> homog d 1 w -> dotv v w = dotv w v.
Proof.
  intros Hv Hw. unfold dotv, gp. apply sumI_ext. intros i Hi. rewrite N.lxor_0_r.
  rewrite (mul_comm (v i)). reflexivity.
Qed.

Lemma vv_grades v w k : homog d 1 v -> homog d 1 w -> (k < pow2 d)%N -> popcount k <> 0%nat -> popcount k <> 2%nat -> gpd v w k = 0.
Proof.
  intros Hv Hw Hk H0 H2. apply sumI_0. intros i Hi. set (j := N.lxor i k).
  assert (Hj : (j < pow2 d)%N) by (apply lxor_lt; auto).
  destruct (Nat.eq_dec (popcount i) 1%nat) as [E1|E1]; [|rewrite (Hv i) by auto; rewrite mul_0_l, act_0; auto].
  destruct (Nat.eq_dec (popcount j) 1%nat) as [E2|E2]; [|rewrite (Hw j) by auto; rewrite mul_0_r, act_0; auto].
  exfalso. pose proof (popcount_lxor i j) as Hp. assert (E : N.lxor i j = k) by (unfold j; apply lxor_cancel). rewrite E, E1, E2 in Hp.
  destruct (N.eq_dec (N.land i j) 0) as [Z|Z]; [rewrite Z in Hp; change (popcount 0) with 0%nat in Hp; lia|].
  rewrite (pop1_land i j E1 Z), E1 in Hp. lia.
Qed.

Lemma vec_sq v : homog d 1 v -> feq d (gpd v v) (del 0 (dotv v v)).
Proof.
  intros Hv k Hk. unfold del. destruct (N.eqb_spec k 0) as [->|Hne]; [reflexivity|].
  destruct (Nat.eq_dec (popcount k) 0%nat) as [E|E]; [apply popcount_eq0 in E; contradiction|].
  destruct (Nat.eq_dec (popcount k) 2%nat) as [E2|E2]; [|apply vv_grades; auto].
  pose proof (gp_top_grade d Q P 1 1 v v k Hv Hv Hk) as G. rewrite E2 in G. cbn [Nat.add Nat.eqb] in G. rewrite <- G.
  apply wedge_vv; auto.
Qed.

Lemma vec_anti v w : homog d 1 v -> homog d 1 w -> dotv v w = 0 -> feq d (gpd v w) (fneg (gpd w v)).
Proof.
  intros Hv Hw H0 k Hk. unfold fneg. destruct (N.eq_dec k 0) as [->|Hne].
  - change (dotv v w = - dotv w v). rewrite dotv_comm by auto. rewrite (dotv_comm w v), H0 by auto. ring.
  - destruct (Nat.eq_dec (popcount k) 0%nat) as [E|E]; [apply popcount_eq0 in E; contradiction|].
    destruct (Nat.eq_dec (popcount k) 2%nat) as [E2|E2]; [|rewrite !vv_grades by auto; ring].
    pose proof (gp_top_grade d Q P 1 1 v w k Hv Hw Hk) as G1. pose proof (gp_top_grade d Q P 1 1 w v k Hw Hv Hk) as G2.
    rewrite E2 in G1, G2. cbn [Nat.add Nat.eqb] in G1, G2. rewrite <- G1, <- G2. rewrite (wedge_comm d 1 1) by auto. reflexivity.
Qed.

(** Products and wedges of lists of vectors. *)
Fixpoint fprod (ws : list (N -> T)) : N -> T := match ws with [] => del 0 r1 | w :: r => gpd w (fprod r) end.
Fixpoint fwedge (ws : list (N -> T)) : N -> T := match ws with [] => del 0 r1 | w :: r => wp w (fwedge r) end.
Definition vecs (ws : list (N -> T)) : Prop := Forall (homog d 1) ws.
Definition orth (ws : list (N -> T)) : Prop := ForallOrdPairs (fun v w => dotv v w = 0) ws.

Lemma gpd_feq x x' y y' : feq d x x' -> feq d y y' -> feq d (gpd x y) (gpd x' y').
Proof. apply gp_feq. Qed.

Lemma alpha_vec v : homog d 1 v -> feq d (alpha v) (fneg v).
Proof.
  intros Hv i Hi. unfold alpha, fneg. destruct (Nat.eq_dec (popcount i) 1%nat) as [E|E].
  - unfold par. rewrite E. reflexivity.
  - rewrite (Hv i) by auto. rewrite sgb_0. ring.
Qed.

(** v passes through the product of vectors orthogonal to it. *)
Lemma pass_orth v ws : homog d 1 v -> vecs ws -> Forall (fun w => dotv v w = 0) ws ->
  feq d (gpd (alpha (fprod ws)) v) (gpd v (fprod ws)).
Proof.
  intros Hv. induction ws as [|w ws IH]; intros Hws Ho; cbn [fprod].
  - intros k Hk.
    assert (E : feq d (alpha (del 0 r1)) (del 0 (r1 : T))).
    { intros i Hi. unfold alpha, del. destruct (N.eqb_spec i 0) as [->|]; [reflexivity|apply sgb_0]. }
    rewrite (gp_ext d Q P _ _ v v k Hk E (feq_refl _ _)).
    rewrite gp_1_l, gp_1_r by auto. reflexivity.
  - inversion Hws as [|? ? Hw Hws']; subst. inversion Ho as [|? ? H0 Ho']; subst.
    specialize (IH Hws' Ho'). intros k Hk.
    rewrite (gp_ext d Q P _ (gpd (fneg w) (alpha (fprod ws))) v v) by
      (auto using feq_refl; intros i Hi; rewrite alpha_gp by auto; apply gp_ext; auto using alpha_vec, feq_refl).
    rewrite gp_assoc by auto. rewrite gp_neg_l. rewrite (gp_ext d Q P w w _ (gpd v (fprod ws))) by (auto using feq_refl).
    rewrite <- !gp_assoc by auto.
    rewrite (gp_ext d Q P (gpd v w) (fneg (gpd w v)) (fprod ws) (fprod ws)) by (auto using feq_refl, vec_anti).
    rewrite gp_neg_l. reflexivity.
Qed.

Lemma pass_mem w ws : vecs ws -> orth ws -> In w ws ->
  feq d (gpd (alpha (fprod ws)) w) (fneg (gpd w (fprod ws))).
Proof.
  induction ws as [|u ws IH]; intros Hws Ho Hin; [destruct Hin|].
  inversion Hws as [|? ? Hu Hws']; subst. inversion Ho as [|? ? H0 Ho']; subst. cbn [fprod].
  intros k Hk. unfold fneg.
  rewrite (gp_ext d Q P _ (gpd (fneg u) (alpha (fprod ws))) w w) by
      (auto using feq_refl; intros i Hi; rewrite alpha_gp by auto; apply gp_ext; auto using alpha_vec, feq_refl).
  rewrite gp_assoc by auto. rewrite gp_neg_l. destruct Hin as [<-|Hin].
  - f_equal. apply gp_ext; auto using feq_refl. apply pass_orth; auto.
  - assert (Hw : homog d 1 w) by (eapply Forall_forall in Hws'; eauto).
    assert (Huw : dotv u w = 0) by (eapply Forall_forall in H0; eauto).
    rewrite (gp_ext d Q P u u _ (fneg (gpd w (fprod ws)))) by (auto using feq_refl).
    rewrite gp_neg_r. rewrite <- !gp_assoc by auto.
    rewrite (gp_ext d Q P (gpd u w) (fneg (gpd w u)) (fprod ws) (fprod ws)) by (auto using feq_refl, vec_anti).
    rewrite gp_neg_l. ring.
Qed.

Lemma homog_sub r x y : homog d r x -> homog d r y -> homog d r (fsub x y).
Proof. intros Hx Hy i Hi Hr. unfold fsub. rewrite Hx, Hy by auto. ring. Qed.
Lemma homog_scale r x c : homog d r x -> homog d r (fun i => c * x i).
Proof. intros Hx i Hi Hr. rewrite Hx by auto. ring. Qed.

(** *** Orthogonalisation *)
Section GramSchmidt.
Context {DV : DivOps T} {F : FieldLaws T}.
Hypothesis anis : forall v, homog d 1 v -> dotv v v = 0 -> feq d v (fun _ => 0).
Hypothesis two : (1 + 1 : T) <> 0.

Lemma cancel2 (a b : T) : a + a = b + b -> a = b.
Proof.
  intros E. assert (E' : (a - b) * (1 + 1) = 0) by (transitivity (a + a - (b + b)); [ring|rewrite E; ring]).
  apply sub_eq0. rewrite <- (mul_1_r (a - b)). rewrite <- (div_mul 1 (1 + 1)) by auto.
  rewrite (mul_comm (1 / _)), mul_assoc, E'. ring.
Qed.

Lemma project ws : vecs ws -> orth ws -> forall v, homog d 1 v ->
  exists v', homog d 1 v' /\ Forall (fun w => dotv v' w = 0) ws /\
    forall X, (forall w, In w ws -> feq d (wp w X) (fun _ => 0)) -> feq d (wp v' X) (wp v X).
Proof.
  induction ws as [|w ws IH]; intros Hws Ho v Hv.
  - exists v. split; auto. split; [constructor|]. intros X _. apply feq_refl.
  - inversion Hws as [|? ? Hw Hws']; subst. inversion Ho as [|? ? H0 Ho']; subst.
    destruct (IH Hws' Ho' v Hv) as (v1 & Hv1 & O1 & X1).
    destruct (is0_dec (dotv w w)) as [Ez|Enz].
    + pose proof (anis w Hw Ez) as Hz. exists v1. split; auto. split.
      * constructor; auto. unfold dotv. rewrite (gp_ext d Q P v1 v1 w (fun _ => 0) 0%N) by (auto using feq_refl; apply pow2_pos). apply gp_0_r.
      * intros X HX. apply X1. intros; apply HX; right; auto.
    + set (c := dotv v1 w / dotv w w). exists (fsub v1 (fun i => c * w i)). split; [apply homog_sub; auto using homog_scale|]. split.
      * constructor.
        -- unfold dotv. rewrite gp_sub_l, gp_scale_l. fold (dotv v1 w) (dotv w w). unfold c. rewrite div_mul by auto. ring.
        -- rewrite Forall_forall in *. intros u Hu. unfold dotv. rewrite gp_sub_l, gp_scale_l. fold (dotv v1 u) (dotv w u).
           rewrite O1, H0 by auto. ring.
      * intros X HX k Hk. rewrite gp_sub_l, gp_scale_l. rewrite (HX w (or_introl eq_refl) k Hk).
        rewrite X1 by (auto; intros; apply HX; right; auto). ring.
Qed.

Lemma wedge_mem w ws : vecs ws -> orth ws -> In w ws -> feq d (wp w (fprod ws)) (fun _ => 0).
Proof.
  intros Hws Ho Hin k Hk. apply cancel2. assert (Hw : homog d 1 w) by (eapply Forall_forall in Hws; eauto).
  pose proof (two_wedge w (fprod ws) Hw k Hk) as E. cbv beta in E. rewrite E, (pass_mem w ws) by auto. unfold fneg. ring.
Qed.
Lemma wedge_orth v ws : homog d 1 v -> vecs ws -> Forall (fun w => dotv v w = 0) ws -> feq d (wp v (fprod ws)) (gpd v (fprod ws)).
Proof.
  intros Hv Hws Ho k Hk. apply cancel2.
  pose proof (two_wedge v (fprod ws) Hv k Hk) as E. cbv beta in E. rewrite E, (pass_orth v ws) by auto. ring.
Qed.

Lemma gram_schmidt vs : vecs vs -> exists ws, length ws = length vs /\ vecs ws /\ orth ws /\ feq d (fwedge vs) (fprod ws).
Proof.
  induction vs as [|v vs IH]; intros Hvs.
  - exists []. split; auto. split; [constructor|]. split; [constructor|]. apply feq_refl.
  - inversion Hvs as [|? ? Hv Hvs']; subst. destruct (IH Hvs') as (ws & Hl & Hws & Ho & E).
    destruct (project ws Hws Ho v Hv) as (v' & Hv' & O' & X').
    exists (v' :: ws). split; [cbn; lia|]. split; [constructor; auto|]. split; [constructor; auto|].
    cbn [fwedge fprod]. intros k Hk. rewrite (gp_ext d 0 (ones d) v v _ (fprod ws)) by auto using feq_refl.
    rewrite <- X' by (auto; intros; apply wedge_mem; auto). apply wedge_orth; auto.
Qed.
End GramSchmidt.

(** *** Versors *)
Lemma frev_vec v : homog d 1 v -> feq d (frev v) v.
Proof.
  intros Hv i Hi. unfold frev. destruct (Nat.eq_dec (popcount i) 1%nat) as [E|E].
  - rewrite E. reflexivity.
  - rewrite (Hv i) by auto. apply sgb_0.
Qed.

Lemma gp_scalar_l c x k : gpd (del 0 c) x k = c * x k.
Proof. rewrite gp_del_l by apply pow2_pos. rewrite N.lxor_0_l, gsign_0_l. reflexivity. Qed.

Lemma gp_scalar_r c x k : (k < pow2 d)%N -> gpd x (del 0 c) k = x k * c.
Proof. intros Hk. rewrite gp_del_r by (auto; apply pow2_pos). rewrite N.lxor_0_r, gsign_0_r. reflexivity. Qed.

Fixpoint normp (ws : list (N -> T)) : T := match ws with [] => 1 | w :: r => normp r * dotv w w end.

Lemma rev_versor ws : vecs ws -> feq d (gpd (frev (fprod ws)) (fprod ws)) (del 0 (normp ws)).
Proof.
  induction ws as [|w ws IH]; intros Hws; cbn [fprod normp].
  - intros k Hk. rewrite gp_1_r by auto. unfold frev, del. destruct (N.eqb_spec k 0) as [->|]; [reflexivity|apply sgb_0].
  - inversion Hws as [|? ? Hw Hws']; subst. specialize (IH Hws'). intros k Hk.
    rewrite (gp_ext d Q P _ (gpd (frev (fprod ws)) w) _ (gpd w (fprod ws))) by
      (auto using feq_refl; intros i Hi; rewrite frev_gp by auto; apply gp_ext; auto using feq_refl, frev_vec).
    rewrite gp_assoc by auto.
    rewrite (gp_ext d Q P (frev (fprod ws)) (frev (fprod ws)) _ (fun i => dotv w w * fprod ws i)) by
      (auto using feq_refl; intros i Hi; rewrite <- gp_assoc by auto;
       rewrite (gp_ext d Q P _ (del 0 (dotv w w)) _ (fprod ws)) by (auto using feq_refl, vec_sq); apply gp_scalar_l).
    rewrite (gp_ext d Q P (frev (fprod ws)) (frev (fprod ws)) _ (fun i => fprod ws i * dotv w w)) by (auto using feq_refl; intros i Hi; ring).
    rewrite gp_scale_r, IH by auto. unfold del. destruct (k =? 0)%N; ring.
Qed.

Lemma versor_rev ws : vecs ws -> feq d (gpd (fprod ws) (frev (fprod ws))) (del 0 (normp ws)).
Proof.
  induction ws as [|w ws IH]; intros Hws; cbn [fprod normp].
  - intros k Hk. rewrite gp_1_l. unfold frev, del. destruct (N.eqb_spec k 0) as [->|]; [reflexivity|apply sgb_0].
  - inversion Hws as [|? ? Hw Hws']; subst. specialize (IH Hws'). intros k Hk.
    rewrite (gp_ext d Q P _ (gpd w (fprod ws)) _ (gpd (frev (fprod ws)) w)) by
      (auto using feq_refl; intros i Hi; rewrite frev_gp by auto; apply gp_ext; auto using feq_refl, frev_vec).
    rewrite gp_assoc by auto.
    rewrite (gp_ext d Q P w w _ (fun i => normp ws * w i)) by
      (auto using feq_refl; intros i Hi; rewrite <- gp_assoc by auto;
       rewrite (gp_ext d Q P _ (del 0 (normp ws)) _ w) by (auto using feq_refl); apply gp_scalar_l).
    rewrite (gp_ext d Q P w w _ (fun i => w i * normp ws)) by (auto using feq_refl; intros i Hi; ring).
    rewrite gp_scale_r, vec_sq by auto. unfold del. destruct (k =? 0)%N; ring.
Qed.

Lemma homog_wp r s x y : homog d r x -> homog d s y -> homog d (r + s) (wp x y).
Proof.
  intros Hx Hy i Hi Hne. rewrite (gp_top_grade d 0 (ones d) r s) by auto.
  destruct (Nat.eqb_spec (popcount i) (r + s)%nat); [contradiction|reflexivity].
Qed.
Lemma homog_fwedge vs : vecs vs -> homog d (length vs) (fwedge vs).
Proof.
  induction vs as [|v vs IH]; intros Hvs; cbn [fwedge length].
  - intros i Hi Hne. unfold del. destruct (N.eqb_spec i 0) as [->|]; auto. exfalso; apply Hne; reflexivity.
  - inversion Hvs; subst. apply (homog_wp 1); auto.
Qed.
Lemma homog_feq r x y : feq d x y -> homog d r x -> homog d r y.
Proof. intros E Hx i Hi Hne. rewrite <- E by auto. apply Hx; auto. Qed.
End Vectors.
