(** Lemmas behind C24, C29, C31, C32. *)
From Verif Require Export P_Versor.
Local Open Scope nat_scope.

Section FieldFacts.
Context {T : Type} {RO : RingOps T} {W : NumLaws T} {L : RingLaws T} {CL : CommLaws T} {DV : DivOps T} {F : FieldLaws T}.
Local Open Scope rg_scope.
Add Ring TR2 : comm_ring_theory.

Lemma mul_cancel_r a b n : n <> 0 -> a * n = b * n -> a = b.
Proof.
  intros Hn E. rewrite <- (mul_1_r a), <- (mul_1_r b), <- (div_mul 1 n Hn), (mul_comm (1 / n)), !mul_assoc, E. reflexivity.
Qed.
Lemma div_as_mul a n : n <> 0 -> a / n = a * (1 / n).
Proof. intros Hn. apply (mul_cancel_r _ _ n Hn). rewrite <- mul_assoc, !div_mul by auto. ring. Qed.
Lemma div_0 n : n <> 0 -> 0 / n = 0.
Proof. intros Hn. rewrite div_as_mul by auto. ring. Qed.
Lemma div_same n : n <> 0 -> n / n = 1.
Proof. intros Hn. apply (mul_cancel_r _ _ n Hn). rewrite div_mul by auto. ring. Qed.
Lemma fr_two : formally_real T -> (1 + 1 : T) <> 0.
Proof.
  intros Hf E. assert (Hx : suml (fun a : T => a * a) [1; 1] = 0) by (cbn [suml]; rewrite !mul_1_l, add_0_r; exact E).
  specialize (Hf _ Hx). inversion Hf as [|? ? H1]; subst. apply one_neq_zero. exact H1.
Qed.
End FieldFacts.

(** *** The dual as a product with the pseudoscalar *)
Section DualF.
Context {T : Type} {RO : RingOps T} {W : NumLaws T} {L : RingLaws T} {CL : CommLaws T}.
Add Ring TR3 : comm_ring_theory.
Variable A : algebra.
Local Notation d := (a_dim A).
Variable Q : N.
Hypothesis HQ : Q = 0%N \/ Q = ones d.
Local Notation gpd := (gp d Q 0).

Lemma ps_dual (x : N -> T) k : (k < pow2 d)%N ->
  gpd (del (ones d) r1) (frev x) k = sgb (par (N.land (cpl A k) Q)) (fdual A x k).
Proof.
  intros Hk. rewrite gp_del_l by apply ones_lt. rewrite mul_1_l, <- cpl_lxor' by auto.
  unfold gsign. rewrite N.land_0_r. cbn [N.eqb negb]. rewrite act_of_bool. unfold frev, fdual. rewrite !sgb_sgb. f_equal.
  rewrite (N.land_comm (ones d)), land_ones_lt by apply cpl_lt.
  rewrite <- (cpl_lxor A (cpl A k)) at 1 by apply cpl_lt. rewrite cpl_invol by auto.
  rewrite beta_lxor_l, beta_self by apply cpl_lt.
  destruct (beta d k (cpl A k)), (rbit (popcount (cpl A k))), (par (N.land (cpl A k) Q)); reflexivity.
Qed.
Lemma ps_undual (x : N -> T) k : (k < pow2 d)%N ->
  gpd (frev x) (del (ones d) r1) k = sgb (par (N.land (cpl A k) Q)) (fundual A x k).
Proof.
  intros Hk. rewrite gp_del_r by (auto; apply ones_lt). rewrite mul_1_r, N.lxor_comm, <- cpl_lxor' by auto.
  unfold gsign. rewrite N.land_0_r. cbn [N.eqb negb]. rewrite act_of_bool. unfold frev, fundual. rewrite !sgb_sgb. f_equal.
  rewrite land_ones_lt by apply cpl_lt.
  rewrite <- (cpl_lxor A (cpl A k)) at 1 by apply cpl_lt. rewrite cpl_invol by auto.
  rewrite beta_lxor_r, beta_self by apply cpl_lt.
  destruct (beta d (cpl A k) k), (rbit (popcount (cpl A k))), (par (N.land (cpl A k) Q)); reflexivity.
Qed.

Lemma homog_parQ r (b : N -> T) : homog d r b -> forall k, (k < pow2 d)%N ->
  sgb (par (N.land (cpl A k) Q)) (b (cpl A k)) = sgb (if N.eqb Q 0 then false else Nat.odd r) (b (cpl A k)).
Proof.
  intros Hb k Hk. destruct (Nat.eq_dec (popcount (cpl A k)) r) as [E|E].
  - destruct HQ as [-> | ->].
    + rewrite N.land_0_r. reflexivity.
    + rewrite land_ones_lt by apply cpl_lt. destruct (N.eqb_spec (ones d) 0) as [E0|E0].
      * unfold par. assert (Hc := cpl_lt A k). assert (cpl A k = 0%N) as ->; [|reflexivity].
        rewrite <- (land_ones_lt (cpl A k) d Hc), E0. apply N.land_0_r.
      * unfold par. rewrite E. reflexivity.
  - rewrite Hb by (auto; apply cpl_lt). rewrite !sgb_0. reflexivity.
Qed.

Lemma dual_blade r (b : N -> T) c : homog d r b -> feq d (gpd (frev b) b) (del 0 c) ->
  feq d (gpd (fdual A b) b) (del (ones d) (sgb (if N.eqb Q 0 then false else Nat.odd r) c)).
Proof.
  intros Hb Hc k Hk. set (s := if N.eqb Q 0 then false else Nat.odd r).
  assert (E : feq d (fdual A b) (fun i => rmul (sgb s r1) (gpd (del (ones d) r1) (frev b) i))).
  { intros i Hi. rewrite ps_dual by auto. rewrite sgb_mul_l, mul_1_l. unfold fdual.
    pose proof (homog_parQ r b Hb i Hi) as G. fold s in G. revert G.
    generalize (par (N.land (cpl A i) Q)), (beta d i (cpl A i)), (b (cpl A i)). clear - L.
    intros p t v G. destruct p, s, t; cbn in *; rewrite ?neg_neg; congruence. }
  rewrite (gp_ext d Q 0 _ _ b b k Hk E (feq_refl _ _)). rewrite gp_scale_l, gp_assoc by auto.
  rewrite (gp_ext d Q 0 _ _ _ _ k Hk (feq_refl _ _) Hc). rewrite gp_scalar_r by auto. unfold del.
  destruct (k =? ones d)%N; rewrite sgb_mul_l, !mul_1_l; [reflexivity|rewrite mul_0_l; apply sgb_0].
Qed.
End DualF.

Section DualU.
Context {T : Type} {RO : RingOps T} {W : NumLaws T} {L : RingLaws T} {CL : CommLaws T}.
Variable A : algebra.
Local Notation d := (a_dim A).
Variable Q : N.
Hypothesis HQ : Q = 0%N \/ Q = ones d.
Local Notation gpd := (gp d Q 0).

Lemma undual_blade r (b : N -> T) c : homog d r b -> feq d (gpd b (frev b)) (del 0 c) ->
  feq d (gpd b (fundual A b)) (del (ones d) (sgb (if N.eqb Q 0 then false else Nat.odd r) c)).
Proof.
  intros Hb Hc k Hk. set (s := if N.eqb Q 0 then false else Nat.odd r).
  assert (E : feq d (fundual A b) (fun i => rmul (gpd (frev b) (del (ones d) r1) i) (sgb s r1))).
  { intros i Hi. rewrite ps_undual by auto. rewrite sgb_mul_r, mul_1_r. unfold fundual.
    pose proof (homog_parQ A Q HQ r b Hb i Hi) as G. fold s in G. revert G.
    generalize (par (N.land (cpl A i) Q)), (beta d (cpl A i) i), (b (cpl A i)). clear - L.
    intros p t v G. destruct p, s, t; cbn in *; rewrite ?neg_neg; congruence. }
  rewrite (gp_ext d Q 0 b b _ _ k Hk (feq_refl _ _) E). rewrite gp_scale_r, <- gp_assoc by auto.
  rewrite (gp_ext d Q 0 _ _ _ _ k Hk Hc (feq_refl _ _)). rewrite gp_scalar_l by auto. unfold del.
  destruct (k =? ones d)%N; rewrite sgb_mul_r, !mul_1_r; [reflexivity|rewrite mul_0_r; apply sgb_0].
Qed.

(** Anisotropy of definite signatures over formally real fields. *)
Lemma definite_dot (v : N -> T) : homog d 1 v ->
  dotv d Q 0 v v = sgb (negb (N.eqb Q 0)) (sumI d (fun i => rmul (v i) (v i))).
Proof.
  intros Hv. unfold dotv, gp. rewrite <- sumI_sgb. apply sumI_ext. intros i Hi. rewrite N.lxor_0_r.
  destruct (Nat.eq_dec (popcount i) 1) as [E|E]; [|rewrite (Hv i) by auto; rewrite mul_0_l, act_0, sgb_0; reflexivity].
  unfold gsign. rewrite N.land_0_r, N.land_diag. cbn [N.eqb negb]. rewrite beta_self by auto. rewrite act_of_bool. f_equal.
  rewrite E. change (rbit 1) with false. cbn [xorb]. destruct HQ as [-> | ->].
  - rewrite N.land_0_r. reflexivity.
  - rewrite land_ones_lt by auto. unfold par. rewrite E. destruct (N.eqb_spec (ones d) 0) as [E0|E0]; [|reflexivity].
    exfalso. rewrite <- (land_ones_lt i d Hi), E0, N.land_0_r in E. discriminate.
Qed.
Lemma definite_anis (v : N -> T) : formally_real T -> homog d 1 v -> dotv d Q 0 v v = r0 -> feq d v (fun _ => r0).
Proof.
  intros Hf Hv E. rewrite definite_dot in E by auto. apply sgb_eq0 in E.
  assert (E' : suml (fun a => rmul a a) (map v (idxs d)) = r0) by (rewrite suml_map; exact E).
  apply Hf in E'. rewrite Forall_map, Forall_forall in E'. intros i Hi. apply E'. apply in_idxs; auto.
Qed.
End DualU.

Lemma popcount_full d k : (k < pow2 d)%N -> popcount k = d -> k = ones d.
Proof.
  intros Hk E. pose proof (popcount_lxor k (ones d)) as Hp. rewrite land_ones_lt, popcount_ones, E in Hp by auto.
  assert (Z : popcount (N.lxor k (ones d)) = 0) by lia. apply popcount_eq0 in Z. apply N.lxor_eq; auto.
Qed.
Lemma pop_le d k : (k < pow2 d)%N -> popcount k <= d.
Proof. apply popcount_le. Qed.

Section Grassmann.
Context {T : Type} {RO : RingOps T} {W : NumLaws T} {L : RingLaws T}.
Variable A : algebra.
Local Notation d := (a_dim A).

Lemma homog_fdual r (b : N -> T) : r <= d -> homog d r b -> homog d (d - r) (fdual A b) /\ homog d (d - r) (fundual A b).
Proof.
  intros Hr Hb. split; intros i Hi Hne; unfold fdual, fundual; rewrite Hb; try apply sgb_0; try apply cpl_lt;
    pose proof (pop_le d i Hi); rewrite popcount_cpl by auto; lia.
Qed.
Lemma grassmann_dual r (b : N -> T) k : homog d r b -> (k < pow2 d)%N -> k <> ones d ->
  gp d 0 (ones d) (fdual A b) b k = r0 /\ gp d 0 (ones d) b (fundual A b) k = r0.
Proof.
  intros Hb Hk Hne. destruct (Nat.le_gt_cases r d) as [Hr|Hr].
  - destruct (homog_fdual r b Hr Hb) as (H1 & H2).
    assert (Hp : popcount k <> d) by (intros E; apply Hne, popcount_full; auto).
    split; [rewrite (gp_top_grade d 0 (ones d) (d - r) r) by auto | rewrite (gp_top_grade d 0 (ones d) r (d - r)) by auto];
      match goal with |- (if Nat.eqb ?a ?b then _ else _) = _ => destruct (Nat.eqb_spec a b); [lia|reflexivity] end.
  - assert (Z : feq d b (fun _ => r0)) by (intros i Hi; apply Hb; auto; pose proof (pop_le d i Hi); lia).
    rewrite (gp_ext d 0 (ones d) _ (fdual A b) b (fun _ => r0) k Hk (feq_refl _ _) Z).
    rewrite (gp_ext d 0 (ones d) b (fun _ => r0) (fundual A b) _ k Hk Z (feq_refl _ _)).
    rewrite gp_0_l, gp_0_r. auto.
Qed.
End Grassmann.

Lemma uniform_masks {m : Mode} t n A : declared (repeat t n) A ->
  match t with
  | Tplus => a_imag A = 0%N /\ a_proj A = 0%N
  | Tminus => a_imag A = ones (a_dim A) /\ a_proj A = 0%N
  | Tnull => a_imag A = 0%N /\ a_proj A = ones (a_dim A)
  end.
Proof.
  intros [[names E] Hl]. apply masks_thm in E. destruct E as (Ed & Hb & _). rewrite repeat_length in Ed.
  assert (Hr : forall i u, nth_error (repeat t n) i = Some u <-> i < n /\ u = t).
  { intros i u. split.
    - intros Hu. assert (Hi : i < length (repeat t n)) by (apply nth_error_Some; congruence). rewrite repeat_length in Hi. split; auto.
      apply nth_error_In in Hu. apply repeat_spec in Hu. auto.
    - intros [Hi ->]. rewrite (nth_error_nth' _ t) by (rewrite repeat_length; auto). f_equal. apply nth_repeat. }
  assert (G0 : forall M u, u <> t -> (forall i, N.testbit M (N.of_nat i) = true <-> nth_error (repeat t n) i = Some u) -> M = 0%N).
  { intros M u Hu HM. apply N_bits_nat. intros i. rewrite N.bits_0. apply not_true_iff_false. rewrite HM, Hr. intros [_ ?]; auto. }
  assert (G1 : forall M, (forall i, N.testbit M (N.of_nat i) = true <-> nth_error (repeat t n) i = Some t) -> M = ones (a_dim A)).
  { intros M HM. apply N_bits_nat. intros i. rewrite testbit_ones, Ed. apply eq_true_iff_eq. rewrite HM, Hr, N.ltb_lt. split; [intros [? _]; lia|intros; split; auto; lia]. }
  destruct t; split; first [apply G1; intros i; apply Hb | eapply G0; [|intros i; apply Hb]; discriminate].
Qed.

Section C24.
Context {T : Type} {RO : RingOps T} {W : NumLaws T} {L : RingLaws T} {m : Mode} {H : HashOrder}.
Variables (k : kind) (sg : list tok) (A : algebra).
Hypothesis D : declared sg A.
Local Notation d := (a_dim A).
Implicit Types vs : list (store k T).

Lemma pseudo_of (r : res (store k T)) f : gives A r f -> (forall i, (i < pow2 d)%N -> i <> ones d -> f i = r0) -> pseudoscalar A r.
Proof.
  intros (z & E & Hz & Hf) Hp. exists z. split; auto. split; auto. intros i Hi Hne. unfold rd. rewrite Hf by auto. apply Hp; auto.
  rewrite ones_pow2. exact Hne.
Qed.

Lemma prod_list_gives (op : store k T -> store k T -> res (store k T)) (Q P : N) vs :
  st_dim_ok (StorageLaws := KLaws (T := T) k) d ->
  (forall x y f g, valid A x -> valid A y -> feq d (rd x) f -> feq d (rd y) g -> gives A (op x y) (gp d Q P f g)) ->
  Forall (valid A) vs ->
  gives A (prod_list op A vs) (fold_right (fun v p => gp d Q P (rd v) p) (del 0 r1) vs).
Proof.
  intros HD Hm. induction vs as [|v vs IH]; intros Hvs; cbn [prod_list fold_right]; [apply g_one; auto|].
  inversion Hvs; subst. eapply gives_bind; [apply IH; auto|]. intros p Hp Hf. apply Hm; auto using feq_refl.
Qed.
Lemma vecs_of vs : Forall (of_grade A 1) vs -> vecs d (map rd vs).
Proof. intros Hv. unfold vecs. rewrite Forall_map. eapply Forall_impl; [|exact Hv]. intros v Hg. exact Hg. Qed.
End C24.

Section C24b.
Context {T : Type} {RO : RingOps T} {W : NumLaws T} {L : RingLaws T} {CL : CommLaws T} {m : Mode} {H : HashOrder}.

Lemma fold_fprod {S} (rd' : S -> N -> T) d Q P vs :
  fold_right (fun v p => gp d Q P (rd' v) p) (del 0 r1) vs = fprod d Q P (map rd' vs).
Proof. induction vs as [|v vs IH]; cbn [fold_right map fprod fwedge]; [reflexivity|]. rewrite IH. reflexivity. Qed.
Lemma fold_fwedge {S} (rd' : S -> N -> T) d vs :
  fold_right (fun v p => gp d 0 (ones d) (rd' v) p) (del 0 r1) vs = fwedge d (map rd' vs).
Proof. induction vs as [|v vs IH]; cbn [fold_right map fprod fwedge]; [reflexivity|]. rewrite IH. reflexivity. Qed.

Lemma dual_uniform_thm {DV : DivOps T} {F : FieldLaws T} (k : kind) t n A (vs : list (store k T)) :
  formally_real T -> declared (repeat t n) A -> k <> KQuat -> Forall (valid A) vs -> Forall (of_grade A 1) vs ->
  pseudoscalar A (b <- prod_list (k_wedge k A) A vs ;; u <- mv_dual A b ;; mv_mul A u b) /\
  pseudoscalar A (b <- prod_list (k_wedge k A) A vs ;; u <- mv_undual A b ;; mv_mul A b u).
Proof.
  intros Hf D Hk Hv Hg. set (d := a_dim A).
  assert (HD : st_dim_ok (StorageLaws := KLaws (T := T) k) d) by (destruct k; [apply (ok_dim A (declared_ok _ _ D))|apply (ok_dim A (declared_ok _ _ D))|congruence]).
  assert (Hb : gives A (prod_list (k_wedge k A) A vs) (fwedge d (map rd vs))).
  { rewrite <- fold_fwedge. apply prod_list_gives; auto. intros. apply (h_kwedge A _ D); auto. }
  pose proof (vecs_of k A vs Hg) as Hvs. fold d in Hvs.
  pose proof (homog_fwedge d (map rd vs) Hvs) as Hh. set (b := fwedge d (map rd vs)) in *.
  assert (G1 : gives A (b <- prod_list (k_wedge k A) A vs ;; u <- mv_dual A b ;; mv_mul A u b) (gp d (a_imag A) (a_proj A) (fdual A b) b)).
  { eapply gives_bind; [exact Hb|]. intros z Hz Hzf. gv D. }
  assert (G2 : gives A (b <- prod_list (k_wedge k A) A vs ;; u <- mv_undual A b ;; mv_mul A b u) (gp d (a_imag A) (a_proj A) b (fundual A b))).
  { eapply gives_bind; [exact Hb|]. intros z Hz Hzf. gv D. }
  assert (GQ : forall Q, Q = 0%N \/ Q = ones d -> exists c,
     feq d (gp d Q 0 (fdual A b) b) (del (ones d) c) /\ feq d (gp d Q 0 b (fundual A b)) (del (ones d) c)).
  { intros Q HQ. destruct (gram_schmidt d Q 0 (fun v => definite_anis A Q HQ v Hf) (fr_two Hf) (map rd vs) Hvs) as (ws & Hl & Hws & Ho & E).
    assert (R1 : feq d (gp d Q 0 (frev b) b) (del 0 (normp d Q 0 ws))).
    { intros i Hi. rewrite <- (rev_versor d Q 0 ws Hws i Hi). apply gp_ext; auto. intros j Hj. unfold frev. rewrite E; auto. }
    assert (R2 : feq d (gp d Q 0 b (frev b)) (del 0 (normp d Q 0 ws))).
    { intros i Hi. rewrite <- (versor_rev d Q 0 ws Hws i Hi). apply gp_ext; auto. intros j Hj. unfold frev. rewrite E; auto. }
    eexists. split; [apply (dual_blade A Q HQ _ b _ Hh R1)|apply (undual_blade A Q HQ _ b _ Hh R2)]. }
  pose proof (uniform_masks t n A D) as HM. destruct t; destruct HM as [EQ EP]; rewrite EQ, EP in *.
  - destruct (GQ 0%N (or_introl eq_refl)) as (c & C1 & C2).
    split; [eapply (pseudo_of k A _ _ G1)|eapply (pseudo_of k A _ _ G2)]; intros i Hi Hne; rewrite ?C1, ?C2 by auto; apply del_neq; auto.
  - destruct (GQ (ones d) (or_intror eq_refl)) as (c & C1 & C2).
    split; [eapply (pseudo_of k A _ _ G1)|eapply (pseudo_of k A _ _ G2)]; intros i Hi Hne; rewrite ?C1, ?C2 by auto; apply del_neq; auto.
  - split; [eapply (pseudo_of k A _ _ G1)|eapply (pseudo_of k A _ _ G2)]; intros i Hi Hne; eapply grassmann_dual; eauto.
Qed.
End C24b.

(** A single basis blade, any signature. *)
Lemma dual_basis_thm {T} {RO : RingOps T} {W : NumLaws T} {L : RingLaws T} {m : Mode} {H : HashOrder} (k : kind) sg A I (x : store k T) :
  declared sg A -> (I < pow2 (a_dim A))%N -> valid A x -> (forall i, (i < pow2 (a_dim A))%N -> i <> I -> rd x i = r0) ->
  pseudoscalar A (u <- mv_dual A x ;; mv_mul A u x) /\ pseudoscalar A (u <- mv_undual A x ;; mv_mul A x u).
Proof.
  intros D HI Hx Hs. set (d := a_dim A) in *.
  assert (Hf : feq d (rd x) (del I (rd x I))).
  { intros i Hi. unfold del. destruct (N.eqb_spec i I) as [->|]; auto. }
  assert (F1 : feq d (fdual A (del I (rd x I))) (del (cpl A I) (sgb (beta d (cpl A I) I) (rd x I)))).
  { intros i Hi. unfold fdual, del. destruct (N.eqb_spec (cpl A i) I) as [<-|Hn].
    - rewrite cpl_invol, N.eqb_refl by auto. reflexivity.
    - destruct (N.eqb_spec i (cpl A I)) as [->|]; [rewrite cpl_invol in Hn by auto; congruence|apply sgb_0]. }
  assert (F2 : feq d (fundual A (del I (rd x I))) (del (cpl A I) (sgb (beta d I (cpl A I)) (rd x I)))).
  { intros i Hi. unfold fundual, del. destruct (N.eqb_spec (cpl A i) I) as [<-|Hn].
    - rewrite cpl_invol, N.eqb_refl by auto. reflexivity.
    - destruct (N.eqb_spec i (cpl A I)) as [->|]; [rewrite cpl_invol in Hn by auto; congruence|apply sgb_0]. }
  split; (eapply (pseudo_of k A); [gv D|]); intros i Hi Hne.
  - rewrite (gp_ext _ _ _ _ _ _ _ i Hi F1 (feq_refl _ _)). rewrite gp_del_del by apply cpl_lt.
    rewrite cpl_lxor by auto. apply del_neq; auto.
  - rewrite (gp_ext _ _ _ _ _ _ _ i Hi (feq_refl _ _) F2). rewrite gp_del_del by auto.
    rewrite N.lxor_comm, cpl_lxor by auto. apply del_neq; auto.
Qed.

(** Two generators with different squares. *)
Lemma dual_mixed_thm {m : Mode} sg A i j : declared sg A -> i < a_dim A -> j < a_dim A -> sq sg i <> sq sg j ->
  exists b : arr Z, valid A b /\ of_grade A 1 b /\ ~ pseudoscalar A (u <- mv_dual A b ;; mv_mul A u b).
Proof.
  intros D Hi Hj Hne. set (d := a_dim A) in *. assert (HD : d < 64) by apply (ok_dim A (declared_ok _ _ D)).
  set (I := pow2 i). set (J := pow2 j).
  assert (HI : (I < pow2 d)%N) by (apply pow2_lt; auto). assert (HJ : (J < pow2 d)%N) by (apply pow2_lt; auto).
  assert (Hij : i <> j) by congruence.
  assert (HIJ : N.land I J = 0%N).
  { unfold I. rewrite land_pow2_bit. unfold J. rewrite testbit_pow2. destruct (N.eqb_spec (N.of_nat i) (N.of_nat j)); [lia|reflexivity]. }
  assert (Gb : gives A (z <- mv_zero A ;; Ok (mv_set_by_idx (mv_set_by_idx z I 1%Z) J 1%Z) : res (arr Z))
     (fun l => if (l =? J)%N then 1%Z else if (l =? I)%N then 1%Z else 0%Z)).
  { eapply gives_bind; [apply (g_default (SL := ArrLaws) A HD)|]. intros z Hz Hzf.
    destruct (g_set A z I 1%Z Hz HI) as (z1 & E1 & V1 & F1). injection E1 as <-.
    eapply gives_ext; [apply g_set; auto|]. intros l Hl. cbv beta. unfold rd at 1. rewrite F1 by auto.
    rewrite Hzf by auto. reflexivity. }
  destruct Gb as (b & Eb & Vb & Fb). exists b. split; auto.
  assert (Fr : feq d (rd b) (fadd (del I 1%Z) (del J 1%Z))).
  { intros l Hl. unfold rd. rewrite Fb by auto. unfold fadd, del.
    destruct (N.eqb_spec l I) as [E1|E1], (N.eqb_spec l J) as [E2|E2]; try reflexivity.
    exfalso. assert (E : I = J) by congruence. rewrite E, N.land_diag in HIJ. unfold J in HIJ. pose proof (pow2_pos j). lia. }
  split.
  { intros l Hl Hp. rewrite Fr by auto. unfold fadd, del.
    destruct (N.eqb_spec l I) as [->|]; [exfalso; apply Hp; apply popcount_pow2|].
    destruct (N.eqb_spec l J) as [->|]; [exfalso; apply Hp; apply popcount_pow2|]. reflexivity. }
  assert (G : gives A (u <- mv_dual A b ;; mv_mul A u b) (gp d (a_imag A) (a_proj A) (fdual A (fadd (del I 1%Z) (del J 1%Z))) (fadd (del I 1%Z) (del J 1%Z)))) by gv D.
  intros (z & Ez & Vz & Pz). destruct G as (z' & Ez' & _ & Fz). rewrite Ez in Ez'. injection Ez' as <-.
  set (K := N.lxor (ones d) (N.lxor I J)).
  assert (HK : (K < pow2 d)%N) by (apply lxor_lt; [apply ones_lt|apply lxor_lt; auto]).
  assert (HKne : K <> ones d).
  { unfold K. intros E. assert (X : N.lxor I J = 0%N) by (rewrite <- (lxor_cancel (ones d) (N.lxor I J)), E; apply N.lxor_nilpotent).
    apply N.lxor_eq in X. rewrite X, N.land_diag in HIJ. unfold J in HIJ. pose proof (pow2_pos j). lia. }
  specialize (Pz K HK). assert (HK2 := HKne). rewrite ones_pow2 in HK2. specialize (Pz HK2). unfold rd in Pz. rewrite Fz in Pz by auto. clear Fz Ez Vz z.
  assert (F1 : feq d (fdual A (fadd (del I 1%Z) (del J 1%Z)))
     (fadd (del (cpl A I) (sgb (beta d (cpl A I) I) 1%Z)) (del (cpl A J) (sgb (beta d (cpl A J) J) 1%Z)))).
  { intros l Hl. unfold fdual, fadd, del. rewrite sgb_add. f_equal.
    - destruct (N.eqb_spec (cpl A l) I) as [<-|Hn].
      + rewrite cpl_invol, N.eqb_refl by auto. reflexivity.
      + destruct (N.eqb_spec l (cpl A I)) as [->|]; [rewrite cpl_invol in Hn by auto; congruence|apply sgb_0].
    - destruct (N.eqb_spec (cpl A l) J) as [<-|Hn].
      + rewrite cpl_invol, N.eqb_refl by auto. reflexivity.
      + destruct (N.eqb_spec l (cpl A J)) as [->|]; [rewrite cpl_invol in Hn by auto; congruence|apply sgb_0]. }
  rewrite (gp_ext d _ _ _ _ _ _ K HK F1 (feq_refl _ _)) in Pz. clear F1.
  rewrite gp_add_l, !gp_add_r, !gp_del_del in Pz by apply cpl_lt.
  rewrite !cpl_lxor in Pz by auto.
  assert (E1 : N.lxor (cpl A I) J = K) by (rewrite cpl_lxor' by auto; unfold K; rewrite N.lxor_assoc; reflexivity).
  assert (E2 : N.lxor (cpl A J) I = K) by (rewrite cpl_lxor' by auto; unfold K; rewrite N.lxor_assoc, (N.lxor_comm J); reflexivity).
  rewrite E1, E2, !del_eq, !(del_neq K (ones d)) in Pz by auto.
  change (1%Z) with (r1 : Z) in Pz. rewrite !mul_1_r in Pz. rewrite <- !zact_sign in Pz.
  assert (EI : cpl A I = N.lxor K J) by (rewrite <- E1, lxor_cancel_r; reflexivity).
  assert (EJ : cpl A J = N.lxor K I) by (rewrite <- E2, lxor_cancel_r; reflexivity).
  assert (HM := declared_metric _ _ D). fold d in HM.
  assert (S1 : zsign d (a_imag A) (a_proj A) (cpl A I) J = (sq sg j * sign_i8 (of_bool (beta d (cpl A I) J)))%Z).
  { unfold zsign, gsign. 
    assert (EL : N.land (cpl A I) J = J).
    { rewrite cpl_lxor' by auto. apply N.bits_inj. intros l. rewrite N.land_spec, N.lxor_spec, testbit_ones. fold d.
      unfold I, J. rewrite !testbit_pow2. destruct (N.eqb_spec l (N.of_nat j)) as [->|]; [|apply andb_false_r].
      destruct (N.ltb_spec (N.of_nat j) (N.of_nat d)); [|lia]. destruct (N.eqb_spec (N.of_nat j) (N.of_nat i)); [lia|reflexivity]. }
    rewrite EL. unfold J. rewrite !land_pow2_bit. rewrite (HM j Hj).
    destruct (N.testbit (a_proj A) (N.of_nat j)).
    - destruct (N.eqb_spec (pow2 j) 0); [pose proof (pow2_pos j); lia|]. reflexivity.
    - cbn [N.eqb negb]. destruct (N.testbit (a_imag A) (N.of_nat j)); rewrite ?par_pow2, ?par_0; destruct (beta d (cpl A I) (pow2 j)); reflexivity. }
  assert (S2 : zsign d (a_imag A) (a_proj A) (cpl A J) I = (sq sg i * sign_i8 (of_bool (beta d (cpl A J) I)))%Z).
  { unfold zsign, gsign. 
    assert (EL : N.land (cpl A J) I = I).
    { rewrite cpl_lxor' by auto. apply N.bits_inj. intros l. rewrite N.land_spec, N.lxor_spec, testbit_ones. fold d.
      unfold I, J. rewrite !testbit_pow2. destruct (N.eqb_spec l (N.of_nat i)) as [->|]; [|apply andb_false_r].
      destruct (N.ltb_spec (N.of_nat i) (N.of_nat d)); [|lia]. destruct (N.eqb_spec (N.of_nat i) (N.of_nat j)); [lia|reflexivity]. }
    rewrite EL. unfold I. rewrite !land_pow2_bit. rewrite (HM i Hi).
    destruct (N.testbit (a_proj A) (N.of_nat i)).
    - destruct (N.eqb_spec (pow2 i) 0); [pose proof (pow2_pos i); lia|]. reflexivity.
    - cbn [N.eqb negb]. destruct (N.testbit (a_imag A) (N.of_nat i)); rewrite ?par_pow2, ?par_0; destruct (beta d (cpl A J) (pow2 i)); reflexivity. }
  change (sign_i8 (gsign d (a_imag A) (a_proj A) (cpl A I) J)) with (zsign d (a_imag A) (a_proj A) (cpl A I) J) in Pz.
  change (sign_i8 (gsign d (a_imag A) (a_proj A) (cpl A J) I)) with (zsign d (a_imag A) (a_proj A) (cpl A J) I) in Pz.
  rewrite S1, S2, EI, EJ, !beta_lxor_l in Pz. 
  assert (BJJ : beta d J J = false) by (rewrite beta_self by auto; unfold J; rewrite popcount_pow2; reflexivity).
  assert (BII : beta d I I = false) by (rewrite beta_self by auto; unfold I; rewrite popcount_pow2; reflexivity).
  rewrite BJJ, BII, !xorb_false_r in Pz.
  pose proof (beta_comm d I J HI HJ) as BC. rewrite HIJ, par_0, xorb_false_r in BC. unfold I, J in BC. rewrite !par_pow2 in BC. fold I J in BC.
  rewrite BC in Pz. clear - Pz Hne.
  assert (Ui : unitz (sq sg i)) by apply sq_unit. assert (Uj : unitz (sq sg j)) by apply sq_unit.
  revert Pz Hne Ui Uj. generalize (sq sg i), (sq sg j), (beta d K I), (beta d K J), (beta d I J).
  intros qi qj b1 b2 b3 Pz Hne [-> | [-> | -> ]] [-> | [-> | -> ]]; try congruence; destruct b1, b2, b3; cbn in Pz; discriminate Pz.
Qed.
