(** Properties C30 (FFTRepr), C38 (onto), C45. *)
From Verif Require Export P_ReprRing.
Local Open Scope nat_scope.

Section Shapes.
Context {F : Type} {RF : RingOps F} {LF : RingLaws F} {md : Mode}.
Variables (sg : list tok) (A : algebra).
Hypothesis D : declared sg A.
Hypothesis Hl : length sg < 63.
Let HS := declared_nn sg A D.
Let Ed := declared_dim _ _ D.
Let Hn := std_nn A _ HS.

Lemma proj_shift : shr (a_proj A) (N.of_nat (nonnull sg)) = Ok (ones (length sg - nonnull sg)).
Proof.
  unfold shr. destruct (N.ltb_spec (N.of_nat (nonnull sg)) 64); [|lia]. f_equal. apply N.bits_inj. intros k. rewrite N.shiftr_spec', (std_p A _ HS), N.ldiff_spec, !testbit_ones.
  destruct (N.ltb_spec (k + N.of_nat (nonnull sg)) (N.of_nat (a_dim A))), (N.ltb_spec (k + N.of_nat (nonnull sg)) (N.of_nat (nonnull sg))), (N.ltb_spec k (N.of_nat (length sg - nonnull sg))); cbn [negb andb]; auto; lia.
Qed.
Lemma from_array3_eq (a : fftrepr F) : fr_from_array3 A a =
  if (N.eqb (N.of_nat (length (t_mats a))) (N.of_nat (mats_of sg)) && N.eqb (N.of_nat (t_nr a)) (N.of_nat (side_of sg)) && N.eqb (N.of_nat (t_nc a)) (N.of_nat (side_of sg)))%bool then Ok a else Err InvalidShape.
Proof.
  unfold fr_from_array3. rewrite (pop_ri sg A D), proj_shift. cbv zeta. rewrite Nat.div_mul by lia. fold (half (nonnull sg)). assert (half (nonnull sg) <= 32) by (unfold half; apply Nat.div_le_upper_bound; lia).
  rewrite shl_1 by lia. cbn [bind]. rewrite ones_add1. unfold mats_of, side_of. fold (half (nonnull sg)). rewrite !of_nat_pow2. reflexivity.
Qed.
Lemma c45_accept (a : fftrepr F) : fr_shape a = (mats_of sg, side_of sg, side_of sg) -> fr_from_array3 A a = Ok a.
Proof. intros E. injection E as E1 E2 E3. rewrite from_array3_eq, E1, E2, E3, !N.eqb_refl. reflexivity. Qed.
Lemma c45_reject (a : fftrepr F) : fr_shape a <> (mats_of sg, side_of sg, side_of sg) -> fr_from_array3 A a = Err InvalidShape.
Proof.
  intros E. rewrite from_array3_eq. destruct (N.eqb_spec (N.of_nat (length (t_mats a))) (N.of_nat (mats_of sg))) as [E1|]; cbn [andb]; auto.
  destruct (N.eqb_spec (N.of_nat (t_nr a)) (N.of_nat (side_of sg))) as [E2|]; cbn [andb]; auto. destruct (N.eqb_spec (N.of_nat (t_nc a)) (N.of_nat (side_of sg))) as [E3|]; auto.
  exfalso. apply E. unfold fr_shape, a3_dim. apply Nat2N.inj in E1, E2, E3. rewrite E1, E2, E3. reflexivity.
Qed.
Lemma mats_1 : mats_of sg = 1 <-> nonnull sg = length sg.
Proof.
  unfold mats_of. split; intros E; [|rewrite E, Nat.sub_diag; reflexivity]. destruct (length sg - nonnull sg) as [|j] eqn:Ej; [lia|]. cbn in E. pose proof (P_CliFFT.pow_pos j). lia.
Qed.
Lemma c45_accept2 (a : mat (cplx F)) : nonnull sg = length sg -> m_nr a = side_of sg -> m_nc a = side_of sg ->
  exists r, fr_from_array2 A a = Ok r /\ fr_into_array2 r = Ok a.
Proof.
  intros E0 E1 E2. unfold fr_from_array2. rewrite c45_accept; [|unfold fr_shape, a3_dim; cbn [t_mats t_nr t_nc length]; rewrite E1, E2, (proj2 mats_1 E0); reflexivity]. eexists. split; reflexivity.
Qed.
Lemma c45_reject2 (a : mat (cplx F)) : nonnull sg <> length sg \/ (m_nr a, m_nc a) <> (side_of sg, side_of sg) -> fr_from_array2 A a = Err InvalidShape.
Proof.
  intros H. apply c45_reject. intros E. injection E as E1 E2 E3. symmetry in E1. apply mats_1 in E1. destruct H as [H|H]; [congruence|]. apply H. congruence.
Qed.
Lemma c45_into2 (r : fftrepr F) : repr_shape sg r -> nonnull sg = length sg -> exists a, fr_into_array2 r = Ok a /\ m_nr a = side_of sg /\ m_nc a = side_of sg /\ fr_from_array2 A a = Ok r.
Proof.
  intros (H1 & H2) E0. injection H2 as E1 E2 E3. rewrite (proj2 mats_1 E0) in E1. destruct r as [nr nc [|a [|? ?]]]; cbn in E1, E2, E3; try discriminate.
  inversion H1 as [|? ? (R & C & _) _]; subst. cbn [t_nr t_nc] in *. exists a. split; [reflexivity|]. split; [exact R|]. split; [exact C|]. unfold fr_from_array2. rewrite R, C. apply c45_accept. unfold fr_shape, a3_dim. cbn. rewrite (proj2 mats_1 E0). reflexivity.
Qed.
End Shapes.

Section Kept.
Context {F : Type} {RF : RingOps F} {LF : RingLaws F} {CF : CommLaws F} {DV : DivOps F} {FL : FieldLaws F} {FRl : FormallyReal F} {md : Mode}.
Local Notation C := (cplx F).
Variables (sg : list tok) (A : algebra).
Hypothesis D : declared sg A.
Hypothesis Hl : length sg < 63.
Let n := nonnull sg.
Let s := a_dim A - n.
Lemma rev_arep a X : arep (half n) s a X -> exists z Y, fr_rev A a = Ok z /\ arep (half n) s z Y.
Proof.
  intros (R & C' & La & Ha). unfold fr_rev. rewrite (fr_zero_eq sg A D Hl). cbn [bind]. fold n. fold s.
  change (t_mats (a3_zeros (2 ^ s) (2 ^ half n) (2 ^ half n))) with (repeat (m_zeros (T := C) (2 ^ half n) (2 ^ half n)) (2 ^ s)).
  destruct (foldM_ind (fun i l => length l = 2 ^ s /\ forall w, w < 2 ^ s -> exists Z, mrep (half n) (nth w l (m_zeros 0 0)) Z)
    (fun l im => view <- nthr l (N.to_nat (fst im)) ;; r <- unwrap (reversal (snd im)) ;; view <- m_assign view r ;; updr l (N.to_nat (fst im)) (rev_fix (fst im) view))
    (0%N, m_zeros 0 0) (enumerate (t_mats a)) (repeat (m_zeros (T := C) (2 ^ half n) (2 ^ half n)) (2 ^ s))) as (l & -> & Ll & Hl').
  - destruct (arep_zeros (T := C) (half n) s) as (_ & _ & Z1 & Z2). split; [exact Z1|]. intros w Hw. eexists. apply Z2; auto.
  - intros i l Hi (Ll & Hw). rewrite length_enumerate, La in Hi. rewrite (nth_enumerate _ _ (m_zeros 0 0)) by (rewrite La; exact Hi). cbn [fst snd]. rewrite Nat2N.id.
    rewrite (nthr_nth l i (m_zeros 0 0)) by lia. cbn [bind]. destruct (reversal_ok (half n) _ _ (Ha i Hi)) as (M' & -> & HM'). cbn [unwrap bind].
    destruct (Hw i Hi) as (Z & RZ & CZ & _). unfold m_assign. pose proof HM' as (RM & CM & _). rewrite RZ, CZ, RM, CM, !Nat.eqb_refl. cbn [andb bind].
    unfold updr. rewrite Ll. destruct (Nat.ltb_spec i (2 ^ s)); [|lia]. eexists. split; [reflexivity|]. split; [rewrite length_upd; auto|].
    intros w Hww. rewrite nth_upd, Ll. destruct (Nat.ltb_spec i (2 ^ s)); [|lia]. rewrite Bool.andb_true_r. destruct (Nat.eqb_spec i w) as [<-|Hne]; [|apply Hw; auto].
    eexists. apply (rev_fix_ok sg A D Hl). exact HM'.
  - cbn [bind]. assert (HA : a3_ok (mkA3 (t_nr (a3_zeros (T := C) (2 ^ s) (2 ^ half n) (2 ^ half n))) (t_nc (a3_zeros (T := C) (2 ^ s) (2 ^ half n) (2 ^ half n))) l)).
    { apply Forall_forall. intros M HM. apply (In_nth _ _ (m_zeros 0 0)) in HM as (w & Hw & <-). cbn [t_mats] in Hw |- *. rewrite Ll in Hw. destruct (Hl' w Hw) as (Z & R1 & R2 & R3 & _). split; [exact R1|]. split; [exact R2|exact R3]. }
    destruct (a3_ok_arep (half n) s _ HA) as (Y & HY); [unfold a3_dim; cbn [t_mats t_nr t_nc]; rewrite Ll; reflexivity|]. eexists. exists Y. split; [reflexivity|exact HY].
Qed.
Lemma c45_kept (a b : fftrepr F) (c : C) (f : F) k : repr_shape sg a -> repr_shape sg b ->
  (exists z, fr_mul a b = Ok z /\ repr_shape sg z) /\ (exists z, fr_add a b = Ok z /\ repr_shape sg z) /\
  (exists z, fr_sub a b = Ok z /\ repr_shape sg z) /\ (exists z, fr_pow A a k = Ok z /\ repr_shape sg z) /\
  (exists z, fr_rev A a = Ok z /\ repr_shape sg z) /\
  repr_shape sg (fr_neg a) /\ repr_shape sg (fr_flip a) /\ repr_shape sg (fr_scale a c) /\
  repr_shape sg (fr_scale_r a f) /\ repr_shape sg (fr_div a c) /\ repr_shape sg (fr_div_r a f).
Proof.
  intros Ha Hb. destruct (shape_rep sg A D Hl a Ha) as (x & Hx). split; [apply (t_mul_shape sg A D Hl); auto|]. split; [apply (t_add_shape sg A D Hl); auto|].
  assert (M : forall g, repr_shape sg (a3_map (T := C) g a)) by (intros g; apply (rep_shape sg A D _ _ (a3_map_ok _ _ g _ _ Hx))).
  split.
  { destruct (t_sub sg A D Hl a b Ha Hb) as (z & E & E'). exists z. split; auto. destruct (t_add_shape sg A D Hl a (fr_neg b) Ha) as (z' & E2 & Hz').
    - destruct (shape_rep sg A D Hl b Hb) as (y & Hy). apply (rep_shape sg A D _ _ (a3_map_ok _ _ rneg _ _ Hy)).
    - rewrite E' in E2. injection E2 as ->. auto. }
  split.
  { destruct (t_pow sg A D Hl a k 0 Ha) as ((z & E & E') & _). exists z. split; auto. clear E. revert z E'. induction k as [|k IH]; intros z E'.
    - cbn in E'. destruct (t_one sg A D Hl a Ha) as (o & Eo & Ho & _). rewrite Eo in E'. injection E' as <-. auto.
    - change (Nat.iter (S k) (fun r => u <- r ;; fr_mul u a) (fr_one A)) with (u <- Nat.iter k (fun r => u <- r ;; fr_mul u a) (fr_one A) ;; fr_mul u a) in E'.
      destruct (Nat.iter k (fun r => u <- r ;; fr_mul u a) (fr_one A)) as [u|e|] eqn:Eu; cbn [bind] in E'; try discriminate. specialize (IH u eq_refl).
      destruct (t_mul_shape sg A D Hl u a IH Ha) as (q & Eq & Hq). rewrite E' in Eq. injection Eq as ->. exact Hq. }
  split; [destruct (rev_arep _ _ Hx) as (z & Y & E & HY); exists z; split; auto; apply (rep_shape sg A D _ _ HY)|].
  split; [apply M|]. split; [|repeat split; try apply M].
  destruct Hx as (R & K & W). eapply (rep_shape sg A D). split; [|split]; cbn [fr_flip t_nr t_nc t_mats]; [exact R|exact K|]. apply a3_alpha_ok. exact W.
Qed.
Lemma t_is_zero (a : fftrepr F) : repr_shape sg a -> (fr_is_zero a = true <-> fr_zero A = Ok a).
Proof.
  intros Ha. rewrite (fr_zero_eq sg A D Hl). fold n s. unfold fr_is_zero. rewrite forallb_forall. destruct Ha as (H1 & H2). injection H2 as E1 E2 E3. unfold mats_of, side_of in *. rewrite <- (declared_dim _ _ D) in E1. fold n in E1, E2, E3. fold s in E1. fold (half n) in E2, E3. split.
  - intros H. f_equal. destruct a as [nr nc l]. cbn [t_mats t_nr t_nc] in *. unfold a3_zeros. subst nr nc. f_equal. rewrite <- E1. unfold a3_ok in H1. cbn [t_mats t_nr t_nc] in H1. clear E1.
    induction l as [|M l IH]; [reflexivity|]. cbn [length repeat]. inversion H1 as [|? ? (R & K & K') H1']; subst. f_equal; [|apply IH; auto; intros x Hx; apply H; cbn [flat_map]; apply in_or_app; auto].
    destruct M as [r k dt]. cbn [m_nr m_nc m_data] in *. unfold m_zeros. subst r k. f_equal. rewrite <- K'. assert (Z : forall x, In x dt -> x = r0) by (intros x Hx; apply is0_spec, H; cbn [flat_map]; apply in_or_app; left; exact Hx).
    cbn [m_data]. clear - Z. induction dt as [|x dt IH]; [reflexivity|]. cbn [length repeat m_data]. rewrite (Z x (or_introl eq_refl)). f_equal. apply IH. intros y Hy. apply Z. right. exact Hy.
  - intros E. injection E as <-. intros x Hx. cbn [a3_zeros t_mats] in Hx. apply in_flat_map in Hx as (M & HM & Hx). apply repeat_spec in HM. subst M. cbn [m_zeros m_data] in Hx. apply repeat_spec in Hx. subst x. apply is0_r0.
Qed.
End Kept.

Section Pow.
Context {T F : Type} {RT : RingOps T} {LT : RingLaws T} {RF : RingOps F} {LF : RingLaws F} {CF : CommLaws F} {DV : DivOps F} {FL : FieldLaws F} {FRl : FormallyReal F}
  {IC : IntoCplx T F} {FC : FromCplx T F} {CV : ConvLaws T F} {md : Mode} {HO : HashOrder}.
Local Notation MV := (store KDense T).
Variables (sg : list tok) (A : algebra).
Hypothesis D : declared sg A.
Hypothesis Hl : length sg < 63.
Local Notation d := (a_dim A).
Lemma c30_fft (x : MV) k : valid A x -> both_ok (X <- mv_fft (F := F) A (x : arr T) ;; fr_pow A X k) (z <- mv_pow A x k ;; mv_fft A (z : arr T)).
Proof.
  intros Hx. destruct (fft_gives sg A D Hl x _ Hx (fun i _ => eq_refl)) as (X & E & HX). rewrite E. cbn [bind].
  destruct (c38_total sg A D Hl x Hx) as (X' & E' & HS). rewrite E in E'. injection E' as <-.
  destruct (t_pow sg A D Hl X k 0 HS) as ((p & -> & Ep) & _). exists p. split; auto.
  destruct (fft_r sg A D Hl _ _ (g_pow A sg D x k Hx)) as (R & ER & HR). rewrite ER. f_equal.
  assert (G : exists z, Nat.iter k (fun r => u <- r ;; fr_mul u X) (fr_one A) = Ok z /\ repr_of sg A z (cfun A (fpow A (rd x) k))).
  { clear - HX D Hl LF LT CV. induction k as [|k IH].
    - destruct (repr_one (F := F) sg A D Hl) as (o & Eo & Ho). exists o. split; [exact Eo|]. eapply (repr_ext sg A D Hl); [exact Ho|]. intros i Hi. cbn [fpow]. rewrite cfun_at. unfold del.
      destruct (N.eqb_spec i 0) as [->|]; [|rewrite (into_0 (T := T) (F := F)), mul_0_l; auto]. cbn [N.land]. rewrite popcount_0, (ph_0 ipn ipn_phase), into_one, mul_1_l. reflexivity.
    - change (Nat.iter (S k) (fun r => u <- r ;; fr_mul u X) (fr_one A)) with (u <- Nat.iter k (fun r => u <- r ;; fr_mul u X) (fr_one A) ;; fr_mul u X).
      destruct IH as (z & -> & Hz). cbn [bind]. destruct (repr_mul sg A D Hl _ _ _ _ Hz HX) as (q & -> & Hq). exists q. split; auto. eapply (repr_ext sg A D Hl); [exact Hq|]. intros i Hi. apply cfun_gp. }
  destruct G as (z & Ez & Hz). rewrite Ep in Ez. injection Ez as ->. eapply (repr_eq sg A); [exact HR|exact Hz].
Qed.
End Pow.

Section Onto.
Context {F : Type} {RF : RingOps F} {LF : RingLaws F} {CF : CommLaws F} {DV : DivOps F} {FL : FieldLaws F} {FRl : FormallyReal F} {md : Mode} {HO : HashOrder}.
Local Notation C := (cplx F).
Variables (sg : list tok) (A : algebra).
Hypothesis D : declared sg A.
Hypothesis Hl : length sg < 63.
Local Notation d := (a_dim A).
Lemma c38_onto (r : fftrepr F) : repr_shape sg r -> Nat.even (nonnull sg) = true ->
  exists z : store KDense C, valid A z /\ fr_ifft A r = Ok (z : arr C) /\ mv_fft A (z : arr C) = Ok r.
Proof.
  intros (H1 & H2) E. assert (Hr : exists X, arep (half (nonnull sg)) (d - nonnull sg) r X).
  { apply a3_ok_arep; auto. unfold fr_shape, mats_of, side_of in H2. rewrite <- (declared_dim _ _ D) in H2. exact H2. }
  destruct Hr as (X & HX). destruct (ifft_ok (T := C) (IC := CplxInto) (FC := CplxFrom) sg A D Hl r X HX) as (z & Ez & Hz & Hc). exists z. split; [exact Hz|]. split; [exact Ez|].
  destruct (fft_ok (T := C) (IC := CplxInto) sg A D Hl z Hz) as (r' & Er & Hr'). rewrite Er. f_equal. eapply arep_eq; [|exact HX]. eapply arep_ext; [exact Hr'|].
  intros w Hw. unfold frep. destruct (half_cases (nonnull sg)) as [(_ & Hh)|(E' & _)]; [|congruence]. destruct (has_half cplx_two) as (I1 & I2).
  eapply meq_trans; [|apply (cl_icl _ I1 I2)]. apply cl_ext. rewrite Hh. intros i Hi.
  rewrite <- (phi_inv ipn ipw idx_mask (icl _ (X w)) i) by apply ipn_ipw. unfold phi at 1 2. f_equal. unfold pad. rewrite (proj2 (N.ltb_lt _ _) Hi). unfold blk_of.
  assert (Hk : (pow2 (nonnull sg) * w + i < pow2 d)%N) by (replace d with (nonnull sg + (d - nonnull sg)) by (pose proof (std_nn A _ (declared_nn sg A D)); lia); apply block_lt; auto).
  unfold cfun. unfold phi at 1. rewrite Hc by auto. cbn [into_complex CplxInto from_complex CplxFrom]. fold (phi ipn (a_imag A) (phi ipw (a_imag A) (icoef sg X)) (pow2 (nonnull sg) * w + i)).
  change (phi ipn (a_imag A) (phi ipw (a_imag A) (icoef sg X)) (pow2 (nonnull sg) * w + i)%N = phi ipn idx_mask (icl (half (nonnull sg)) (X w)) i).
  rewrite phi_inv by apply ipw_ipn. apply (icoef_block sg A); auto.
Qed.
End Onto.
