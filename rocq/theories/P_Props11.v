(** Property C43: the inverse of [FFTRepr]. *)
From Verif Require Export P_Props10 P_Gauss.
Local Open Scope nat_scope.

Section Mats.
Context {F R : Type} {RF : RingOps F} {LF : RingLaws F} {CF : CommLaws F} {DV : DivOps F} {FL : FieldLaws F} {FRl : FormallyReal F} {md : Mode}
  {NC : NormCmp (cplx F) R} {NZ : NormZero (cplx F) R}.
Local Notation C := (cplx F).
Variable m : nat.
Hypothesis Hm : m <= 32.
Local Notation e := (2 * m).
Local Notation P := (N.ldiff (ones (e + 0)) (ones e)).
Local Notation G := (gp (e + 0) idx_mask P).
Local Notation eqc := (feq (e + 0)).

Lemma crep_fun s r (c c' : N -> C) : crep m s r c -> crep m s r c' -> feq (e + s) c c'.
Proof.
  intros H H' k Hk. pose proof (arep_fun _ _ _ _ _ H H') as E. destruct (has_half cplx_two) as (I1 & I2).
  pose proof (pow2_pos e) as Hp. assert (Hw : (k / pow2 e < pow2 s)%N).
  { apply N.div_lt_upper_bound; [lia|]. rewrite <- pow2_add. exact Hk. }
  specialize (E _ Hw). assert (Hi : (k mod pow2 e < pow2 e)%N) by (apply N.mod_lt; lia).
  pose proof (icl_cl _ I1 I2 m (blk_of e c (k / pow2 e)%N) _ Hi) as E1. pose proof (icl_cl _ I1 I2 m (blk_of e c' (k / pow2 e)%N) _ Hi) as E2.
  unfold blk_of at 2 in E1. unfold blk_of at 2 in E2. rewrite <- N.div_mod in E1, E2 by lia. rewrite <- E1, <- E2. apply icl_ext; auto.
Qed.
Lemma eqn_mid M : eqn (2 ^ m) (nn M) delta -> meq m M (mid (T := C)).
Proof.
  intros H i j Hi Hj. apply to_nat_lt_pow2 in Hi, Hj. specialize (H _ _ Hi Hj). unfold nn in H. rewrite !N2Nat.id in H. rewrite H. unfold delta, mid.
  destruct (Nat.eqb_spec (N.to_nat i) (N.to_nat j)), (N.eqb_spec i j); auto; subst; try congruence. exfalso. lia.
Qed.
Lemma mm_mmul X Y : eqn (2 ^ m) (nn (mmul m X Y)) (mm (T := C) (2 ^ m) (nn X) (nn Y)).
Proof. intros i j Hi Hj. unfold nn, mmul, mm, sumn, sumI, idxs. rewrite suml_map, <- pow2_nat. reflexivity. Qed.

Lemma inv_crep a c : crep m 0 a c -> exists o, fr_inv a = Ok o /\
  forall r, o = Some r -> exists c', crep m 0 r c' /\ eqc (G c c') (del 0 r1) /\ eqc (G c' c) (del 0 r1).
Proof.
  intros Ha. pose proof Ha as (Hr & Hc & Hlen & Hw). destruct a as [nr nc l]. cbn [t_nr t_nc t_mats] in *. destruct l as [|M [|M2 l]]; cbn in Hlen; try lia.
  specialize (Hw 0 ltac:(cbn; lia)). cbn [nth] in Hw. unfold fr_inv. cbn [t_mats].
  destruct (matrix_inv_sound (R := R) (2 ^ m) M _ Hw) as (o & E & Ho). assert (E0 : nthr [M] 0 = Ok M) by reflexivity. rewrite E0. cbn [bind]. rewrite E. cbn [bind]. eexists. split; [reflexivity|].
  intros r Er. destruct o as [M'|]; [|discriminate]. injection Er as <-. destruct (Ho M' eq_refl) as (B & HB & H1 & H2).
  set (Y := fun i j => B (N.to_nat i) (N.to_nat j)). assert (HY : forall i j, nn Y i j = B i j) by (intros i j; unfold nn, Y; rewrite !Nat2N.id; reflexivity).
  pose proof HB as (R' & C' & _). rewrite R', C'.
  assert (HR : arep m 0 (mkA3 (2 ^ m) (2 ^ m) [M']) (fun _ => Y)).
  { split; [reflexivity|]. split; [reflexivity|]. split; [reflexivity|]. intros w Hw'. cbn in Hw'. destruct w; [|lia]. cbn [nth t_mats]. eapply mis_ext; [exact HB|]. intros i j _ _. symmetry. apply HY. }
  destruct (crep_ex m 0 Hm _ _ HR) as (c' & Hc'). exists c'. split; [exact Hc'|].
  assert (Hone : forall z, arep m 0 z (fun _ => mid) -> crep m 0 z (del 0 r1)).
  { intros z Hz. apply crep_one; auto. eapply arep_ext; [exact Hz|]. intros w Hw'. replace (pow2 0) with 1%N in Hw' by reflexivity. assert (w = 0)%N as -> by lia. intros i j _ _. reflexivity. }
  split.
  - destruct (crep_mul m 0 Hm _ _ _ _ Ha Hc') as (z & Ez & Hz). destruct (wmul_ok _ _ _ _ _ _ Ha HR) as (z' & Ez' & Hz'). unfold fr_mul in Ez. rewrite Ez in Ez'. injection Ez' as <-.
    eapply crep_fun; [exact Hz|]. apply Hone. eapply arep_ext; [exact Hz'|]. intros w Hw'. replace (pow2 0) with 1%N in Hw' by reflexivity. assert (w = 0)%N as -> by lia. cbn [wm].
    apply eqn_mid. intros i j Hi Hj. rewrite mm_mmul by auto. rewrite <- H2 by auto. apply sumn_ext. intros k Hk. rewrite HY. reflexivity.
  - destruct (crep_mul m 0 Hm _ _ _ _ Hc' Ha) as (z & Ez & Hz). destruct (wmul_ok _ _ _ _ _ _ HR Ha) as (z' & Ez' & Hz'). unfold fr_mul in Ez. rewrite Ez in Ez'. injection Ez' as <-.
    eapply crep_fun; [exact Hz|]. apply Hone. eapply arep_ext; [exact Hz'|]. intros w Hw'. replace (pow2 0) with 1%N in Hw' by reflexivity. assert (w = 0)%N as -> by lia. cbn [wm].
    apply eqn_mid. intros i j Hi Hj. rewrite mm_mmul by auto. rewrite <- H1 by auto. apply sumn_ext. intros k Hk. rewrite HY. reflexivity.
Qed.
End Mats.

Section Uniq.
Context {T : Type} {RO : RingOps T} {L : RingLaws T}.
Lemma gp_inv_unique d Q P (p q q' : N -> T) : feq d (gp d Q P q p) (del 0 r1) -> feq d (gp d Q P p q') (del 0 r1) -> feq d q q'.
Proof.
  intros H1 H2 k Hk. rewrite <- (gp_1_r d Q P q k Hk), <- (gp_1_l d Q P q' k). transitivity (gp d Q P q (gp d Q P p q') k); [apply gp_ext; auto using feq_refl, feq_sym|].
  rewrite <- gp_assoc by auto. apply gp_ext; auto using feq_refl.
Qed.
End Uniq.

Section Alg.
Context {F R : Type} {RF : RingOps F} {LF : RingLaws F} {CF : CommLaws F} {DV : DivOps F} {FL : FieldLaws F} {FRl : FormallyReal F} {md : Mode} {HO : HashOrder}
  {NC : NormCmp (cplx F) R} {NZ : NormZero (cplx F) R}.
Local Notation C := (cplx F).
Variables (sg : list tok) (A : algebra).
Hypothesis D : declared sg A.
Hypothesis Hl : length sg < 63.
Hypothesis Hnd : nonnull sg = length sg.
Local Notation h := (half (nonnull sg)).
Local Notation d := (a_dim A).
Local Notation rp := (repr_of (F := F) sg A).
Let Ed : nonnull sg = d := eq_trans Hnd (eq_sym (declared_dim _ _ D)).
Let E0 : d - nonnull sg = 0.
Proof. lia. Qed.
Let Hh : h <= 32.
Proof. unfold half. apply Nat.div_le_upper_bound; lia. Qed.
Let e := 2 * h + 0.
Let P := N.ldiff (ones (2 * h + 0)) (ones (2 * h)).
Local Notation G := (gp (2 * h + 0) idx_mask P).

Lemma rp_fun r c c' : rp r c -> rp r c' -> feq d c c'.
Proof.
  intros H H' k Hk. rewrite <- (icoef_frep (F := F) sg A D Hl c k Hk), <- (icoef_frep (F := F) sg A D Hl c' k Hk). unfold icoef, phi. f_equal.
  pose proof (arep_fun _ _ _ _ _ H H') as E. pose proof (pow2_pos (nonnull sg)). apply icl_ext.
  - apply E. rewrite E0. rewrite <- Ed in Hk. rewrite N.div_small by auto. reflexivity.
  - eapply N.lt_le_trans; [apply N.mod_lt; lia|]. apply pow2_le. destruct (half_cases (nonnull sg)) as [(_ & ?)|(_ & ?)]; lia.
Qed.
Lemma crep_of_rp X c : rp X c -> crep h 0 X (phi ipw idx_mask (pad (nonnull sg) c)).
Proof.
  intros H. unfold repr_of in H. rewrite E0 in H. eapply arep_ext; [exact H|]. intros w Hw. replace (pow2 0) with 1%N in Hw by reflexivity. assert (w = 0)%N as -> by lia.
  apply cl_ext. intros i Hi. unfold phi, pad, blk_of. rewrite !N.mul_0_r, !N.add_0_l. reflexivity.
Qed.
Lemma rp_of_crep X c q : crep h 0 X q -> (forall i, (i < pow2 (2 * h))%N -> q i = phi ipw idx_mask (pad (nonnull sg) c) i) -> rp X c.
Proof.
  intros H Hq. unfold repr_of. rewrite E0. eapply arep_ext; [exact H|]. intros w Hw. replace (pow2 0) with 1%N in Hw by reflexivity. assert (w = 0)%N as -> by lia.
  apply cl_ext. intros i Hi. unfold blk_of at 1. rewrite N.mul_0_r, N.add_0_l, Hq by auto. unfold phi, pad, blk_of. rewrite !N.mul_0_r, !N.add_0_l. reflexivity.
Qed.
Lemma neg_self (x : C) : rneg x = x -> x = r0.
Proof.
  intros E. assert (E2 : rmul (radd r1 r1) x = r0) by (rewrite mul_add_l, !mul_1_l; rewrite <- E at 1; apply add_neg_l).
  rewrite <- (mul_1_l x), <- (inv_l _ (cplx_two (F := F))), <- mul_assoc, E2, mul_0_r. reflexivity.
Qed.

(** The inverse of a represented multivector is itself represented. *)
Lemma inv_rp X c : rp X c -> exists o, fr_inv X = Ok o /\
  forall r, o = Some r -> exists c', rp r c' /\ fr_mul X r = fr_one A /\ fr_mul r X = fr_one A /\
    feq d (gp d 0 (a_proj A) c c') (del 0 r1) /\ feq d (gp d 0 (a_proj A) c' c) (del 0 r1).
Proof.
  intros HX. pose proof (crep_of_rp _ _ HX) as Hp. destruct (inv_crep h Hh _ _ Hp) as (o & E & Ho). exists o. split; [exact E|]. intros r Er.
  destruct (Ho r Er) as (q & Hq & H1 & H2). set (p := phi ipw idx_mask (pad (nonnull sg) c)) in *.
  assert (Hz : forall i, (i < pow2 (2 * h))%N -> (pow2 (nonnull sg) <= i)%N -> q i = r0).
  { intros i Hi Hge. destruct (half_cases (nonnull sg)) as [(_ & Eh)|(_ & Eh)]; [rewrite Eh in Hi; lia|].
    set (b := alpham (T := C) (pow2 (nonnull sg))). assert (Hb : feq (2 * h + 0) (b p) p).
    { intros j Hj. rewrite Nat.add_0_r, Eh in Hj. unfold b, alpham, p, phi, pad. rewrite N.land_comm, land_pow2_bit. rewrite bit_high by auto. destruct (N.ltb_spec j (pow2 (nonnull sg))); cbn [negb]; auto. rewrite mul_0_l. apply sgb_0. }
    assert (U : feq (2 * h + 0) q (b q)).
    { eapply gp_inv_unique; [exact H2|]. intros j Hj. transitivity (G (b p) (b q) j); [apply gp_ext; auto using feq_refl, feq_sym|].
      unfold b. rewrite <- alpham_gp. unfold alpham at 1. rewrite H1 by auto. unfold del. destruct (N.eqb_spec j 0) as [->|]; [reflexivity|apply sgb_0]. }
    specialize (U i). rewrite Nat.add_0_r in U. specialize (U Hi). unfold b, alpham in U. rewrite N.land_comm, land_pow2_bit in U. rewrite Eh in Hi. rewrite bit_high in U by auto.
    destruct (N.ltb_spec i (pow2 (nonnull sg))); [lia|]. cbn [negb] in U. rewrite par_pow2 in U. cbn [sgb] in U. apply neg_self. congruence. }
  exists (phi ipn idx_mask q).
  assert (Hr : rp r (phi ipn idx_mask q)).
  { apply (rp_of_crep r _ q Hq). intros i Hi. unfold phi at 1, pad. destruct (N.ltb_spec i (pow2 (nonnull sg))).
    - symmetry. apply (phi_inv ipn ipw idx_mask q i). apply ipn_ipw.
    - rewrite mul_0_l. apply Hz; auto. }
  split; [exact Hr|]. destruct (one_rep (F := F) sg A D Hl) as (one & Eone & Hone). rewrite E0 in Hone.
  assert (M1 : fr_mul X r = fr_one A).
  { rewrite Eone. destruct (crep_mul h 0 Hh _ _ _ _ Hp Hq) as (z & -> & Hz'). f_equal. exact (crep_eq h 0 _ _ _ _ Hz' Hone H1). }
  assert (M2 : fr_mul r X = fr_one A).
  { rewrite Eone. destruct (crep_mul h 0 Hh _ _ _ _ Hq Hp) as (z & -> & Hz'). f_equal. exact (crep_eq h 0 _ _ _ _ Hz' Hone H2). }
  split; [exact M1|]. split; [exact M2|]. destruct (repr_one (F := F) sg A D Hl) as (one' & Eone' & Hone'). split.
  - destruct (repr_mul sg A D Hl _ _ _ _ HX Hr) as (z & Ez & Hz'). rewrite M1, Eone' in Ez. injection Ez as <-. exact (rp_fun _ _ _ Hz' Hone').
  - destruct (repr_mul sg A D Hl _ _ _ _ Hr HX) as (z & Ez & Hz'). rewrite M2, Eone' in Ez. injection Ez as <-. exact (rp_fun _ _ _ Hz' Hone').
Qed.
End Alg.

(** Conjugation of complex numbers, as a ring homomorphism. *)
Section Conj.
Context {F : Type} {RF : RingOps F} {LF : RingLaws F}.
Local Notation C := (cplx F).
Definition ConjInto : IntoCplx C F := {| into_complex := rconj |}.
Definition ConjFrom : FromCplx C F := {| from_complex := rconj |}.
Lemma ConjConv : ConvLaws (IC := ConjInto) (FC := ConjFrom) C F.
Proof.
  constructor; intros; apply cplx_ext; cbn; rewrite ?neg_add, ?neg_neg, ?neg_0, ?mul_neg_l, ?mul_neg_r, ?neg_neg; try reflexivity.
Qed.
Lemma conj_gp d Q P (x y : N -> C) k : rconj (gp d Q P x y k) = gp d Q P (fun i => rconj (x i)) (fun i => rconj (y i)) k.
Proof. exact (into_gp (IC := ConjInto) (FC := ConjFrom) (CV := ConjConv) d Q P x y k). Qed.
End Conj.

Section Image.
Context {T F : Type} {RT : RingOps T} {LT : RingLaws T} {RF : RingOps F} {LF : RingLaws F} {CF : CommLaws F} {DV : DivOps F} {FL : FieldLaws F} {FRl : FormallyReal F}
  {IC : IntoCplx T F} {FC : FromCplx T F} {CV : ConvLaws T F} {md : Mode} {HO : HashOrder}.
Local Notation C := (cplx F).
Local Notation MV := (store KDense T).
Variables (sg : list tok) (A : algebra).
Hypothesis D : declared sg A.
Hypothesis Hl : length sg < 63.
Local Notation d := (a_dim A).
Local Notation rp := (repr_of (F := F) sg A).
Local Notation fft x := (mv_fft (F := F) A (x : arr T)).

Lemma image_inv (x : MV) X r g : valid A x -> fft x = Ok X -> rp r (cfun A g) -> fr_mul X r = fr_one A -> fr_mul r X = fr_one A ->
  exists z : MV, fr_ifft A r = Ok (z : arr T) /\ valid A z /\ fft z = Ok r /\ both_ok (mv_mul A x z) (mv_one A) /\ both_ok (mv_mul A z x) (mv_one A).
Proof.
  intros Hx EX Hr M1 M2. destruct (ifft_fft (T := T) (IC := IC) (FC := FC) sg A D Hl r g Hr) as (z & Ez & Hz & Hc). exists z. split; [exact Ez|]. split; [exact Hz|].
  assert (Ef : fft z = Ok r).
  { destruct (fft_gives (T := T) (IC := IC) sg A D Hl (z : MV) g Hz) as (r' & Er & Hr').
    - intros k Hk. rewrite <- (Hc k Hk). exact (rd_coef d (z : MV) k Hz Hk).
    - rewrite Er. f_equal. exact (repr_eq sg A _ _ _ Hr' Hr). }
  split; [exact Ef|].
  assert (One : exists o, mv_one A = Ok (o : MV) /\ (P <- fr_one (F := F) A ;; fr_ifft A P) = Ok (o : arr T)).
  { destruct (g_one (S := MV) (SL := KLaws KDense (T := T)) A) as (o & Eo & Ho & _); [cbn; rewrite (declared_dim _ _ D); lia|]. exists o. split; [exact Eo|].
    destruct (c40_one (T := T) (IC := IC) (CV := CV) sg A D Hl) as (P & -> & EP). change (@ArrStorage T RT md) with (@KStorage T RT md HO KDense) in EP. rewrite Eo in EP. cbn [bind] in *.
    pose proof (c38_roundtrip (T := T) (IC := IC) (FC := FC) (CV := CV) sg A D Hl (o : MV) Ho) as E. cbn [bind] in E. rewrite EP in E. exact E. }
  destruct One as (o & Eo & Ei). split.
  - destruct (c39_product (T := T) (IC := IC) (FC := FC) (CV := CV) sg A D Hl x (z : MV) Hx Hz) as (p & E1 & E2). rewrite EX, Ef in E1. cbn [bind] in E1. rewrite M1, Ei in E1. injection E1 as <-. exists o. split; [exact E2|exact Eo].
  - destruct (c39_product (T := T) (IC := IC) (FC := FC) (CV := CV) sg A D Hl (z : MV) x Hz Hx) as (p & E1 & E2). rewrite EX, Ef in E1. cbn [bind] in E1. rewrite M2, Ei in E1. injection E1 as <-. exists o. split; [exact E2|exact Eo].
Qed.
End Image.

Section Final.
Context {F R : Type} {RF : RingOps F} {LF : RingLaws F} {CF : CommLaws F} {DV : DivOps F} {FL : FieldLaws F} {FRl : FormallyReal F} {md : Mode} {HO : HashOrder}
  {NC : NormCmp (cplx F) R} {NZ : NormZero (cplx F) R}.
Local Notation C := (cplx F).
Variables (sg : list tok) (A : algebra).
Hypothesis D : declared sg A.
Hypothesis Hl : length sg < 63.
Hypothesis Hnd : nonnull sg = length sg.
Local Notation d := (a_dim A).

Lemma c43_repr (X : fftrepr F) : repr_shape sg X -> exists o, fr_inv X = Ok o /\
  forall r, o = Some r -> repr_shape sg r /\ both_ok (fr_mul X r) (fr_one A) /\ both_ok (fr_mul r X) (fr_one A).
Proof.
  intros HX. assert (E0 : d - nonnull sg = 0) by (pose proof (declared_dim _ _ D); lia).
  destruct (shape_rep sg A D Hl X HX) as (c & Hc). rewrite E0 in Hc. assert (Hh : half (nonnull sg) <= 32) by (unfold half; apply Nat.div_le_upper_bound; lia).
  destruct (inv_crep _ Hh _ _ Hc) as (o & E & Ho). exists o. split; [exact E|]. intros r Er. destruct (Ho r Er) as (c' & Hr & H1 & H2).
  split; [eapply (rep_shape sg A D); rewrite E0; exact Hr|]. destruct (one_rep (F := F) sg A D Hl) as (one & Eone & Hone). rewrite E0 in Hone. rewrite Eone. split.
  - destruct (crep_mul _ 0 Hh _ _ _ _ Hc Hr) as (z & -> & Hz). exists one. split; auto. f_equal. exact (crep_eq _ 0 _ _ _ _ Hz Hone H1).
  - destruct (crep_mul _ 0 Hh _ _ _ _ Hr Hc) as (z & -> & Hz). exists one. split; auto. f_equal. exact (crep_eq _ 0 _ _ _ _ Hz Hone H2).
Qed.

Lemma c43_complex (x : store KDense C) : valid A x -> exists X o, mv_fft (F := F) A (x : arr C) = Ok X /\ fr_inv X = Ok o /\
  forall r, o = Some r -> exists z : store KDense C, fr_ifft A r = Ok (z : arr C) /\ valid A z /\ mv_fft A (z : arr C) = Ok r /\
    both_ok (mv_mul A x z) (mv_one A) /\ both_ok (mv_mul A z x) (mv_one A).
Proof.
  intros Hx. destruct (fft_gives (T := C) (IC := CplxInto) sg A D Hl x _ Hx (fun i _ => eq_refl)) as (X & EX & HX). destruct (inv_rp sg A D Hl Hnd X _ HX) as (o & Eo & Ho).
  exists X, o. split; [exact EX|]. split; [exact Eo|]. intros r Er. destruct (Ho r Er) as (c' & Hr & M1 & M2 & _).
  apply (image_inv (T := C) (IC := CplxInto) (FC := CplxFrom) sg A D Hl x X r (phi ipw (a_imag A) c') Hx EX); auto.
  eapply (repr_ext sg A D Hl); [exact Hr|]. intros k Hk. symmetry. exact (phi_inv ipw ipn (a_imag A) c' k ipw_ipn).
Qed.

Lemma c43_real (x : store KDense F) : valid A x -> exists X o, mv_fft (F := F) A (x : arr F) = Ok X /\ fr_inv X = Ok o /\
  forall r, o = Some r -> exists z : store KDense F, fr_ifft A r = Ok (z : arr F) /\ valid A z /\ mv_fft A (z : arr F) = Ok r /\
    both_ok (mv_mul A x z) (mv_one A) /\ both_ok (mv_mul A z x) (mv_one A).
Proof.
  intros Hx. destruct (fft_gives (T := F) (IC := RealInto) sg A D Hl x _ Hx (fun i _ => eq_refl)) as (X & EX & HX). destruct (inv_rp sg A D Hl Hnd X _ HX) as (o & Eo & Ho).
  exists X, o. split; [exact EX|]. split; [exact Eo|]. intros r Er. destruct (Ho r Er) as (c' & Hr & M1 & M2 & H1 & H2).
  set (u := fun i => into_complex (rd x i) : C). set (g := phi ipw (a_imag A) c').
  assert (Ec : forall k, cfun (IC := CplxInto) A g k = c' k) by (intros k; exact (phi_inv ipw ipn (a_imag A) c' k ipw_ipn)).
  assert (Gof : forall a b : N -> C, feq d (gp d 0 (a_proj A) (cfun (IC := CplxInto) A a) (cfun (IC := CplxInto) A b)) (del 0 r1) -> feq d (gp d (a_imag A) (a_proj A) a b) (del 0 r1)).
  { intros a b H k Hk. pose proof (cfun_gp (T := C) (IC := CplxInto) (FC := CplxFrom) A d (a_proj A) a b k) as E. rewrite H in E by auto.
    assert (E' : phi ipw (a_imag A) (del 0 r1) k = gp d (a_imag A) (a_proj A) a b k).
    { unfold phi at 1. rewrite E. exact (phi_inv ipn ipw (a_imag A) (gp d (a_imag A) (a_proj A) a b) k ipn_ipw). }
    rewrite <- E'. unfold phi, del. destruct (N.eqb_spec k 0) as [->|]; [|apply mul_0_l]. cbn [N.land]. rewrite popcount_0, (ph_0 ipw ipw_phase). apply mul_1_r. }
  assert (G1 : feq d (gp d (a_imag A) (a_proj A) u g) (del 0 r1)).
  { apply Gof. intros k Hk. rewrite <- H1 by auto. apply gp_ext; auto; intros i Hi; [reflexivity|apply Ec]. }
  assert (G2 : feq d (gp d (a_imag A) (a_proj A) g u) (del 0 r1)).
  { apply Gof. intros k Hk. rewrite <- H2 by auto. apply gp_ext; auto; intros i Hi; [apply Ec|reflexivity]. }
  assert (U : feq d g (fun i => rconj (g i))).
  { eapply gp_inv_unique; [exact G2|]. intros k Hk. transitivity (rconj (gp d (a_imag A) (a_proj A) u g k)).
    - rewrite conj_gp. apply gp_ext; auto; intros i Hi; [|reflexivity]. unfold u. apply cplx_ext; cbn; [reflexivity|symmetry; apply neg_0].
    - rewrite G1 by auto. unfold del. destruct (N.eqb_spec k 0); apply cplx_ext; cbn; auto; apply neg_0. }
  clearbody g. apply (image_inv (T := F) (IC := RealInto) (FC := RealFrom) sg A D Hl x X r (fun i => c_re (g i)) Hx EX); auto.
  eapply (repr_ext sg A D Hl); [exact Hr|]. intros k Hk. rewrite <- Ec. unfold cfun, phi. f_equal. cbn [into_complex CplxInto RealInto]. specialize (U k Hk). apply cplx_ext; cbn; [reflexivity|].
  assert (Z : mkC (c_im (g k)) (r0 : F) = r0) by (apply neg_self; apply cplx_ext; cbn; [exact (eq_sym (f_equal c_im U))|apply neg_0]). exact (f_equal c_re Z).
Qed.
End Final.
