(** Integers up to 2^prec are numbers of the format, and arithmetic on them is exact. *)
From Verif Require Export Spec_IntProg P_Conv32 P_F64.
From Coq Require Import QArith ZArith Lia Bool Floats.SpecFloat.
Local Open Scope Z_scope.

Section Fmt.
Variables prec emax : Z.
Hypothesis Hp : 1 < prec.
Hypothesis He : prec < emax.
Local Notation emin := (emin prec emax).
Local Notation fexp := (fexp prec emax).
Local Notation mag m e := (Zdigits2 m + e).
Local Notation ofz := (flt_of_Z prec emax).

Lemma hr : emin <= emax - prec.
Proof. unfold SpecFloat.emin. lia. Qed.
Lemma pw k : 0 <= k -> 0 < 2 ^ k.
Proof. intros. apply Z.pow_pos_nonneg; lia. Qed.

(** (m0, e0) is how the format writes p. *)
Definition writes (p : positive) (m0 : positive) (e0 : Z) : Prop :=
  bounded prec emax m0 e0 = true /\ Zdigits2 (Zpos m0) = prec /\ - prec < e0 <= 1 /\ Zpos m0 * 2 ^ (e0 + prec) = Zpos p * 2 ^ prec.

Lemma bounded_intro m0 e0 : Zdigits2 (Zpos m0) = prec -> - prec < e0 <= 1 -> bounded prec emax m0 e0 = true.
Proof.
  intros Hd H0. unfold bounded, canonical_mantissa. change (Z.pos (digits2_pos m0)) with (Zdigits2 (Zpos m0)). rewrite Hd. apply andb_true_iff. split.
  - apply Zeq_is_eq_bool. unfold SpecFloat.fexp, SpecFloat.emin. lia.
  - apply Zle_imp_le_bool. lia.
Qed.
Lemma writes_ex p : Zpos p <= 2 ^ prec -> exists m0 e0, writes p m0 e0.
Proof.
  intros Hle. destruct (digits_spec (Zpos p) ltac:(lia)) as (D0 & D1 & D2). destruct D2 as [D2 D3]; [lia|].
  destruct (Z.eq_dec (Zpos p) (2 ^ prec)) as [E|E].
  - assert (P1 : 0 < 2 ^ (prec - 1)) by (apply pw; lia). exists (Z.to_pos (2 ^ (prec - 1))), 1.
    assert (Ed : Zdigits2 (Zpos (Z.to_pos (2 ^ (prec - 1)))) = prec) by (rewrite Z2Pos.id by lia; rewrite digits_pow; lia).
    split; [apply bounded_intro; auto; lia|]. split; [exact Ed|]. split; [lia|]. rewrite Z2Pos.id by lia. rewrite E, <- !Z.pow_add_r by lia. f_equal. lia.
  - set (t := Zdigits2 (Zpos p)) in *. assert (Ht : t <= prec).
    { apply digits_le; lia. }
    assert (Ht1 : 1 <= t) by lia.
    assert (P1 : 0 < 2 ^ (prec - t)) by (apply pw; lia).
    exists (Z.to_pos (Zpos p * 2 ^ (prec - t))), (t - prec).
    assert (Em : Zpos (Z.to_pos (Zpos p * 2 ^ (prec - t))) = Zpos p * 2 ^ (prec - t)) by (apply Z2Pos.id; lia).
    assert (Ed : Zdigits2 (Zpos (Z.to_pos (Zpos p * 2 ^ (prec - t)))) = prec) by (rewrite Em, digits_shift by lia; fold t; lia).
    split; [apply bounded_intro; auto; lia|]. split; [exact Ed|]. split; [lia|]. rewrite Em, <- Z.mul_assoc, <- Z.pow_add_r by lia. f_equal. f_equal. lia.
Qed.
(** Whatever has the value p is rounded to it. *)
Lemma writes_round s p m0 e0 m e q : writes p m0 e0 -> 0 <= q -> 0 <= e + q -> Zpos m * 2 ^ (e + q) = Zpos p * 2 ^ q -> binary_round prec emax s m e = S754_finite s m0 e0.
Proof.
  intros (B & _ & He0 & E0) Hq Heq E. apply (bround_close prec emax Hp); auto. set (g := Z.min e (e0 - 2)).
  replace (Zpos m * 2 ^ (e - g) - Zpos m0 * 2 ^ (e0 - g)) with 0; [cbn [Z.abs]; apply pw; lia|]. symmetry. apply Z.sub_move_0_r. 
  assert (X : forall w, 0 <= w -> Zpos m * 2 ^ (e + q + w) = Zpos p * 2 ^ (q + w)). { intros w Hw. rewrite (Z.pow_add_r 2 (e + q) w), (Z.pow_add_r 2 q w) by lia. rewrite !Z.mul_assoc, E. reflexivity. }
  assert (Y : forall w, 0 <= w -> Zpos m0 * 2 ^ (e0 + prec + w) = Zpos p * 2 ^ (prec + w)). { intros w Hw. rewrite (Z.pow_add_r 2 (e0 + prec) w), (Z.pow_add_r 2 prec w) by lia. rewrite !Z.mul_assoc, E0. reflexivity. }
  set (W := q + prec + Z.abs g).
  assert (X1 := X (W - q) ltac:(lia)). assert (Y1 := Y (W - prec) ltac:(lia)). replace (q + (W - q)) with W in X1 by lia. replace (prec + (W - prec)) with W in Y1 by lia.
  rewrite <- Y1 in X1. assert (PP : 0 < 2 ^ (W + g)) by (apply pw; lia). apply (Z.mul_reg_r _ _ (2 ^ (W + g))); [lia|].
  rewrite <- !Z.mul_assoc, <- !Z.pow_add_r by lia. replace (e - g + (W + g)) with (e + q + (W - q)) by lia. replace (e0 - g + (W + g)) with (e0 + prec + (W - prec)) by lia. exact X1.
Qed.

Definition wz (z : Z) (x : spec_float) : Prop :=
  match z with Z0 => x = S754_zero false | Zpos p => exists m0 e0, x = S754_finite false m0 e0 /\ writes p m0 e0 | Zneg p => exists m0 e0, x = S754_finite true m0 e0 /\ writes p m0 e0 end.
Lemma ofz_wz z : Z.abs z <= 2 ^ prec -> wz z (to_sf (ofz z)).
Proof.
  intros Hz. unfold flt_of_Z. destruct z as [|p|p]; cbn [binary_normalize wz of_sf to_sf]; [reflexivity| |];
    (destruct (writes_ex p) as (m0 & e0 & Hw); [lia|]; exists m0, e0; split; [|exact Hw]; rewrite (writes_round _ p m0 e0 p 0 0 Hw); [reflexivity|lia|lia|reflexivity]).
Qed.
(** A normalisation of the value z. *)
Lemma norm_ofz w e z q s : Z.abs z <= 2 ^ prec -> 0 <= q -> 0 <= e + q -> w * 2 ^ (e + q) = z * 2 ^ q -> of_sf (binary_normalize prec emax w e s) = ofz z.
Proof.
  intros Hz Hq Heq E. assert (0 < 2 ^ q) by (apply pw; lia). assert (0 < 2 ^ (e + q)) by (apply pw; lia). unfold flt_of_Z.
  destruct z as [|p|p]; destruct w as [|m|m]; cbn [binary_normalize]; try nia; try reflexivity;
    (destruct (writes_ex p) as (m0 & e0 & Hw); [lia|]; rewrite (writes_round _ p m0 e0 m e q Hw) by nia; rewrite (writes_round _ p m0 e0 p 0 0 Hw); [reflexivity|lia|lia|reflexivity]).
Qed.
Lemma shl_z s m0 e0 ez p : writes p m0 e0 -> ez <= e0 -> - prec < ez -> cond_Zopp s (Zpos (fst (shl_align m0 e0 ez))) * 2 ^ (ez + prec) = cond_Zopp s (Zpos p) * 2 ^ prec.
Proof.
  intros (_ & _ & H0 & E) Hle Hz. destruct (shl_exact m0 e0 ez Hle) as (_ & Em).
  assert (Zpos (fst (shl_align m0 e0 ez)) * 2 ^ (ez + prec) = Zpos p * 2 ^ prec).
  { rewrite Em, <- Z.mul_assoc, <- Z.pow_add_r by lia. rewrite <- E. f_equal. f_equal. lia. }
  destruct s; cbn [cond_Zopp]; lia.
Qed.

Lemma wz_nz z x : z <> 0 -> wz z x -> exists s p m0 e0, x = S754_finite s m0 e0 /\ writes p m0 e0 /\ z = cond_Zopp s (Zpos p).
Proof. intros Hz. destruct z as [|p|p]; [lia| |]; intros (m0 & e0 & -> & Hw); [exists false|exists true]; exists p, m0, e0; auto. Qed.

Lemma of_to x : of_sf (to_sf x) = x.
Proof. destruct x; reflexivity. Qed.
Lemma ofz_0 : ofz 0 = FZ. Proof. reflexivity. Qed.
Lemma ofz_add a b : Z.abs a <= 2 ^ prec -> Z.abs b <= 2 ^ prec -> Z.abs (a + b) <= 2 ^ prec -> @radd flt (flt_ops prec emax) (ofz a) (ofz b) = ofz (a + b).
Proof.
  intros Ha Hb Hab. cbn [radd flt_ops]. destruct (Z.eq_dec a 0) as [->|Na]; [|destruct (Z.eq_dec b 0) as [->|Nb]].
  - rewrite ofz_0, Z.add_0_l. destruct (ofz b); reflexivity.
  - rewrite ofz_0, Z.add_0_r. destruct (ofz a); reflexivity.
  - destruct (wz_nz a _ Na (ofz_wz a Ha)) as (s & p & m0 & e0 & -> & Hw & Ea). destruct (wz_nz b _ Nb (ofz_wz b Hb)) as (s' & p' & m0' & e0' & -> & Hw' & Eb).
    cbn [SFadd]. pose proof Hw as (_ & _ & B1 & _). pose proof Hw' as (_ & _ & B2 & _). apply (norm_ofz _ _ (a + b) prec); try lia.
    rewrite Z.mul_add_distr_r, (shl_z s m0 e0 _ p), (shl_z s' m0' e0' _ p') by (auto; lia). subst a b. lia.
Qed.
Lemma ofz_mul a b : Z.abs a <= 2 ^ prec -> Z.abs b <= 2 ^ prec -> Z.abs a * Z.abs b <= 2 ^ prec -> @rmul flt (flt_ops prec emax) (ofz a) (ofz b) = ofz (a * b).
Proof.
  intros Ha Hb Hab. cbn [rmul flt_ops]. destruct (Z.eq_dec a 0) as [->|Na]; [|destruct (Z.eq_dec b 0) as [->|Nb]].
  - rewrite ofz_0, Z.mul_0_l. pose proof (ofz_wz b Hb) as G. destruct b as [|p|p]; cbn [wz] in G; [rewrite G; reflexivity| |]; destruct G as (m0 & e0 & -> & _); reflexivity.
  - rewrite ofz_0, Z.mul_0_r. pose proof (ofz_wz a Ha) as G. destruct a as [|p|p]; cbn [wz] in G; [rewrite G; reflexivity| |]; destruct G as (m0 & e0 & -> & _); reflexivity.
  - destruct (wz_nz a _ Na (ofz_wz a Ha)) as (s & p & m0 & e0 & -> & Hw & Ea). destruct (wz_nz b _ Nb (ofz_wz b Hb)) as (s' & p' & m0' & e0' & -> & Hw' & Eb).
    cbn [SFmul]. destruct Hw as (_ & D1 & B1 & E1), Hw' as (_ & D2 & B2 & E2).
    assert (Pp : Zpos (p * p') = Z.abs a * Z.abs b) by (subst a b; destruct s, s'; reflexivity).
    assert (Dm : prec <= Zdigits2 (Zpos (m0 * m0'))).
    { destruct (digits_spec (Zpos m0) ltac:(lia)) as (_ & _ & X). destruct X as [_ X]; [lia|]. rewrite D1 in X.
      destruct (digits_spec (Zpos (m0 * m0')) ltac:(lia)) as (X0 & X1 & _).
      set (dd := Zdigits2 (Zpos (m0 * m0'))) in *. clearbody dd. destruct (Z_le_gt_dec prec dd) as [|Hgt]; auto. exfalso.
      assert (2 ^ dd <= 2 ^ (prec - 1)) by (apply Z.pow_le_mono_r; lia). rewrite Pos2Z.inj_mul in X1. nia. }
    assert (EB : binary_round_aux prec emax (xorb s s') (Zpos (m0 * m0')) (e0 + e0') loc_Exact = binary_round prec emax (xorb s s') (m0 * m0') (e0 + e0')).
    { unfold binary_round. change (Z.pos (digits2_pos (m0 * m0'))) with (Zdigits2 (Zpos (m0 * m0'))). rewrite shl_none; [reflexivity|]. unfold SpecFloat.fexp. lia. }
    rewrite EB. destruct (writes_ex (p * p')) as (m1 & e1 & Hw1); [rewrite Pp; exact Hab|].
    rewrite (writes_round _ (p * p') m1 e1 _ _ (prec + prec) Hw1); [|lia|lia|].
    + assert (Z.abs (a * b) <= 2 ^ prec) by (rewrite Z.abs_mul; exact Hab).
      unfold flt_of_Z. destruct (a * b) as [|r|r] eqn:Er; [nia| |]; cbn [binary_normalize].
      * assert (r = (p * p')%positive /\ xorb s s' = false) as [-> ->] by (subst a b; destruct s, s'; cbn [cond_Zopp xorb] in *; split; try reflexivity; lia).
        rewrite (writes_round _ (p * p') m1 e1 _ 0 0 Hw1); [reflexivity|lia|lia|reflexivity].
      * assert (r = (p * p')%positive /\ xorb s s' = true) as [-> ->] by (subst a b; destruct s, s'; cbn [cond_Zopp xorb] in *; split; try reflexivity; lia).
        rewrite (writes_round _ (p * p') m1 e1 _ 0 0 Hw1); [reflexivity|lia|lia|reflexivity].
    + rewrite !Pos2Z.inj_mul. replace (e0 + e0' + (prec + prec)) with ((e0 + prec) + (e0' + prec)) by lia. replace (2 ^ (prec + prec)) with (2 ^ prec * 2 ^ prec) by (rewrite <- Z.pow_add_r by lia; f_equal; lia).
      rewrite (Z.pow_add_r 2 (e0 + prec) (e0' + prec)) by lia. 
      transitivity ((Zpos m0 * 2 ^ (e0 + prec)) * (Zpos m0' * 2 ^ (e0' + prec))); [ring|]. rewrite E1, E2. ring.
Qed.
Lemma ofz_neg a : @rneg flt (flt_ops prec emax) (ofz a) = ofz (- a).
Proof.
  cbn [rneg flt_ops]. unfold flt_of_Z. rewrite opp_of. apply normalize_neg.
Qed.
Lemma ofz_inj a b : Z.abs a <= 2 ^ prec -> Z.abs b <= 2 ^ prec -> ofz a = ofz b -> a = b.
Proof.
  intros Ha Hb E. pose proof (ofz_wz a Ha) as Wa. pose proof (ofz_wz b Hb) as Wb. rewrite E in Wa. set (x := to_sf (ofz b)) in *. clearbody x.
  destruct a as [|p|p], b as [|p'|p']; cbn [wz] in *; try reflexivity;
    repeat match goal with H : exists _, _ |- _ => destruct H as (? & H) | H : _ /\ _ |- _ => destruct H end; try congruence; subst x;
    match goal with H : S754_finite _ _ _ = S754_finite _ _ _ |- _ => inversion H; subst end;
    repeat match goal with H : writes _ _ _ |- _ => destruct H as (_ & _ & _ & H) end;
    (assert (0 < 2 ^ prec) by (apply pw; lia)); nia.
Qed.
Lemma sfeqb_refl x : SFeqb (S754_finite (fst (fst x)) (snd (fst x)) (snd x)) (S754_finite (fst (fst x)) (snd (fst x)) (snd x)) = true.
Proof. destruct x as [[s m] e]. cbn [fst snd]. unfold SFeqb, SFcompare. rewrite Z.compare_refl. change (Pos.compare_cont Eq m m) with (Pos.compare m m). rewrite Pos.compare_refl. destruct s; reflexivity. Qed.
Lemma sfeqb_fin s m e s' m' e' : SFeqb (S754_finite s m e) (S754_finite s' m' e') = true -> s = s' /\ m = m' /\ e = e'.
Proof.
  unfold SFeqb, SFcompare. change (Pos.compare_cont Eq m m') with (Pos.compare m m').
  destruct s, s'; try discriminate; (destruct (Z.compare_spec e e'); try discriminate); (destruct (Pos.compare_spec m m'); try discriminate); auto.
Qed.
Lemma ofz_eqb a b : Z.abs a <= 2 ^ prec -> Z.abs b <= 2 ^ prec -> @reqb flt (flt_ops prec emax) (ofz a) (ofz b) = (a =? b).
Proof.
  intros Ha Hb. cbn [reqb flt_ops]. pose proof (ofz_inj a b Ha Hb) as Inj. destruct (Z.eqb_spec a b) as [->|Hne].
  - pose proof (ofz_wz b Hb) as Wb. destruct b as [|p|p]; cbn [wz] in Wb; [rewrite Wb; reflexivity| |]; destruct Wb as (m0 & e0 & -> & _).
    + exact (sfeqb_refl (false, m0, e0)).
    + exact (sfeqb_refl (true, m0, e0)).
  - apply not_true_is_false. intros E. apply Hne, Inj. clear Inj.
    rewrite <- (of_to (ofz a)), <- (of_to (ofz b)). destruct (Z.eq_dec a 0) as [->|Na]; [|destruct (Z.eq_dec b 0) as [->|Nb]].
    + destruct (wz_nz b _ ltac:(lia) (ofz_wz b Hb)) as (s & p & m0 & e0 & Eb & _). rewrite Eb in E. rewrite ofz_0 in E. destruct s; discriminate E.
    + destruct (wz_nz a _ ltac:(lia) (ofz_wz a Ha)) as (s & p & m0 & e0 & Eb & _). rewrite Eb in E. rewrite ofz_0 in E. destruct s; discriminate E.
    + destruct (wz_nz a _ Na (ofz_wz a Ha)) as (s & p & m0 & e0 & E1 & _). destruct (wz_nz b _ Nb (ofz_wz b Hb)) as (s' & p' & m0' & e0' & E2 & _).
      rewrite E1, E2 in *. apply sfeqb_fin in E as (-> & -> & ->). reflexivity.
Qed.

Lemma writes_val p m0 e0 : writes p m0 e0 -> (inject_Z (Zpos m0) * bp e0 == inject_Z (Zpos p))%Q.
Proof.
  intros (_ & _ & B & E). apply (Qmult_inj_r _ _ (bp prec)); [pose proof (bp_pos prec) as G; intros X; rewrite X in G; discriminate G|].
  rewrite <- Qmult_assoc, <- bp_add, !bp_Z by lia. rewrite <- !inject_Z_mult, E. reflexivity.
Qed.
Lemma ofz_val z : Z.abs z <= 2 ^ prec -> flt_val (ofz z) = Q2Qc (inject_Z z).
Proof.
  intros Hz. apply Qc_is_canon. rewrite flt_val_this. cbn [this Q2Qc]. rewrite Qred_correct. pose proof (ofz_wz z Hz) as G. destruct z as [|p|p]; cbn [wz] in G.
  - rewrite G. reflexivity.
  - destruct G as (m0 & e0 & -> & Hw). apply writes_val in Hw. cbn [sq_val]. exact Hw.
  - destruct G as (m0 & e0 & -> & Hw). apply writes_val in Hw. cbn [sq_val]. change (inject_Z (Z.neg p)) with (- inject_Z (Zpos p))%Q. rewrite <- Hw.
    change (inject_Z (cond_Zopp true (Zpos m0))) with (- inject_Z (Zpos m0))%Q. ring.
Qed.

Lemma top_big : 2 <= 2 ^ prec.
Proof. change 2 with (2 ^ 1) at 1. apply Z.pow_le_mono_r; lia. Qed.
Theorem int_laws : @EmbLaws Z flt ZOps real_conj (flt_ops prec emax) real_conj (int_emb prec emax).
Proof.
  pose proof top_big as Ht. constructor; cbn [emb size top int_emb rconj real_conj]; intros.
  - reflexivity.
  - change (@r1 Z ZOps) with 1. lia.
  - lia.
  - change (@rneg Z ZOps a) with (- a). lia.
  - change (@radd Z ZOps a b) with (a + b). lia.
  - change (@rmul Z ZOps a b) with (a * b). rewrite Z.abs_mul. lia.
  - reflexivity.
  - reflexivity.
  - reflexivity.
  - reflexivity.
  - apply ofz_neg.
  - reflexivity.
  - apply ofz_add; assumption.
  - apply ofz_mul; assumption.
  - apply ofz_eqb; assumption.
Qed.
Theorem gauss_laws : @EmbLaws (cplx Z) (cplx flt) (CplxOps (RO := ZOps)) (CplxConj (RO := ZOps)) (CplxOps (RO := flt_ops prec emax)) (CplxConj (RO := flt_ops prec emax)) (gauss_emb prec emax).
Proof.
  pose proof top_big as Ht. pose proof (flt_laws prec emax) as NL.
  assert (H3 : forall u v, Z.abs u <= 2 ^ prec -> Z.abs v <= 2 ^ prec -> Z.abs (u - v) <= 2 ^ prec -> @rsub flt (flt_ops prec emax) (ofz u) (ofz v) = ofz (u - v)).
  { intros u v Hu Hv Huv. rewrite (@n_sub_def flt (flt_ops prec emax) NL), ofz_neg, ofz_add; [reflexivity|exact Hu|lia|exact Huv]. }
  constructor; cbn [emb size top gauss_emb rconj CplxConj r0 r1 radd rsub rmul rneg reqb CplxOps c_re c_im ZOps].
  - reflexivity.
  - change (Z.abs 1 + Z.abs 0) with 1. lia.
  - intros [a b]. cbn [c_re c_im]. lia.
  - intros [a b]. cbn [c_re c_im]. lia.
  - intros [a b] [a' b']. cbn [c_re c_im]. lia.
  - intros [a b] [a' b']. cbn [c_re c_im]. pose proof (Z.abs_mul a a') as M1. pose proof (Z.abs_mul b b') as M2. pose proof (Z.abs_mul a b') as M3. pose proof (Z.abs_mul b a') as M4.
    rewrite !Z.mul_add_distr_r, !Z.mul_add_distr_l, <- M1, <- M2, <- M3, <- M4. generalize (a * a') (b * b') (a * b') (b * a'). clear. lia.
  - intros [a b]. cbn [c_re c_im]. lia.
  - reflexivity.
  - reflexivity.
  - reflexivity.
  - intros [a b]. cbn [c_re c_im]. f_equal; apply ofz_neg.
  - intros [a b]. cbn [c_re c_im]. f_equal; apply ofz_neg.
  - intros [a b] [a' b']. cbn [c_re c_im]. intros. f_equal; apply ofz_add; lia.
  - intros [a b] [a' b']. cbn [c_re c_im]. intros H1 H2 HM. pose proof (Z.abs_mul a a') as M1. pose proof (Z.abs_mul b b') as M2. pose proof (Z.abs_mul a b') as M3. pose proof (Z.abs_mul b a') as M4.
    rewrite !Z.mul_add_distr_r, !Z.mul_add_distr_l, <- M1, <- M2, <- M3, <- M4 in HM.
    assert (Hz : forall u v, 0 <= Z.abs (u * v)) by (intros; apply Z.abs_nonneg).
    pose proof (Hz a a'). pose proof (Hz b b'). pose proof (Hz a b'). pose proof (Hz b a').
    rewrite (ofz_mul a a'), (ofz_mul b b'), (ofz_mul a b'), (ofz_mul b a') by (try (rewrite <- Z.abs_mul); lia).
    rewrite H3, ofz_add by lia. reflexivity.
  - intros [a b] [a' b']. cbn [c_re c_im]. intros. rewrite !ofz_eqb by lia. reflexivity.
Qed.
End Fmt.
