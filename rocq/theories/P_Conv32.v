(** Conversions between single and double precision. *)
From Verif Require Export M_Conv32 Spec_Round P_Round P_Round2.
From Coq Require Import ZArith Lia QArith Qabs Lqa Bool Floats.SpecFloat.
Local Open Scope Z_scope.

Lemma tri a b v U Q : 2 * Z.abs (a - v) <= U -> Z.abs (v - b) < Q -> 2 * Q <= U -> Z.abs (a - b) < U.
Proof. lia. Qed.
Lemma pow_split g h k : g <= h -> h <= k -> 2 ^ (k - g) = 2 ^ (k - h) * 2 ^ (h - g).
Proof. intros. rewrite <- Z.pow_add_r by lia. f_equal. lia. Qed.

Section Fmt.
Variables prec emax : Z.
Hypothesis Hp : 1 < prec.
Hypothesis Hr : emin prec emax <= emax - prec.
Local Notation emin := (emin prec emax).
Local Notation fexp := (fexp prec emax).
Local Notation mag m e := (Zdigits2 m + e).

Lemma digits_pow k : 0 <= k -> Zdigits2 (2 ^ k) = k + 1.
Proof. intros H. rewrite <- (Z.mul_1_l (2 ^ k)), digits_shift by lia. change (Zdigits2 1) with 1. lia. Qed.
Lemma digits_uniq m d : 0 < m -> 2 ^ (d - 1) <= m < 2 ^ d -> 1 <= d -> Zdigits2 m = d.
Proof.
  intros Hm [H1 H2] Hd. destruct (digits_spec m) as (A & B & C); [lia|]. destruct C as [C1 C2]; [lia|].
  assert (Zdigits2 m <= d) by (apply digits_le; lia). destruct (Z_lt_ge_dec (Zdigits2 m) d); [|lia]. exfalso.
  assert (2 ^ Zdigits2 m <= 2 ^ (d - 1)) by (apply Z.pow_le_mono_r; lia). lia.
Qed.

(** Rounding a number whose last place is at most that of the format. *)
Lemma aux_exact s q e : 0 < q -> e <= fexp (mag q e) -> let f := fexp (mag q e) in
  exists m1 m2 e2, binary_round_aux prec emax s q e loc_Exact = (match m2 with Z0 => S754_zero s | Zpos m => if Zle_bool e2 (emax - prec) then S754_finite s m e2 else S754_infinity s | _ => S754_nan end) /\
    0 <= m2 /\ f <= e2 /\ m1 = m2 * 2 ^ (e2 - f) /\ 2 * Z.abs (m1 * 2 ^ (f - e) - q) <= 2 ^ (f - e) /\ (0 < m2 -> fexp (mag m2 e2) = e2).
Proof.
  intros Hq He f. unfold binary_round_aux, shr_fexp. set (d := Zdigits2 q) in *. fold f.
  destruct (digits_spec q ltac:(lia)) as (Hd0 & Hd1 & Hd2). fold d in Hd0, Hd1, Hd2. destruct Hd2 as [Hd2 Hd3]; [lia|].
  set (k := f - e). assert (Hk : 0 <= k) by (unfold k; lia).
  assert (G : exists x, shr (shr_record_of_loc q loc_Exact) e k = (x, f) /\ inv 1 q k x).
  { assert (I0 : inv 1 q 0 (shr_record_of_loc q loc_Exact)). { split; [cbn; lia|]. exists 0. cbn. lia. }
    destruct k as [|p|p] eqn:Ek; [| |lia]; cbn [shr].
    - eexists. split; [f_equal; lia|exact I0].
    - eexists. split; [f_equal; lia|]. exact (inv_iter 1 q p eq_refl 0 _ (Z.le_refl 0) I0). }
  destruct G as (x & -> & HI). pose proof (rne_spec 1 q k x eq_refl Hk HI) as R. cbv zeta in R. set (m1 := round_nearest_even _ _) in *. destruct R as (R1 & R2).
  destruct HI as (Hx0 & rem & EW & Hrem & _). rewrite Z.mul_1_r in *. assert (HPk : 0 < 2 ^ k) by (apply Z.pow_pos_nonneg; lia).
  assert (MAIN : exists m2 k2, 0 <= m2 /\ 0 <= k2 /\ fexp (mag m1 f) - f = k2 /\ shr (shr_record_of_loc m1 loc_Exact) f k2 = (shr_record_of_loc m2 loc_Exact, f + k2) /\ m1 = m2 * 2 ^ k2 /\ (0 < m2 -> fexp (mag m2 (f + k2)) = f + k2)).
  { assert (T0 : fexp (mag m1 f) = f -> exists m2 k2, 0 <= m2 /\ 0 <= k2 /\ fexp (mag m1 f) - f = k2 /\ shr (shr_record_of_loc m1 loc_Exact) f k2 = (shr_record_of_loc m2 loc_Exact, f + k2) /\ m1 = m2 * 2 ^ k2 /\ (0 < m2 -> fexp (mag m2 (f + k2)) = f + k2)).
    { intros E. exists m1, 0. split; [lia|]. split; [lia|]. split; [lia|]. split; [cbn; f_equal; lia|]. split; [lia|]. rewrite Z.add_0_r. auto. }
    destruct (Z_le_gt_dec emin (d + e - prec)) as [Hc|Hc].
    - assert (Ef : f = d + e - prec) by (unfold f, SpecFloat.fexp; lia). assert (Ekd : k = d - prec) by (unfold k; lia).
      assert (E2 : 2 ^ d = 2 ^ prec * 2 ^ k) by (rewrite <- Z.pow_add_r by lia; f_equal; lia).
      assert (E3 : 2 ^ (d - 1) = 2 ^ (prec - 1) * 2 ^ k) by (rewrite <- Z.pow_add_r by lia; f_equal; lia).
      assert (E4 : 2 ^ prec = 2 * 2 ^ (prec - 1)) by (rewrite <- Z.pow_succ_r by lia; f_equal; lia).
      assert (HA : 0 < 2 ^ (prec - 1)) by (apply Z.pow_pos_nonneg; lia). set (H := 2 ^ (prec - 1)) in *.
      assert (B1 : H <= shr_m x < 2 ^ prec) by nia.
      destruct (Z.eq_dec m1 (2 ^ prec)) as [Em|Em].
      + assert (Ed : Zdigits2 m1 = prec + 1) by (rewrite Em; apply digits_pow; lia).
        exists H, 1. split; [lia|]. split; [lia|]. split; [rewrite Ed; unfold SpecFloat.fexp; lia|]. split.
        { rewrite Em, E4. cbn [shr iter_pos shr_record_of_loc]. f_equal. clearbody H. destruct H; try lia. reflexivity. }
        split; [rewrite Em, E4; lia|]. intros _. assert (Zdigits2 H = prec) by (unfold H; rewrite digits_pow; lia). rewrite H0. unfold SpecFloat.fexp. lia.
      + apply T0. assert (Ed : Zdigits2 m1 = prec) by (apply digits_uniq; fold H; lia). rewrite Ed. unfold SpecFloat.fexp. lia.
    - apply T0. assert (Ef : f = emin) by (unfold f, SpecFloat.fexp; lia).
      assert (Hdm : Zdigits2 m1 <= prec).
      { destruct (Z_le_gt_dec k d) as [Hkd|Hkd].
        - assert (E2 : 2 ^ d = 2 ^ (d - k) * 2 ^ k) by (rewrite <- Z.pow_add_r by lia; f_equal; lia).
          assert (shr_m x < 2 ^ (d - k)) by nia. assert (2 ^ (d - k) <= 2 ^ (prec - 1)) by (apply Z.pow_le_mono_r; unfold k; lia).
          assert (2 ^ (prec - 1) < 2 ^ prec) by (apply Z.pow_lt_mono_r; lia). apply digits_le; lia.
        - assert (2 ^ d <= 2 ^ k) by (apply Z.pow_le_mono_r; lia). assert (shr_m x = 0) by nia.
          assert (1 < 2 ^ prec) by (change 1 with (2 ^ 0); apply Z.pow_lt_mono_r; lia). apply digits_le; lia. }
      rewrite Ef. unfold SpecFloat.fexp. lia. }
  destruct MAIN as (m2 & k2 & H2 & Hk2 & -> & -> & Em & Hc). exists m1, m2, (f + k2). split; [destruct m2; reflexivity|]. split; [exact H2|]. split; [lia|]. split; [rewrite Em; f_equal; f_equal; lia|]. split; [exact R2|exact Hc].
Qed.

Lemma shl_exact m e e' : e' <= e -> shl_align m e e' = (fst (shl_align m e e'), e') /\ Zpos (fst (shl_align m e e')) = Zpos m * 2 ^ (e - e').
Proof.
  intros H. unfold shl_align. destruct (e' - e) as [|d|d] eqn:E; cbn [fst].
  - replace (e - e') with 0 by lia. split; [f_equal; lia|lia].
  - lia.
  - replace (e - e') with (Z.pos d) by lia. split; [reflexivity|]. rewrite shift_pos_correct. change (Zpower_pos 2 d) with (2 ^ Z.pos d). lia.
Qed.
Lemma shl_none m e e' : e <= e' -> shl_align m e e' = (m, e).
Proof. intros H. unfold shl_align. destruct (e' - e) as [|d|d] eqn:E; try reflexivity. lia. Qed.

(** The same for [binary_round], whatever the exponent. *)
Lemma bround_exact s m e : let f := fexp (mag (Zpos m) e) in let g := Z.min e f in
  exists m1 m2 e2, binary_round prec emax s m e = (match m2 with Z0 => S754_zero s | Zpos m => if Zle_bool e2 (emax - prec) then S754_finite s m e2 else S754_infinity s | _ => S754_nan end) /\
    0 <= m2 /\ f <= e2 /\ m1 = m2 * 2 ^ (e2 - f) /\ 2 * Z.abs (m1 * 2 ^ (f - g) - Zpos m * 2 ^ (e - g)) <= 2 ^ (f - g) /\ (0 < m2 -> fexp (mag m2 e2) = e2).
Proof.
  intros f g. unfold binary_round. change (Z.pos (digits2_pos m)) with (Zdigits2 (Z.pos m)). fold f. destruct (Z_le_gt_dec e f) as [H|H].
  - rewrite shl_none by exact H. assert (Eg : g = e) by lia. rewrite Eg. destruct (aux_exact s (Zpos m) e eq_refl H) as (m1 & m2 & e2 & E & R). exists m1, m2, e2. split; [exact E|].
    replace (e - e) with 0 by lia. rewrite Z.mul_1_r. exact R.
  - destruct (shl_exact m e f ltac:(lia)) as (-> & Em). set (m' := fst _) in *. assert (Eg : g = f) by lia. rewrite Eg.
    assert (Ed : mag (Zpos m') f = mag (Zpos m) e) by (rewrite Em, digits_shift by lia; lia).
    destruct (aux_exact s (Zpos m') f eq_refl) as (m1 & m2 & e2 & E & R); [rewrite Ed; fold f; lia|]. exists m1, m2, e2. split; [exact E|]. rewrite Ed in R. fold f in R. rewrite Em in R. exact R.
Qed.

Lemma bround_valid s m e : valid_binary prec emax (binary_round prec emax s m e) = true.
Proof.
  destruct (bround_exact s m e) as (m1 & m2 & e2 & -> & H2 & _ & _ & _ & Hc). destruct m2 as [|p|p]; [reflexivity| |lia]. destruct (Zle_bool e2 (emax - prec)) eqn:E; [|reflexivity].
  cbn [valid_binary]. unfold bounded. rewrite E, Bool.andb_true_r. unfold canonical_mantissa. change (Z.pos (digits2_pos p)) with (Zdigits2 (Z.pos p)). rewrite Hc by lia. apply Zeq_is_eq_bool. reflexivity.
Qed.

Lemma canon_of m e : bounded prec emax m e = true -> fexp (mag (Zpos m) e) = e /\ e <= emax - prec.
Proof.
  unfold bounded, canonical_mantissa. intros H. apply andb_true_iff in H as [H1 H2]. apply Zeq_bool_eq in H1. apply Zle_bool_imp_le in H2. auto.
Qed.
(** Two numbers of the format with the same value are the same. *)
Lemma canon_uniq m e m' e' : fexp (mag (Zpos m) e) = e -> fexp (mag (Zpos m') e') = e' -> Zpos m * 2 ^ (e - Z.min e e') = Zpos m' * 2 ^ (e' - Z.min e e') -> m = m' /\ e = e'.
Proof.
  intros C C' E. set (g := Z.min e e') in *.
  assert (Ed : mag (Zpos m) e = mag (Zpos m') e').
  { assert (D1 := digits_shift (Zpos m) (e - g) eq_refl ltac:(lia)). assert (D2 := digits_shift (Zpos m') (e' - g) eq_refl ltac:(lia)). rewrite E in D1. lia. }
  assert (e = e') by (rewrite <- C, <- C', Ed; reflexivity). subst e'. split; [|reflexivity].
  assert (0 < 2 ^ (e - g)) by (apply Z.pow_pos_nonneg; lia). apply Z.mul_reg_r in E; [injection E; auto|lia].
Qed.

(** A number close enough to one of the format is rounded to it. *)
Lemma bround_close s m e m0 e0 : bounded prec emax m0 e0 = true -> let g := Z.min e (e0 - 2) in
  Z.abs (Zpos m * 2 ^ (e - g) - Zpos m0 * 2 ^ (e0 - g)) < 2 ^ (e0 - 2 - g) -> binary_round prec emax s m e = S754_finite s m0 e0.
Proof.
  intros HB g HC. destruct (canon_of _ _ HB) as (C0 & L0). set (v := Zpos m * 2 ^ (e - g)) in *. set (x := Zpos m0 * 2 ^ (e0 - g)) in *.
  set (d := mag (Zpos m) e). set (d0 := mag (Zpos m0) e0) in *.
  assert (Dv : Zdigits2 v = d - g) by (unfold v, d; rewrite digits_shift by lia; lia).
  assert (Dx : Zdigits2 x = d0 - g) by (unfold x, d0; rewrite digits_shift by lia; lia).
  assert (Pg : forall k, 0 <= k -> 0 < 2 ^ k) by (intros; apply Z.pow_pos_nonneg; lia).
  assert (Hv : 0 < v) by (apply Z.mul_pos_pos; [lia|apply Pg; lia]). assert (Hx : 0 < x) by (apply Z.mul_pos_pos; [lia|apply Pg; lia]).
  destruct (digits_spec v ltac:(lia)) as (V0 & V1 & V2). destruct V2 as [V2 V3]; [lia|]. rewrite Dv in *.
  destruct (digits_spec x ltac:(lia)) as (X0 & X1 & X2). destruct X2 as [X2 X3]; [lia|]. rewrite Dx in *.
  set (Q := 2 ^ (e0 - 2 - g)) in *. assert (HQ : 0 < Q) by (apply Pg; lia).
  assert (EQ : 2 ^ (e0 - g) = 4 * Q) by (unfold Q; replace (e0 - g) with (e0 - 2 - g + 2) by lia; rewrite Z.pow_add_r by lia; lia).
  assert (D0 : 1 <= Zdigits2 (Zpos m0)) by (destruct (digits_spec (Zpos m0) ltac:(lia)) as (_ & _ & [? _]); lia).
  assert (Up : x + 4 * Q <= 2 ^ (d0 - g)).
  { assert (2 ^ (d0 - g) = 2 ^ (Zdigits2 (Zpos m0)) * 2 ^ (e0 - g)) by (rewrite <- Z.pow_add_r by lia; f_equal; unfold d0; lia). destruct (digits_spec (Zpos m0) ltac:(lia)) as (_ & B & _). unfold x. rewrite EQ in *. nia. }
  (* the last place of v *)
  set (f := fexp d). assert (HF : f = e0 \/ f = e0 - 1).
  { assert (d <= d0). { destruct (Z_le_gt_dec d d0); auto. exfalso. assert (2 ^ (d0 - g) <= 2 ^ (d - g - 1)) by (apply Z.pow_le_mono_r; lia). lia. }
    assert (d0 - 1 <= d).
    { destruct (Z_le_gt_dec (d0 - 1) d); auto. exfalso.
      assert (2 ^ (d - g) <= 2 ^ (d0 - g - 2)) by (apply Z.pow_le_mono_r; lia).
      assert (2 ^ (d0 - g - 1) = 2 * 2 ^ (d0 - g - 2)) by (rewrite <- Z.pow_succ_r by lia; f_equal; lia).
      assert (Q <= 2 ^ (d0 - g - 2)) by (unfold Q; apply Z.pow_le_mono_r; unfold d0; lia). lia. }
    unfold f. clearbody d d0. clear - C0 H H0. unfold SpecFloat.fexp in *. lia. }
  destruct (bround_exact s m e) as (m1 & m2 & e2 & E & H2 & Hfe & E1 & HN & Hc). fold d f in E, Hfe, E1, HN. rewrite E. clear E.
  set (h := Z.min e f) in *.
  (* the rounded value, in units 2^g *)
  assert (Hgf : g <= f) by lia. assert (Hgh : g <= h) by lia.
  assert (HN' : 2 * Z.abs (m1 * 2 ^ (f - g) - v) <= 2 ^ (f - g)).
  { assert (S1 : forall k, h <= k -> 2 ^ (k - g) = 2 ^ (k - h) * 2 ^ (h - g)) by (intros k Hk; rewrite <- Z.pow_add_r by lia; f_equal; lia).
    unfold v. rewrite (S1 f), (S1 e) by lia. assert (PH : 0 < 2 ^ (h - g)) by (apply Pg; lia). set (a := 2 ^ (f - h)) in *. set (b := 2 ^ (e - h)) in *. set (c := 2 ^ (h - g)) in *.
    replace (m1 * (a * c) - Z.pos m * (b * c)) with ((m1 * a - Z.pos m * b) * c) by ring. rewrite Z.abs_mul, (Z.abs_eq c) by lia. rewrite Z.mul_assoc. apply Z.mul_le_mono_nonneg_r; [lia|exact HN]. }
  assert (EX : m1 * 2 ^ (f - g) = x).
  { assert (Hx' : exists t, x = t * 2 ^ (f - g)).
    { exists (Zpos m0 * 2 ^ (e0 - f)). unfold x. rewrite <- Z.mul_assoc, <- Z.pow_add_r by lia. f_equal. f_equal. lia. }
    destruct Hx' as (t & Et). assert (PF : 0 < 2 ^ (f - g)) by (apply Pg; lia).
    assert (LT : 2 * Q <= 2 ^ (f - g)).
    { unfold Q. rewrite <- Z.pow_succ_r by lia. apply Z.pow_le_mono_r; lia. }
    rewrite Et in HC |- *. set (U := 2 ^ (f - g)) in *. cut (m1 = t); [intros ->; reflexivity|].
    assert (H := tri _ _ _ _ _ HN' HC LT). replace (m1 * U - t * U) with ((m1 - t) * U) in H by ring. rewrite Z.abs_mul, (Z.abs_eq U) in H by lia. clear - H PF. set (t' := m1 - t) in *. assert (Z.abs t' < 1) by (apply (Z.mul_lt_mono_pos_r U); lia). lia. }
  assert (H2p : 0 < m2). { destruct (Z.eq_dec m2 0); [|lia]. subst m2. rewrite E1, Z.mul_0_l in EX. lia. }
  specialize (Hc H2p). destruct m2 as [|p|p]; try lia.
  destruct (canon_uniq p e2 m0 e0 Hc C0) as [-> ->].
  { assert (PM : 0 < 2 ^ (Z.min e2 e0 - g)) by (apply Pg; lia).
    assert (EX2 : Zpos p * 2 ^ (e2 - g) = Zpos m0 * 2 ^ (e0 - g)).
    { unfold x in EX. rewrite <- EX, E1. rewrite <- Z.mul_assoc, <- Z.pow_add_r by lia. f_equal. f_equal. lia. }
    assert (Gm : g <= Z.min e2 e0) by (apply Z.min_glb; [apply (Z.le_trans _ f); assumption|unfold g; apply (Z.le_trans _ (e0 - 2)); [apply Z.le_min_r|clear; lia]]).
    rewrite (pow_split g _ e2 Gm (Z.le_min_l _ _)), (pow_split g _ e0 Gm (Z.le_min_r _ _)), !Z.mul_assoc in EX2. apply Z.mul_reg_r in EX2; [exact EX2|]. intros Z0. rewrite Z0 in PM. discriminate PM. }
  apply Zle_imp_le_bool in L0. rewrite L0. reflexivity.
Qed.
End Fmt.
