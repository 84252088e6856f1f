(** IEEE operations with small exact results do not overflow. *)
From Verif Require Export P_Round.
From Coq Require Import ZArith Lia QArith Qpower Qabs Lqa Bool Floats.SpecFloat.
Local Open Scope Z_scope.

Section Fmt.
Variables prec emax : Z.
Hypothesis Hp : 0 < prec.
Local Notation emin := (emin prec emax).
Local Notation fexp := (fexp prec emax).
Hypothesis Hmin : emin <= 0.
Hypothesis Hmax : emin <= emax - prec.
Definition sok (x : spec_float) : Prop :=
  match x with S754_zero _ => True | S754_finite _ m e => bounded prec emax m e = true | _ => False end.

Lemma bounded_iff m e : bounded prec emax m e = true <-> fexp (Z.pos (digits2_pos m) + e) = e /\ e <= emax - prec.
Proof.
  unfold bounded, canonical_mantissa. rewrite andb_true_iff, <- Zle_is_le_bool. rewrite <- Zeq_is_eq_bool. reflexivity.
Qed.

Lemma aux_ok s q e l W D :
  0 < D -> 0 <= q -> inv D W 0 (shr_record_of_loc q l) -> q * D <= W < (q + 1) * D ->
  e <= fexp (Zdigits2 q + e) -> Zdigits2 q + e <= emax - 1 -> sok (binary_round_aux prec emax s q e l).
Proof.
  intros HD Hq HI HW Hl Hb. unfold binary_round_aux, shr_fexp. set (d := Zdigits2 q) in *.
  destruct (digits_spec q Hq) as (Hd0 & Hd1 & Hd2). fold d in Hd0, Hd1, Hd2.
  remember (fexp (d + e) - e) as k eqn:Ek. assert (Hk0 : 0 <= k) by lia.
  assert (G : exists x, shr (shr_record_of_loc q l) e k = (x, e + k) /\ inv D W k x).
  { clear Ek. destruct k as [|p|p]; cbn [shr]; [| |lia].
    - exists (shr_record_of_loc q l). rewrite Z.add_0_r. split; [reflexivity|exact HI].
    - eexists. split; [reflexivity|]. exact (inv_iter D W p HD 0 _ (Z.le_refl 0) HI). }
  destruct G as (x & -> & HI1).
  pose proof (rne_spec D W k x HD Hk0 HI1) as R. cbv zeta in R. set (m1 := round_nearest_even _ _) in *.
  destruct R as (R1 & R2). destruct HI1 as (Hx0 & rem & EW & Hrem & Hcls).
  assert (HPn : 0 < 2 ^ k) by (apply Z.pow_pos_nonneg; lia).
  set (k2 := fexp (Zdigits2 m1 + (e + k)) - (e + k)).
  assert (Ee : e + k = fexp (d + e)) by lia.
  assert (K2 : k2 <= 0 \/ (k2 = 1 /\ m1 = 2 ^ prec /\ e + k + 1 <= emax - prec)).
  { assert (Hmx : shr_m x * (2 ^ k * D) < (q + 1) * D) by lia.
    assert (Hmx' : shr_m x * 2 ^ k < q + 1) by nia.
    assert (Hq1 : q + 1 <= 2 ^ d) by lia.
    destruct (Z_le_gt_dec k d) as [Hkd|Hkd].
    + assert (E2 : 2 ^ d = 2 ^ (d - k) * 2 ^ k) by (rewrite <- Z.pow_add_r by lia; f_equal; lia).
      assert (Hlt : shr_m x < 2 ^ (d - k)) by nia.
      assert (Hm1 : m1 <= 2 ^ (d - k)) by lia.
      destruct (Z.eq_dec m1 (2 ^ (d - k))) as [Em|Em].
      * assert (Hdm : Zdigits2 m1 <= d - k + 1).
        { apply digits_le; [lia|lia|]. rewrite Em, Z.pow_add_r by lia. change (2 ^ 1) with 2.
          assert (0 < 2 ^ (d - k)) by (apply Z.pow_pos_nonneg; lia). lia. }
        assert (Hk2 : k2 <= fexp (d + e + 1) - fexp (d + e)). { unfold k2. clear - Hdm Ee Ek. unfold SpecFloat.fexp in *. lia. }
        destruct (Z_le_gt_dec k2 0) as [Hz|Hz]; [left; auto|right]. split; [|split].
        { clear - Hk2 Hz. unfold SpecFloat.fexp in *. lia. }
        { assert (E : d - k = prec). { clear - Hk2 Ee Ek Hz Hp. unfold SpecFloat.fexp in *. lia. } rewrite <- E. exact Em. }
        { clear - Hk2 Hz Ee Hb Hmax. unfold SpecFloat.fexp in *. lia. }
      * left. assert (Hdm : Zdigits2 m1 <= d - k) by (apply digits_le; lia).
        unfold k2. clear - Hdm Ee Ek Hp. unfold SpecFloat.fexp in *. lia.
    + assert (shr_m x = 0).
      { assert (2 ^ d < 2 ^ k) by (apply Z.pow_lt_mono_r; lia). nia. }
      assert (Hdm : Zdigits2 m1 <= 1) by (apply digits_le; cbn; lia). left.
      unfold k2. clear - Hdm Ee Ek Hp Hkd. unfold SpecFloat.fexp in *. lia. }
  assert (Hcan : 0 < m1 -> e + k <= fexp (Zdigits2 m1 + (e + k))).
  { intros Hm1. destruct (Z_le_gt_dec (d + e - prec) emin) as [Hc|Hc].
    { rewrite Ee. unfold SpecFloat.fexp in *. lia. }
    assert (Ek' : k = d - prec). { clear - Hc Ek. unfold SpecFloat.fexp in *. lia. }
    assert (Hqp : 0 < q). { destruct (Z.eq_dec q 0) as [E0|]; [|lia]. unfold d in Ek'. rewrite E0 in Ek'. cbn [Zdigits2] in Ek'. lia. }
    destruct (Hd2 Hqp) as [Hd3 Hd4].
    assert (E2 : 2 ^ (d - 1) = 2 ^ (prec - 1) * 2 ^ k) by (rewrite <- Z.pow_add_r by lia; f_equal; lia).
    assert (Hlow : 2 ^ (prec - 1) <= shr_m x).
    { assert (2 ^ (prec - 1) * (2 ^ k * D) < (shr_m x + 1) * (2 ^ k * D)) by nia.
      assert (0 < 2 ^ k * D) by nia. nia. }
    assert (Hdm : prec <= Zdigits2 m1).
    { destruct (digits_spec m1) as (A1 & A2 & _); [lia|]. destruct (Z_le_gt_dec prec (Zdigits2 m1)) as [|C]; auto. exfalso.
      assert (2 ^ Zdigits2 m1 <= 2 ^ (prec - 1)) by (apply Z.pow_le_mono_r; lia). lia. }
    clear - Hdm. unfold SpecFloat.fexp in *. lia. }
  destruct K2 as [K2|(K2 & Em & He)].
  - assert (Es : shr (shr_record_of_loc m1 loc_Exact) (e + k) k2 = (shr_record_of_loc m1 loc_Exact, e + k)).
    { destruct k2; try reflexivity; lia. }
    rewrite Es. cbn [shr_record_of_loc shr_m].
    assert (He : e + k <= emax - prec). { rewrite Ee. clear - Hb Hmax. unfold SpecFloat.fexp in *. lia. }
    assert (Hm0 : 0 <= m1) by lia.
    destruct m1 as [|p|p]; [exact I| |lia]. specialize (Hcan eq_refl). rewrite (proj1 (Zle_is_le_bool _ _) He). cbn [sok].
    apply bounded_iff. split; [|exact He]. unfold k2 in K2. cbn [Zdigits2] in K2, Hcan. lia.
  - assert (E3 : 2 ^ prec = 2 ^ (prec - 1) * 2).
    { replace prec with (prec - 1 + 1) at 1 by lia. rewrite Z.pow_add_r by lia. reflexivity. }
    rewrite K2, Em, E3.
    assert (Hh : 0 < 2 ^ (prec - 1)) by (apply Z.pow_pos_nonneg; lia). 
    assert (Ed : Zdigits2 (2 ^ (prec - 1)) = prec).
    { destruct (digits_spec (2 ^ (prec - 1))) as (A1 & A2 & A3); [lia|]. destruct (A3 Hh) as [A4 A5]. apply Z.le_antisymm.
      - apply digits_le; [lia|lia|]. apply Z.pow_lt_mono_r; lia.
      - destruct (Z_le_gt_dec prec (Zdigits2 (2 ^ (prec - 1)))) as [|C]; auto. exfalso.
        assert (2 ^ Zdigits2 (2 ^ (prec - 1)) <= 2 ^ (prec - 1)) by (apply Z.pow_le_mono_r; lia). lia. }
    set (h := 2 ^ (prec - 1)) in *. destruct h as [|p|p]; [lia| |lia].
    cbn [shr iter_pos shr_record_of_loc]. replace (Z.pos p * 2) with (Z.pos p~0) by lia. cbn [shr_1 shr_m orb].
    rewrite (proj1 (Zle_is_le_bool _ _) He). cbn [sok]. apply bounded_iff. split; [|exact He].
    cbn [Zdigits2] in Ed. rewrite Ed. clear - Ee Hp. unfold SpecFloat.fexp in *. lia.
Qed.

Lemma round_ok s m e : e <= fexp (Zdigits2 (Zpos m) + e) -> Zdigits2 (Zpos m) + e <= emax - 1 -> sok (binary_round_aux prec emax s (Zpos m) e loc_Exact).
Proof. intros H1 H2. apply (aux_ok s (Zpos m) e loc_Exact (Zpos m) 1); auto; try lia. apply (inv0 1 _ _ 0); lia. Qed.
Lemma bround_ok s m e : Zdigits2 (Zpos m) + e <= emax - 1 -> sok (binary_round prec emax s m e).
Proof.
  intros H. unfold binary_round. change (Z.pos (digits2_pos m)) with (Zdigits2 (Z.pos m)). unfold shl_align.
  destruct (fexp (Zdigits2 (Z.pos m) + e) - e) as [|p|p] eqn:E.
  - apply round_ok; auto. lia.
  - apply round_ok; auto. lia.
  - assert (Ed : Zdigits2 (Z.pos (shift_pos p m)) = Zdigits2 (Z.pos m) + Z.pos p).
    { rewrite shift_pos_correct. change (Zpower_pos 2 p) with (2 ^ Z.pos p). rewrite Z.mul_comm. apply digits_shift; lia. }
    apply round_ok; rewrite Ed; [|lia]. replace (Zdigits2 (Z.pos m) + Z.pos p + fexp (Zdigits2 (Z.pos m) + e)) with (Zdigits2 (Z.pos m) + e) by lia. lia.
Qed.
Lemma digits_bound (q e : Z) (v : Q) : 0 < q -> (inject_Z q * bp e <= v)%Q -> (v < bp (emax - 1))%Q -> Zdigits2 q + e <= emax - 1.
Proof.
  intros Hq H1 H2. destruct (digits_spec q) as (A1 & A2 & A3); [lia|]. destruct (A3 Hq) as [A4 A5].
  destruct (Z_le_gt_dec (Zdigits2 q + e) (emax - 1)) as [|C]; auto. exfalso.
  assert (B : (bp (emax - 1) <= bp (Zdigits2 q - 1 + e))%Q) by (apply bp_le; lia).
  assert (B2 : (bp (Zdigits2 q - 1 + e) <= inject_Z q * bp e)%Q).
  { rewrite bp_add. apply Qmult_le_compat_r; [|apply Qlt_le_weak, bp_pos]. rewrite bp_Z by lia. rewrite <- Zle_Qle. exact A5. }
  apply (Qlt_irrefl v). eapply Qlt_le_trans; [exact H2|]. eapply Qle_trans; [exact B|]. eapply Qle_trans; [exact B2|exact H1].
Qed.
Lemma norm_ok z e s : (Qabs (inject_Z z * bp e) < bp (emax - 1))%Q -> sok (binary_normalize prec emax z e s).
Proof.
  intros H. unfold binary_normalize. destruct z as [|p|p]; [exact I| |]; apply bround_ok.
  - apply digits_bound with (v := Qabs (inject_Z (Z.pos p) * bp e)); auto; [reflexivity|]. apply Qle_Qabs.
  - apply digits_bound with (v := Qabs (inject_Z (Z.neg p) * bp e)); auto; [reflexivity|].
    change (Z.neg p) with (- Z.pos p). assert (E : (inject_Z (- Z.pos p) * bp e == - (inject_Z (Z.pos p) * bp e))%Q) by (rewrite inject_Z_opp; ring).
    rewrite E, Qabs_opp. apply Qle_Qabs.
Qed.
Lemma add_ok x y : sok x -> sok y -> (Qabs (sq_val x + sq_val y) < bp (emax - 1))%Q -> sok (SFadd prec emax x y).
Proof.
  intros Hx Hy H. destruct x as [sx|sx| |sx mx ex], y as [sy|sy| |sy my ey]; cbn [sok] in Hx, Hy; try contradiction; cbn [SFadd].
  - destruct sx, sy; exact I.
  - exact Hy.
  - exact Hx.
  - apply norm_ok.
    assert (E : (inject_Z (cond_Zopp sx (Z.pos (fst (shl_align mx ex (Z.min ex ey)))) + cond_Zopp sy (Z.pos (fst (shl_align my ey (Z.min ex ey))))) * bp (Z.min ex ey)
      == sq_val (S754_finite sx mx ex) + sq_val (S754_finite sy my ey))%Q).
    { rewrite inject_Z_plus, Qmult_plus_distr_l. cbn [sq_val]. rewrite !cond_val.
      rewrite (shl_fst mx ex) by lia. rewrite (shl_fst my ey) by lia. reflexivity. }
    rewrite E. exact H.
Qed.
Lemma mul_ok x y : sok x -> sok y -> (Qabs (sq_val x * sq_val y) < bp (emax - 1))%Q -> sok (SFmul prec emax x y).
Proof.
  intros Hx Hy H. destruct x as [sx|sx| |sx mx ex], y as [sy|sy| |sy my ey]; cbn [sok] in Hx, Hy; try contradiction; cbn [SFmul]; try exact I.
  apply bounded_iff in Hx. apply bounded_iff in Hy. destruct Hx as [X1 X2]. destruct Hy as [Y1 Y2].
  assert (E : (sq_val (S754_finite sx mx ex) * sq_val (S754_finite sy my ey) == (if xorb sx sy then - 1 else 1) * (inject_Z (Z.pos (mx * my)) * bp (ex + ey)))%Q).
  { cbn [sq_val]. rewrite !cond_val, bp_add, Pos2Z.inj_mul, inject_Z_mult. destruct sx, sy; cbn [xorb]; ring. }
  rewrite E, Qabs_Qmult in H. assert (E1 : (Qabs (if xorb sx sy then - 1 else 1) == 1)%Q) by (destruct (xorb sx sy); reflexivity).
  rewrite E1, Qmult_1_l in H.
  assert (Hd : Z.pos (digits2_pos mx) + Z.pos (digits2_pos my) - 1 <= Zdigits2 (Z.pos (mx * my))).
  { destruct (digits_pos mx) as [_ M1]. destruct (digits_pos my) as [_ M2]. destruct (digits_spec (Z.pos (mx * my))) as (_ & D1 & _); [lia|].
    set (a := Z.pos (digits2_pos mx)) in *. set (b := Z.pos (digits2_pos my)) in *. set (c := Zdigits2 (Z.pos (mx * my))) in *.
    destruct (Z_le_gt_dec (a + b - 1) c) as [|C]; auto. exfalso.
    assert (P : 2 ^ c <= 2 ^ (a - 1 + (b - 1))) by (apply Z.pow_le_mono_r; lia).
    rewrite Z.pow_add_r in P by lia. rewrite Pos2Z.inj_mul in D1. nia. }
  apply round_ok.
  - clear - X1 Y1 Hd Hmin Hp. set (c := Zdigits2 (Z.pos (mx * my))) in *. clearbody c. set (a := digits2_pos mx) in *. set (b := digits2_pos my) in *. clearbody a b.
    unfold SpecFloat.fexp in *. lia.
  - apply digits_bound with (v := Qabs (inject_Z (Z.pos (mx * my)) * bp (ex + ey))); auto; [reflexivity|]. apply Qle_Qabs.
Qed.
Lemma div_ok x y : sok x -> sok y -> ~ (sq_val y == 0)%Q -> (Qabs (sq_val x / sq_val y) < bp (emax - 1))%Q -> sok (SFdiv prec emax x y).
Proof.
  intros Hx Hy Hy0 H. destruct x as [sx|sx| |sx mx ex], y as [sy|sy| |sy my ey]; cbn [sok] in Hx, Hy; try contradiction; cbn [SFdiv]; try exact I.
  1, 2: exfalso; apply Hy0; reflexivity.
  destruct (SFdiv_core_binary prec emax (Z.pos mx) ex (Z.pos my) ey) as [[q e] l] eqn:Ec. unfold SFdiv_core_binary in Ec.
  set (d1 := Zdigits2 (Z.pos mx)) in *. set (d2 := Zdigits2 (Z.pos my)) in *.
  set (e' := Z.min (fexp (d1 + ex - (d2 + ey))) (ex - ey)) in *.
  assert (Hs : 0 <= ex - ey - e') by lia.
  assert (Em : (match ex - ey - e' with Z0 => Z.pos mx | Zpos _ => Z.shiftl (Z.pos mx) (ex - ey - e') | Zneg _ => 0 end) = Z.pos mx * 2 ^ (ex - ey - e')).
  { destruct (ex - ey - e') as [|p|p] eqn:Es; [cbn; lia| |lia]. apply Z.shiftl_mul_pow2. lia. }
  rewrite Em in Ec. clear Em. set (s := ex - ey - e') in *. set (W := Z.pos mx * 2 ^ s) in *.
  pose proof (Z_div_mod W (Z.pos my) eq_refl) as DM. destruct (Z.div_eucl W (Z.pos my)) as [q' r'] eqn:Eq. injection Ec as <- <- <-.
  destruct DM as [EW Hr'].
  assert (HW : 0 < W) by (apply Z.mul_pos_pos; [lia|apply Z.pow_pos_nonneg; lia]).
  assert (Hq' : 0 <= q') by nia.
  assert (Hdm : Zdigits2 W = d1 + s) by (apply digits_shift; lia).
  destruct (digits_spec (Z.pos my)) as (Y0 & Y1 & Y2); [lia|]. destruct Y2 as [Y2 Y3]; [lia|]. fold d2 in Y0, Y1, Y2, Y3.
  destruct (digits_spec W) as (W0 & W1 & W2); [lia|]. destruct W2 as [W2 W3]; [lia|]. rewrite Hdm in W0, W1, W2, W3.
  destruct (digits_spec (Z.pos mx)) as (_ & _ & X2); [lia|]. destruct X2 as [X2 _]; [lia|]. fold d1 in X2.
  destruct (digits_spec q' Hq') as (Q0 & Q1 & Q2).
  assert (HQ : d1 + s - d2 <= Zdigits2 q').
  { destruct (Z_le_gt_dec (d1 + s - d2) (Zdigits2 q')) as [|C]; auto. exfalso.
    assert (A1 : 2 ^ (d2 + Zdigits2 q') <= 2 ^ (d1 + s - 1)) by (apply Z.pow_le_mono_r; lia).
    rewrite Z.pow_add_r in A1 by lia. nia. }
  assert (Ev : (sq_val (S754_finite sx mx ex) / sq_val (S754_finite sy my ey) == (if xorb sx sy then - 1 else 1) * (inject_Z W / inject_Z (Z.pos my) * bp e'))%Q).
  { cbn [sq_val]. rewrite !cond_val. unfold W. rewrite inject_Z_mult. rewrite <- bp_Z by lia.
    assert (Ee : (bp ex == bp s * bp e' * bp ey)%Q) by (rewrite <- !bp_add; replace (s + e' + ey) with ex by (unfold s; lia); reflexivity).
    rewrite Ee. assert (Hy0' : ~ (inject_Z (Z.pos my) == 0)%Q) by discriminate.
    assert (Hb0 : ~ (bp ey == 0)%Q) by (intros C; pose proof (bp_pos ey) as P; rewrite C in P; discriminate P).
    destruct sx, sy; cbn [xorb]; field; auto. }
  rewrite Ev, Qabs_Qmult in H. assert (E1 : (Qabs (if xorb sx sy then - 1 else 1) == 1)%Q) by (destruct (xorb sx sy); reflexivity).
  rewrite E1, Qmult_1_l in H.
  apply (aux_ok (xorb sx sy) q' e' (new_location (Z.pos my) r') W (Z.pos my) eq_refl Hq').
  - apply (inv0 _ _ _ r'); try lia. apply loc_spec; lia.
  - lia.
  - clear - HQ Hp. unfold e', s in *. unfold SpecFloat.fexp in *. lia.
  - destruct (Z.eq_dec q' 0) as [E0|Hn].
    + rewrite E0 in *. cbn [Zdigits2] in *. clear - HQ Hp X2 Hmax. unfold s, e', SpecFloat.fexp in *. lia.
    + apply (digits_bound q' e' (Qabs (inject_Z W / inject_Z (Z.pos my) * bp e'))); auto; [lia|].
      eapply Qle_trans; [|apply Qle_Qabs]. apply Qmult_le_compat_r; [|apply Qlt_le_weak, bp_pos].
      apply Qle_shift_div_l; [reflexivity|]. rewrite <- inject_Z_mult, <- Zle_Qle. nia.
Qed.
End Fmt.
