(** Conversions between single and double precision: floats. *)
From Verif Require Export Spec_Conv32 P_Conv32.
From Coq Require Import ZArith Lia QArith Qabs Lqa Bool Floats.SpecFloat.
Local Open Scope Z_scope.

Lemma zeq_Q a b : (inject_Z a == inject_Z b)%Q -> a = b.
Proof. unfold Qeq. cbn. lia. Qed.
Lemma pos_val m e g : g <= e -> (inject_Z (Zpos m * 2 ^ (e - g)) * bp g == inject_Z (Zpos m) * bp e)%Q.
Proof. intros H. rewrite inject_Z_mult, <- bp_Z by lia. rewrite <- Qmult_assoc, <- bp_add. replace (e - g + g) with e by lia. reflexivity. Qed.

Lemma widen_fin s m e : bounded 24 128 m e = true ->
  exists m2 f, binary_round 53 1024 s m e = S754_finite s m2 f /\ f <= e /\ Zpos m2 = Zpos m * 2 ^ (e - f) /\ bounded 53 1024 m2 f = true.
Proof.
  intros HB. destruct (canon_of _ _ _ _ HB) as (C & L). assert (D1 : 1 <= Zdigits2 (Zpos m)) by (destruct (digits_spec (Zpos m) ltac:(lia)) as (_ & _ & [? _]); lia).
  assert (Hd : Zdigits2 (Zpos m) <= 24 /\ -149 <= e). { unfold fexp in C. cbn [SpecFloat.emin] in C. unfold emin in C. lia. }
  destruct (bround_exact 53 1024 ltac:(lia) s m e) as (m1 & m2 & e2 & E & H2 & Hfe & E1 & HN & Hc). pose proof (bround_valid 53 1024 ltac:(lia) s m e) as HV. set (f := fexp 53 1024 (Zdigits2 (Zpos m) + e)) in *.
  assert (Hf : f <= e /\ f <= 971) by (unfold f, fexp, emin; lia).
  rewrite Z.min_r in HN by lia. replace (f - f) with 0 in HN by lia. rewrite Z.mul_1_r in HN. change (2 ^ 0) with 1 in HN.
  assert (Em1 : m1 = Zpos m * 2 ^ (e - f)) by lia.
  assert (P1 : 0 < m1) by (rewrite Em1; apply Z.mul_pos_pos; [lia|apply Z.pow_pos_nonneg; lia]).
  assert (P2 : 0 < m2). { destruct (Z.eq_dec m2 0); [|lia]. subst m2. lia. }
  specialize (Hc P2).
  assert (Ee : e2 = f).
  { rewrite <- Hc. unfold f. f_equal. assert (A1 := digits_shift m2 (e2 - f) P2 ltac:(lia)). rewrite <- E1, Em1, digits_shift in A1 by lia. lia. }
  subst e2. replace (f - f) with 0 in E1 by lia. rewrite Z.mul_1_r in E1. subst m1. destruct m2 as [|p|p]; try lia.
  rewrite E in *. assert (LE : (f <=? 1024 - 53) = true) by (apply Z.leb_le; lia). rewrite LE in *.
  exists p, f. split; [reflexivity|]. split; [lia|]. split; [exact Em1|exact HV].
Qed.

Lemma widen_ok c : is_f32 c -> flt_val (f64_of_f32 c) = val c /\ flt_finite (f64_of_f32 c) = finite c /\ is_f64 (f64_of_f32 c) /\ f32_of_f64 (f64_of_f32 c) = c.
Proof.
  destruct c as [[| | |s m e]]; try (repeat split; reflexivity). unfold is_f32. cbn [as_flt to_sf valid_binary]. intros HB.
  destruct (widen_fin s m e HB) as (p & f & E & Hf & Em & HV). unfold f64_of_f32, flt_cast. cbn [as_flt val finite V32]. rewrite E. cbn [of_sf]. split; [|split; [reflexivity|split; [exact HV|]]].
  - apply Qc_is_canon. rewrite !flt_val_this. cbn [to_sf sq_val]. rewrite !cond_val. rewrite Em, pos_val by lia. reflexivity.
  - unfold f32_of_f64, flt_cast. rewrite (bround_close 24 128 ltac:(lia) s p f m e HB); [reflexivity|].
    cbv zeta. set (g := Z.min f (e - 2)). rewrite Em, <- Z.mul_assoc, <- Z.pow_add_r by lia. replace (e - f + (f - g)) with (e - g) by lia. rewrite Z.sub_diag. cbn [Z.abs]. apply Z.pow_pos_nonneg; lia.
Qed.
Lemma widen_finite c : flt_finite (f64_of_f32 c) = true -> finite c = true.
Proof. destruct c as [[]]; auto. Qed.
Lemma f32_rounds_of a b : @rounds flt (flt_round 24 128) a b -> @rounds f32 V32 a b.
Proof. exact (fun H => H). Qed.

Lemma narrow_ok c : is_f32 (f32_of_f64 c).
Proof.
  destruct c as [| | |s m e]; try reflexivity. unfold is_f32, f32_of_f64, flt_cast. pose proof (bround_valid 24 128 ltac:(lia) s m e) as HV. destruct (binary_round 24 128 s m e); exact HV.
Qed.
Lemma narrow_near c : finite (f32_of_f64 c) = true -> flt_finite c = true /\ @rounds f32 V32 (val (f32_of_f64 c)) (flt_val c).
Proof.
  assert (Z0 : @rounds f32 V32 0%Qc 0%Qc) by (unfold rounds, Qcle; vm_compute; discriminate).
  destruct c as [|s| |s m e]; try discriminate.
  - intros _. split; [reflexivity|]. exact Z0.
  - unfold f32_of_f64, flt_cast. cbn [as_flt val finite V32]. intros H. split; [reflexivity|]. rewrite fin_of in H. assert (N := bround_near 24 128 ltac:(lia) s m e H). cbv zeta in N.
    apply f32_rounds_of. eapply rounds_Q; [rewrite flt_val_this; apply to_of_val|apply flt_val_this|]. cbn [to_sf sq_val]. rewrite cond_val.
    set (v := (inject_Z (Z.pos m) * bp e)%Q) in *.
    assert (Hv : (0 <= v)%Q) by (apply Qmult_le_0_compat; [discriminate|apply Qlt_le_weak, bp_pos]).
    assert (EA : (Qabs ((if s then - 1 else 1) * v) == v)%Q). { rewrite Qabs_Qmult, (Qabs_pos v) by exact Hv. destruct s; [change (Qabs (-1)) with 1%Q|change (Qabs 1) with 1%Q]; ring. }
    rewrite EA. exact N.
Qed.

(** Close enough to a single precision number: given back exactly. *)
Lemma narrow_close c x : is_f32 x -> val x <> 0%Qc -> (Qcabs (flt_val c - val x) <= pow2q (-26) * Qcabs (val x))%Qc -> f32_of_f64 c = x.
Proof.
  destruct x as [x]. unfold is_f32. cbn [val V32 as_flt]. intros HX Hx0 H. destruct x as [| | |s0 m0 e0]; try (exfalso; apply Hx0; reflexivity).
  unfold Qcle, Qcabs, Qcminus, Qcplus, Qcopp, Qcmult, pow2q, Q2Qc in H. cbn [this] in H. rewrite !Qred_correct in H. rewrite !flt_val_this in H.
  set (x := (inject_Z (Z.pos m0) * bp e0)%Q).
  assert (Hx : (0 < x)%Q) by (unfold x; apply Qmult_lt_0_compat; [reflexivity|apply bp_pos]).
  assert (EX : (sq_val (to_sf (FFin s0 m0 e0)) == (if s0 then - 1 else 1) * x)%Q) by (cbn [to_sf sq_val]; apply cond_val).
  assert (Q26 : (2 ^ (-26) == 1 # 67108864)%Q) by reflexivity. rewrite Q26 in H.
  assert (AX : (Qabs (sq_val (to_sf (FFin s0 m0 e0))) == x)%Q). { rewrite EX, Qabs_Qmult, (Qabs_pos x) by (apply Qlt_le_weak; exact Hx). destruct s0; [change (Qabs (-1)) with 1%Q|change (Qabs 1) with 1%Q]; ring. }
  rewrite AX, EX in H. clear AX EX.
  assert (NC : (sq_val (to_sf c) == 0)%Q -> False).
  { intros E. rewrite E in H. assert (AA : (Qabs (0 + - ((if s0 then - 1 else 1) * x)) == x)%Q). { destruct s0; [setoid_replace (0 + - (-1 * x))%Q with x by ring|setoid_replace (0 + - (1 * x))%Q with (- x)%Q by ring; rewrite Qabs_opp]; apply Qabs_pos, Qlt_le_weak, Hx. } rewrite AA in H. lra. }
  destruct c as [| | |s m e]; try (exfalso; apply NC; reflexivity).
  set (v := (inject_Z (Z.pos m) * bp e)%Q). assert (Hv : (0 < v)%Q) by (unfold v; apply Qmult_lt_0_compat; [reflexivity|apply bp_pos]).
  assert (EV : (sq_val (to_sf (FFin s m e)) == (if s then - 1 else 1) * v)%Q) by (cbn [to_sf sq_val]; apply cond_val). rewrite EV in H. clear EV NC.
  apply Qabs_Qle_condition in H.
  assert (s = s0). { destruct s, s0; auto; exfalso; lra. } subst s0.
  assert (HVX : (- ((1 # 67108864) * x) <= v - x /\ v - x <= (1 # 67108864) * x)%Q) by (destruct s; lra). clear H.
  unfold f32_of_f64, flt_cast. rewrite (bround_close 24 128 ltac:(lia) s m e m0 e0 HX); [reflexivity|]. cbv zeta. set (g := Z.min e (e0 - 2)).
  destruct (canon_of _ _ _ _ HX) as (C & L).
  assert (Hd : Zdigits2 (Zpos m0) <= 24) by (unfold fexp, emin in C; lia).
  destruct (digits_spec (Zpos m0) ltac:(lia)) as (_ & B & _). assert (B24 : Zpos m0 < 2 ^ 24) by (eapply Z.lt_le_trans; [exact B|apply Z.pow_le_mono_r; lia]).
  pose proof (bp_pos g) as Hg.
  assert (Ev : (inject_Z (Zpos m * 2 ^ (e - g)) * bp g == v)%Q) by (apply pos_val; lia).
  assert (Ex : (inject_Z (Zpos m0 * 2 ^ (e0 - g)) * bp g == x)%Q) by (apply pos_val; lia).
  assert (Eq : (inject_Z (2 ^ (e0 - 2 - g)) * bp g == bp (e0 - 2))%Q) by (rewrite <- bp_Z by lia; rewrite <- bp_add; replace (e0 - 2 - g + g) with (e0 - 2) by lia; reflexivity).
  assert (Exb : (x < 67108864 * bp (e0 - 2))%Q).
  { unfold x. assert (E4 : (bp e0 == 4 * bp (e0 - 2))%Q) by (replace e0 with (2 + (e0 - 2)) at 1 by lia; rewrite bp_add; reflexivity). rewrite E4. pose proof (bp_pos (e0 - 2)) as HB.
    assert (M : (inject_Z (Z.pos m0) < 16777216)%Q) by (change 16777216%Q with (inject_Z (2 ^ 24)); rewrite <- Zlt_Qlt; exact B24). set (b := bp (e0 - 2)) in *. set (mm := inject_Z (Z.pos m0)) in *.
    assert (0 < (16777216 - mm) * b)%Q by (apply Qmult_lt_0_compat; [lra|exact HB]). nra. }
  set (A := Zpos m * 2 ^ (e - g)) in *. set (B0 := Zpos m0 * 2 ^ (e0 - g)) in *. set (P := 2 ^ (e0 - 2 - g)) in *.
  assert (L1 : (inject_Z A * bp g < (inject_Z B0 + inject_Z P) * bp g)%Q) by (rewrite Qmult_plus_distr_l, Ev, Ex, Eq; lra).
  assert (L2 : ((inject_Z B0 - inject_Z P) * bp g < inject_Z A * bp g)%Q) by (unfold Qminus; rewrite Qmult_plus_distr_l, Ev, Ex; setoid_replace (- inject_Z P * bp g)%Q with (- bp (e0 - 2))%Q by (rewrite <- Eq; ring); lra).
  apply Qmult_lt_r in L1; [|exact Hg]. apply Qmult_lt_r in L2; [|exact Hg].
  rewrite <- inject_Z_plus, <- Zlt_Qlt in L1. unfold Qminus in L2. rewrite <- inject_Z_opp, <- inject_Z_plus, <- Zlt_Qlt in L2. lia.
Qed.
