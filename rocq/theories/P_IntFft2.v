(** Halving integers in floating point. *)
From Verif Require Export P_IntFlt P_IntFft.
From Coq Require Import QArith ZArith Lia Bool Floats.SpecFloat.
Local Open Scope Z_scope.

Section Fmt.
Variables prec emax : Z.
Hypothesis Hp : 1 < prec.
Hypothesis He : prec < emax.
Local Notation ofz := (flt_of_Z prec emax).

Lemma writes_4 m4 e4 : writes prec emax 4 m4 e4 -> e4 = 3 - prec /\ Zpos m4 = 2 ^ (prec - 1).
Proof.
  intros (_ & Hd & Hr & E). destruct (digits_spec (Zpos m4) ltac:(lia)) as (_ & D2 & D). destruct D as [_ D1]; [lia|]. rewrite Hd in D1, D2.
  set (k := e4 + prec) in *. assert (K0 : 0 < k) by lia. change 4 with (2 ^ 2) in E. rewrite <- Z.pow_add_r in E by lia.
  assert (Pk : 0 < 2 ^ k) by (apply Z.pow_pos_nonneg; lia).
  assert (L1 : 2 ^ (prec - 1 + k) <= 2 ^ (2 + prec)) by (rewrite <- E, (Z.pow_add_r 2 (prec - 1) k) by lia; apply Z.mul_le_mono_nonneg_r; lia).
  assert (L2 : 2 ^ (2 + prec) < 2 ^ (prec + k)) by (rewrite <- E, (Z.pow_add_r 2 prec k) by lia; apply Z.mul_lt_mono_pos_r; lia).
  apply Z.pow_le_mono_r_iff in L1; [|lia|lia]. apply Z.pow_lt_mono_r_iff in L2; [|lia|lia]. assert (K3 : k = 3) by lia.
  split; [lia|]. rewrite K3 in E. replace (2 + prec) with (prec - 1 + 3) in E by lia. rewrite Z.pow_add_r in E by lia. apply Z.mul_reg_r in E; [exact E|]. change (2 ^ 3) with 8. lia.
Qed.
(** A quarter of a number has the same digits. *)
Lemma writes_q p m1 e1 : writes prec emax (4 * p) m1 e1 -> writes prec emax p m1 (e1 - 2) /\ 3 <= e1 + prec.
Proof.
  intros (_ & Hd & Hr & E). destruct (digits_spec (Zpos m1) ltac:(lia)) as (_ & D2 & _). rewrite Hd in D2.
  set (k := e1 + prec) in *. assert (Pp : 0 < 2 ^ prec) by (apply Z.pow_pos_nonneg; lia). assert (Pk : 0 < 2 ^ k) by (apply Z.pow_pos_nonneg; lia).
  rewrite Pos2Z.inj_mul in E. assert (L : 2 ^ 2 < 2 ^ k) by (change (2 ^ 2) with 4; nia). apply Z.pow_lt_mono_r_iff in L; [|lia|lia].
  split; [|lia]. split; [apply bounded_intro; auto; lia|]. split; [exact Hd|]. split; [lia|]. replace (e1 - 2 + prec) with (k - 2) by lia.
  replace k with (k - 2 + 2) in E by lia. rewrite Z.pow_add_r in E by lia. change (2 ^ 2) with 4 in E. lia.
Qed.

Lemma shr_one m1 e : Zdigits2 (Zpos m1) = prec -> - prec <= e -> e <= prec -> shr_fexp prec emax (2 * Zpos m1) e loc_Exact = (Build_shr_record (Zpos m1) false false, e + 1).
Proof.
  intros Hd H0 H1. unfold shr_fexp. assert (Ed : Zdigits2 (2 * Zpos m1) = prec + 1).
  { replace (2 * Zpos m1) with (Zpos m1 * 2 ^ 1) by (change (2 ^ 1) with 2; lia). rewrite digits_shift by lia. lia. }
  rewrite Ed. replace (fexp prec emax (prec + 1 + e) - e) with 1 by (unfold SpecFloat.fexp, SpecFloat.emin; lia). reflexivity.
Qed.
Lemma shr_zero m1 e : Zdigits2 (Zpos m1) = prec -> - prec <= e -> shr_fexp prec emax (Zpos m1) e loc_Exact = (Build_shr_record (Zpos m1) false false, e).
Proof.
  intros Hd H0. unfold shr_fexp. rewrite Hd. replace (fexp prec emax (prec + e) - e) with 0 by (unfold SpecFloat.fexp, SpecFloat.emin; lia). reflexivity.
Qed.
Lemma div4 s p m1 e1 m4 e4 : writes prec emax (4 * p) m1 e1 -> writes prec emax 4 m4 e4 ->
  SFdiv prec emax (S754_finite s m1 e1) (S754_finite false m4 e4) = S754_finite s m1 (e1 - 2).
Proof.
  intros W1 W4. destruct (writes_4 _ _ W4) as [-> E4]. destruct (writes_q _ _ _ W1) as [_ K]. destruct W1 as (_ & Hd & Hr & _). destruct W4 as (_ & Hd4 & _).
  cbn [SFdiv]. unfold SFdiv_core_binary. rewrite Hd, Hd4.
  assert (Ee : Z.min (fexp prec emax (prec + e1 - (prec + (3 - prec)))) (e1 - (3 - prec)) = e1 - 3) by (unfold SpecFloat.fexp, SpecFloat.emin; lia).
  rewrite Ee. replace (e1 - (3 - prec) - (e1 - 3)) with prec by lia.
  assert (Em : match prec with Z.pos _ => Z.shiftl (Z.pos m1) prec | Z0 => Z.pos m1 | Z.neg _ => 0 end = Zpos m1 * 2 ^ prec).
  { destruct prec; try lia. apply Z.shiftl_mul_pow2. lia. }
  cbv zeta. rewrite Em. pose proof (Z_div_mod (Zpos m1 * 2 ^ prec) (Zpos m4) eq_refl) as DM. destruct (Z.div_eucl _ _) as [q r].
  destruct DM as [DM DR]. rewrite E4 in DM, DR. assert (Pq : 0 < 2 ^ (prec - 1)) by (apply Z.pow_pos_nonneg; lia).
  assert (E2 : 2 ^ prec = 2 * 2 ^ (prec - 1)) by (rewrite <- Z.pow_succ_r by lia; f_equal; lia). rewrite E2 in DM.
  assert (Eq : q = 2 * Zpos m1 /\ r = 0). { apply (Z.div_mod_unique (2 ^ (prec - 1)) q (2 * Zpos m1) r 0); [left; lia|left; lia|]. rewrite <- DM. ring. }
  destruct Eq as [-> ->]. assert (En : new_location (Zpos m4) 0 = loc_Exact) by (unfold new_location; destruct (Z.even (Zpos m4)); reflexivity).
  rewrite En. unfold binary_round_aux. rewrite shr_one by (auto; lia). cbn [shr_m]. change (loc_of_shr_record {| shr_m := Z.pos m1; shr_r := false; shr_s := false |}) with loc_Exact. cbn [round_nearest_even].
  rewrite shr_zero by (auto; lia). cbn [shr_m]. replace (e1 - 3 + 1) with (e1 - 2) by lia. rewrite xorb_false_r.
  destruct (Zle_bool (e1 - 2) (emax - prec)) eqn:El; [reflexivity|]. apply Z.leb_gt in El. lia.
Qed.

Lemma ofz_div4 a : Z.abs (4 * a) <= 2 ^ prec -> @rdiv flt (flt_div prec emax) (ofz (4 * a)) (ofz 4) = ofz a.
Proof.
  intros Ha. assert (P2 : 2 ^ 2 <= 2 ^ prec) by (apply Z.pow_le_mono_r; lia). change (2 ^ 2) with 4 in P2.
  destruct (ofz_wz prec emax Hp He 4 ltac:(lia)) as (m4 & e4 & E4 & W4). cbn [rdiv flt_div]. rewrite E4.
  pose proof (ofz_wz prec emax Hp He (4 * a) Ha) as G. destruct a as [|p|p]; cbn [Z.mul wz] in G.
  - reflexivity.
  - change (4 * Z.pos p) with (Z.pos (4 * p)). destruct G as (m1 & e1 & -> & W1). rewrite (div4 false p m1 e1 m4 e4 W1 W4). destruct (writes_q p m1 e1 W1) as [Wq _].
    unfold flt_of_Z. cbn [binary_normalize]. rewrite (writes_round prec emax Hp false p m1 (e1 - 2) p 0 0 Wq); [reflexivity|lia|lia|reflexivity].
  - change (4 * Z.neg p) with (Z.neg (4 * p)). destruct G as (m1 & e1 & -> & W1). rewrite (div4 true p m1 e1 m4 e4 W1 W4). destruct (writes_q p m1 e1 W1) as [Wq _].
    unfold flt_of_Z. cbn [binary_normalize]. rewrite (writes_round prec emax Hp true p m1 (e1 - 2) p 0 0 Wq); [reflexivity|lia|lia|reflexivity].
Qed.
End Fmt.
