(** Rounding to nearest even in the standard library's [SpecFloat] is accurate. *)
From Coq Require Import ZArith Lia QArith Qpower Qabs Lqa Bool Floats.SpecFloat.
Local Open Scope Z_scope.

Lemma digits_pos p : Z.pos p < 2 ^ Z.pos (digits2_pos p) /\ 2 ^ (Z.pos (digits2_pos p) - 1) <= Z.pos p.
Proof.
  induction p as [p [I1 I2]|p [I1 I2]|]; [| |cbn; lia]; cbn [digits2_pos]; rewrite Pos2Z.inj_succ, <- Z.add_1_r;
  replace (Z.pos (digits2_pos p) + 1 - 1) with (Z.pos (digits2_pos p) - 1 + 1) by lia;
  rewrite !Z.pow_add_r by lia; change (2 ^ 1) with 2; lia.
Qed.
Lemma digits_spec m : 0 <= m -> 0 <= Zdigits2 m /\ m < 2 ^ Zdigits2 m /\ (0 < m -> 1 <= Zdigits2 m /\ 2 ^ (Zdigits2 m - 1) <= m).
Proof.
  intros H. destruct m as [|p|p]; [cbn; lia| |lia]. cbn [Zdigits2]. pose proof (digits_pos p). lia.
Qed.
Lemma digits_le m d : 0 <= m -> 0 <= d -> m < 2 ^ d -> Zdigits2 m <= d.
Proof.
  intros H Hd Hm. destruct (digits_spec m H) as (A & B & C). destruct (Z.eq_dec m 0) as [->|Hn]; [cbn; lia|].
  destruct C as [C1 C2]; [lia|]. destruct (Z_le_gt_dec (Zdigits2 m) d); auto. exfalso.
  assert (2 ^ d <= 2 ^ (Zdigits2 m - 1)) by (apply Z.pow_le_mono_r; lia). lia.
Qed.

(** The state of a right shift by n places of W / D. *)
Definition cls (r s : bool) (rem full : Z) : Prop :=
  match r, s with
  | false, false => rem = 0 | false, true => 0 < rem /\ 2 * rem < full
  | true, false => 2 * rem = full /\ 0 < rem | true, true => full < 2 * rem end.
Definition inv (D W n : Z) (x : shr_record) : Prop :=
  0 <= shr_m x /\ exists rem, W = shr_m x * (2 ^ n * D) + rem /\ 0 <= rem < 2 ^ n * D /\ cls (shr_r x) (shr_s x) rem (2 ^ n * D).

Lemma inv_step D W n x : 0 < D -> 0 <= n -> inv D W n x -> inv D W (n + 1) (shr_1 x).
Proof.
  intros HD Hn (Hm & rem & E & Hr & C). destruct x as [m r s]. cbn [shr_m shr_r shr_s] in *.
  set (P := 2 ^ n) in *.
  assert (HP : 0 < P) by (apply Z.pow_pos_nonneg; lia).
  assert (HPD : 0 < P * D) by (apply Z.mul_pos_pos; lia).
  assert (Z0s : orb r s = false -> rem = 0) by (destruct r, s; cbn [orb cls] in *; intros; try discriminate; auto).
  assert (Z1s : orb r s = true -> 0 < rem) by (destruct r, s; cbn [orb cls] in *; intros; try discriminate; lia).
  unfold inv. replace (2 ^ (n + 1)) with (2 * P) by (unfold P; rewrite Z.pow_add_r by lia; lia).
  destruct m as [|p|p]; [| |lia].
  - split; [cbn; lia|]. exists rem. cbn [shr_1 shr_m shr_r shr_s]. split; [lia|]. split; [lia|].
    destruct (orb r s) eqn:Es; cbn [cls]; [split; [auto|]|auto]. specialize (Z1s eq_refl). lia.
  - destruct p as [p|p|]; (split; [cbn; lia|]); cbn [shr_1 shr_m shr_r shr_s].
    + exists (P * D + rem). split; [rewrite Pos2Z.inj_xI in E; lia|]. split; [lia|].
      destruct (orb r s) eqn:Es; cbn [cls]; [specialize (Z1s eq_refl)|specialize (Z0s eq_refl)]; lia.
    + exists rem. split; [rewrite Pos2Z.inj_xO in E; lia|]. split; [lia|].
      destruct (orb r s) eqn:Es; cbn [cls]; [specialize (Z1s eq_refl)|specialize (Z0s eq_refl)]; lia.
    + exists (P * D + rem). split; [lia|]. split; [lia|].
      destruct (orb r s) eqn:Es; cbn [cls]; [specialize (Z1s eq_refl)|specialize (Z0s eq_refl)]; lia.
Qed.
Lemma inv_iter D W p : 0 < D -> forall n x, 0 <= n -> inv D W n x -> inv D W (n + Z.pos p) (iter_pos shr_1 p x).
Proof.
  intros HD. induction p as [p IH|p IH|]; intros n x Hn H; cbn [iter_pos].
  - replace (n + Z.pos p~1) with (n + 1 + Z.pos p + Z.pos p) by lia. apply IH; [lia|]. apply IH; [lia|]. apply inv_step; auto.
  - replace (n + Z.pos p~0) with (n + Z.pos p + Z.pos p) by lia. apply IH; [lia|]. apply IH; auto.
  - apply inv_step; auto.
Qed.

Lemma rne_spec D W n x : 0 < D -> 0 <= n -> inv D W n x -> let m := round_nearest_even (shr_m x) (loc_of_shr_record x) in
  shr_m x <= m <= shr_m x + 1 /\ 2 * Z.abs (m * (2 ^ n * D) - W) <= 2 ^ n * D.
Proof.
  intros HD Hn (Hm & rem & E & Hr & C). destruct x as [m r s]. cbn [shr_m shr_r shr_s] in *.
  destruct r, s; cbn [loc_of_shr_record round_nearest_even cls] in *; try (destruct (Z.even m)); lia.
Qed.

Section Fmt.
Variables prec emax : Z.
Hypothesis Hp : 0 < prec.
Local Notation emin := (emin prec emax).
Local Notation fexp := (fexp prec emax).

(** The two shifts of [binary_round_aux]. *)
Lemma aux_spec s q e l W D :
  0 < D -> 0 <= q -> inv D W 0 (shr_record_of_loc q l) -> W < (q + 1) * D ->
  (l = loc_Exact \/ e <= fexp (Zdigits2 q + e)) ->
  exists m2 e2, 0 <= m2 /\ e <= e2 <= Z.max e (fexp (Zdigits2 q + e + 1)) /\
   binary_round_aux prec emax s q e l = (match m2 with Z0 => S754_zero s | Zpos m => if Zle_bool e2 (emax - prec) then S754_finite s m e2 else S754_infinity s | _ => S754_nan end) /\
   ((2 * Z.abs (m2 * 2 ^ (e2 - e) * D - W) <= 2 ^ (fexp (Zdigits2 q + e) - e) * D /\ e <= fexp (Zdigits2 q + e)) \/ m2 * 2 ^ (e2 - e) * D = W).
Proof.
  intros HD Hq HI HW Hl. unfold binary_round_aux, shr_fexp. set (d := Zdigits2 q).
  destruct (digits_spec q Hq) as (Hd0 & Hd1 & Hd2). fold d in Hd0, Hd1, Hd2.
  remember (fexp (d + e) - e) as k eqn:Ek.
  assert (G : exists x e1 n, shr (shr_record_of_loc q l) e k = (x, e1) /\ e1 = e + n /\ 0 <= n /\ (n = k \/ (n = 0 /\ k < 0 /\ x = shr_record_of_loc q l)) /\ inv D W n x).
  { clear Ek. destruct k as [|p|p]; cbn [shr].
    - exists (shr_record_of_loc q l), e, 0. split; [reflexivity|]. split; [lia|]. split; [lia|]. split; [left; lia|exact HI].
    - eexists _, _, (Z.pos p). split; [reflexivity|]. split; [reflexivity|]. split; [lia|]. split; [left; lia|].
      exact (inv_iter D W p HD 0 _ (Z.le_refl 0) HI).
    - exists (shr_record_of_loc q l), e, 0. split; [reflexivity|]. split; [lia|]. split; [lia|]. split; [right; split; [lia|split; [lia|reflexivity]]|exact HI]. }
  destruct G as (x & e1 & n & -> & -> & Hn & Hnk & HI1).
  pose proof (rne_spec D W n x HD Hn HI1) as R. cbv zeta in R. set (m1 := round_nearest_even _ _) in *.
  destruct R as (R1 & R2). destruct HI1 as (Hx0 & rem & EW & Hrem & Hcls).
  assert (HPn : 0 < 2 ^ n) by (apply Z.pow_pos_nonneg; lia).
  (* the second shift *)
  set (k2 := fexp (Zdigits2 m1 + (e + n)) - (e + n)).
  assert (K2 : k2 <= 0 \/ (k2 = 1 /\ Z.even m1 = true /\ k2 <= fexp (d + e + 1) - fexp (d + e) /\ n = k)).
  { destruct Hnk as [->|(-> & Hk & Hx)].
    - (* shifted by k *)
      assert (Ee : e + k = fexp (d + e)) by lia.
      assert (Hmx : shr_m x * (2 ^ k * D) < (q + 1) * D) by lia.
      assert (Hmx' : shr_m x * 2 ^ k < q + 1) by nia.
      assert (Hq1 : q + 1 <= 2 ^ d) by lia.
      destruct (Z_le_gt_dec k d) as [Hkd|Hkd].
      + assert (E2 : 2 ^ d = 2 ^ (d - k) * 2 ^ k) by (rewrite <- Z.pow_add_r by lia; f_equal; lia).
        assert (Hlt : shr_m x < 2 ^ (d - k)) by nia.
        assert (Hm1 : m1 <= 2 ^ (d - k)) by lia.
        destruct (Z.eq_dec m1 (2 ^ (d - k))) as [Em|Em].
        * assert (Hdm : Zdigits2 m1 <= d - k + 1).
          { apply digits_le; [lia|lia|]. rewrite Em, Z.pow_add_r by lia. change (2 ^ 1) with 2.
            assert (0 < 2 ^ (d - k)) by (apply Z.pow_pos_nonneg; lia). lia. }
          assert (Hk2 : k2 <= fexp (d + e + 1) - fexp (d + e)). { unfold k2. clear - Hdm Ee Ek. unfold SpecFloat.fexp in *. lia. }
          destruct (Z_le_gt_dec k2 0) as [Hz|Hz]; [left; auto|right]. split; [|split; [|auto]].
          { clear - Hk2 Hz. unfold SpecFloat.fexp in *. lia. }
          assert (d - k = prec). { clear - Hk2 Ee Ek Hz Hp. unfold SpecFloat.fexp in *. lia. }
          rewrite Em, H. replace prec with (prec - 1 + 1) by lia. rewrite Z.pow_add_r by lia. change (2 ^ 1) with 2.
          rewrite Z.even_mul. cbn. apply orb_true_r.
        * left. assert (Hdm : Zdigits2 m1 <= d - k) by (apply digits_le; lia).
          unfold k2. clear - Hdm Ee Ek Hp. unfold SpecFloat.fexp in *. lia.
      + assert (shr_m x = 0).
        { assert (2 ^ d < 2 ^ k) by (apply Z.pow_lt_mono_r; lia). nia. }
        assert (Hdm : Zdigits2 m1 <= 1) by (apply digits_le; cbn; lia). left.
        unfold k2. clear - Hdm Ee Ek Hp Hkd. unfold SpecFloat.fexp in *. lia.
    - (* not shifted *)
      left. unfold k2. rewrite Z.add_0_r in *. destruct Hl as [-> | Hl]; [|fold d in Hl; lia].
      unfold m1. rewrite Hx. cbn [shr_record_of_loc loc_of_shr_record shr_m round_nearest_even]. fold d. lia. }
  assert (G2 : exists m2, 0 <= m2 /\ shr (shr_record_of_loc m1 loc_Exact) (e + n) k2 = (shr_record_of_loc m2 loc_Exact, e + n + Z.max 0 k2) /\ m1 = m2 * 2 ^ Z.max 0 k2).
  { destruct K2 as [K2|(K2 & Ev & _)].
    - exists m1. split; [lia|]. rewrite Z.max_l by lia. rewrite Z.add_0_r, Z.mul_1_r. split; [|reflexivity]. destruct k2; try reflexivity; lia.
    - rewrite K2. apply Z.even_spec in Ev. destruct Ev as (h & Eh). exists h. split; [lia|]. split; [|cbn; lia].
      cbn [shr]. f_equal. rewrite Eh. cbn [iter_pos shr_record_of_loc]. assert (0 <= h) by lia. destruct h; [reflexivity|reflexivity|lia]. }
  destruct G2 as (m2 & H2 & E2 & Em). rewrite E2. exists m2, (e + n + Z.max 0 k2). split; [auto|]. split.
  { clear - K2 Hnk Ek Hn. clearbody k2. unfold SpecFloat.fexp in *. lia. } split; [reflexivity|].
  replace (e + n + Z.max 0 k2 - e) with (Z.max 0 k2 + n) by lia. rewrite Z.pow_add_r by lia. rewrite Z.mul_assoc, <- Em.
  destruct Hnk as [->|(-> & Hk & Hx)].
  - left. rewrite <- Z.mul_assoc. split; [auto|]. lia.
  - right. destruct Hl as [-> | Hl]; [|fold d in Hl; lia]. subst x. cbn in Hcls. subst rem. 
    unfold m1. cbn [shr_record_of_loc loc_of_shr_record shr_m round_nearest_even] in *. lia.
Qed.

(** The rational number a float stands for. *)
Definition bp (e : Z) : Q := (2 ^ e)%Q.
Lemma bp_pos e : (0 < bp e)%Q.
Proof. apply Qpower_0_lt. reflexivity. Qed.
Lemma bp_add a b : (bp (a + b) == bp a * bp b)%Q.
Proof. apply Qpower_plus. discriminate. Qed.
Lemma bp_Z n : 0 <= n -> (bp n == inject_Z (2 ^ n))%Q.
Proof. intros H. symmetry. apply Zpower_Qpower. exact H. Qed.
Lemma bp_le a b : a <= b -> (bp a <= bp b)%Q.
Proof. intros H. apply Qpower_le_compat_l; [exact H|discriminate]. Qed.
Definition sq_val (x : spec_float) : Q :=
  match x with S754_finite s m e => (inject_Z (cond_Zopp s (Zpos m)) * bp e)%Q | _ => 0%Q end.
Definition sfin (x : spec_float) : bool := match x with S754_finite _ _ _ | S754_zero _ => true | _ => false end.
Definition uu : Q := bp (- prec).
Definition hh : Q := bp (emin - 1).
Lemma cond_val s m e : (inject_Z (cond_Zopp s m) * bp e == (if s then - 1 else 1) * (inject_Z m * bp e))%Q.
Proof. destruct s; cbn [cond_Zopp]; rewrite ?inject_Z_opp; ring. Qed.

Lemma aux_near s q e l W D : 0 < D -> 0 <= q -> inv D W 0 (shr_record_of_loc q l) -> q * D <= W < (q + 1) * D ->
  (l = loc_Exact \/ e <= fexp (Zdigits2 q + e)) -> (q = 0 -> e <= emin) ->
  let r := binary_round_aux prec emax s q e l in let v := (inject_Z W / inject_Z D * bp e)%Q in
  sfin r = true -> (Qabs (sq_val r - (if s then - 1 else 1) * v) <= uu * v + hh)%Q.
Proof.
  intros HD Hq HI HW Hl Hq0 r v Hr. destruct (aux_spec s q e l W D HD Hq HI (proj2 HW) Hl) as (m2 & e2 & H2 & He & Er & Hb).
  assert (HDq : (0 < inject_Z D)%Q) by (change 0%Q with (inject_Z 0); rewrite <- Zlt_Qlt; exact HD).
  assert (Hv0 : (0 <= v)%Q).
  { unfold v. apply Qmult_le_0_compat; [|apply Qlt_le_weak, bp_pos]. apply Qle_shift_div_l; [exact HDq|].
    rewrite Qmult_0_l. change 0%Q with (inject_Z 0). rewrite <- Zle_Qle. nia. }
  assert (Ev : (sq_val r == (if s then - 1 else 1) * (inject_Z m2 * bp e2))%Q).
  { unfold r in *. rewrite Er in *. destruct m2 as [|p|p]; [|destruct (Zle_bool e2 (emax - prec)); [|discriminate]|lia].
    - cbn [sq_val]. ring.
    - cbn [sq_val]. apply cond_val. }
  rewrite Ev.
  assert (Eq1 : (Qabs ((if s then - 1 else 1) * (inject_Z m2 * bp e2) - (if s then - 1 else 1) * v) == Qabs (inject_Z m2 * bp e2 - v))%Q).
  { destruct s; [|apply Qabs_wd; ring]. rewrite <- Qabs_opp. apply Qabs_wd. ring. }
  rewrite Eq1. clear Eq1 Ev.
  assert (E2 : (bp e2 == inject_Z (2 ^ (e2 - e)) * bp e)%Q).
  { rewrite <- bp_Z by lia. rewrite <- bp_add. replace (e2 - e + e) with e2 by lia. reflexivity. }
  assert (Ed : (inject_Z m2 * bp e2 - v == inject_Z (m2 * 2 ^ (e2 - e) * D - W) / inject_Z D * bp e)%Q).
  { unfold v. rewrite E2. set (P := 2 ^ (e2 - e)). unfold Z.sub. rewrite inject_Z_plus, inject_Z_opp, !inject_Z_mult. field. intros C. rewrite C in HDq. discriminate HDq. }
  assert (Hu : (0 < uu)%Q) by apply bp_pos. assert (Hh : (0 < hh)%Q) by apply bp_pos.
  assert (Huv : (0 <= uu * v)%Q) by (apply Qmult_le_0_compat; [apply Qlt_le_weak|]; auto).
  destruct Hb as [(Hb & Hef)|Hb].
  2:{ rewrite Ed. rewrite Hb, Z.sub_diag. assert (E0 : (inject_Z 0 / inject_Z D * bp e == 0)%Q) by (unfold Qdiv; ring). rewrite E0. change (Qabs 0) with 0%Q. clear - Huv Hh. clearbody v. lra. }
  set (f := fexp (Zdigits2 q + e)) in *.
  apply Qle_trans with ((1 # 2) * bp f)%Q.
  - rewrite Ed, Qabs_Qmult. rewrite (Qabs_pos (bp e)) by (apply Qlt_le_weak, bp_pos).
    unfold Qdiv. rewrite Qabs_Qmult, (Qabs_pos (/ inject_Z D)) by (apply Qlt_le_weak, Qinv_lt_0_compat; auto).
    assert (E3 : (bp f == inject_Z (2 ^ (f - e)) * bp e)%Q).
    { rewrite <- bp_Z by lia. rewrite <- bp_add. replace (f - e + e) with f by lia. reflexivity. }
    rewrite E3, Qmult_assoc. apply Qmult_le_compat_r; [|apply Qlt_le_weak, bp_pos].
    apply Qle_shift_div_r; [auto|].
    change (Qabs (inject_Z (m2 * 2 ^ (e2 - e) * D - W))) with (inject_Z (Z.abs (m2 * 2 ^ (e2 - e) * D - W))).
    assert (Hb' : (inject_Z 2 * inject_Z (Z.abs (m2 * 2 ^ (e2 - e) * D - W)) <= inject_Z (2 ^ (f - e)) * inject_Z D)%Q).
    { rewrite <- !inject_Z_mult, <- Zle_Qle. exact Hb. }
    change (inject_Z 2) with 2%Q in Hb'. set (X := inject_Z (Z.abs _)) in *. set (Y := inject_Z (2 ^ (f - e))) in *. lra.
  - assert (Hf : ((1 # 2) * bp (f) <= uu * v \/ (1 # 2) * bp f == hh)%Q).
    { destruct (Z_le_gt_dec (Zdigits2 q + e - prec) emin) as [Hc|Hc].
      - right. assert (Ef : f = emin - 1 + 1) by (unfold f, SpecFloat.fexp; lia). rewrite Ef, bp_add. change (bp 1) with 2%Q. unfold hh. ring.
      - left. assert (Hqp : 0 < q). { destruct (Z.eq_dec q 0) as [E0|]; [|lia]. specialize (Hq0 E0). rewrite E0 in Hc. cbn [Zdigits2] in Hc. lia. }
        destruct (digits_spec q Hq) as (_ & _ & Hd). destruct (Hd Hqp) as (Hd1 & Hd2).
        assert (Ef : f = - prec + ((Zdigits2 q - 1) + e) + 1) by (unfold f, SpecFloat.fexp; lia).
        rewrite Ef, !bp_add. change (bp 1) with 2%Q. fold uu.
        assert (G : (bp (Zdigits2 q - 1) * bp e <= v)%Q).
        { unfold v. apply Qmult_le_compat_r; [|apply Qlt_le_weak, bp_pos]. rewrite bp_Z by lia.
          apply Qle_shift_div_l; [auto|]. rewrite <- inject_Z_mult, <- Zle_Qle. nia. }
        assert (G2 : (uu * (bp (Zdigits2 q - 1) * bp e) <= uu * v)%Q).
        { rewrite (Qmult_comm uu), (Qmult_comm uu v). apply Qmult_le_compat_r; [auto|]. apply Qlt_le_weak; auto. }
        set (X := (uu * (bp (Zdigits2 q - 1) * bp e))%Q) in *. lra. }
    clear - Hf Huv Hh. clearbody v. set (X := (uu * v)%Q) in *. destruct Hf as [Hf|Hf]; lra.
Qed.

Lemma inv0 D W q r l : 0 < D -> 0 <= q -> W = q * D + r -> 0 <= r < D -> 
  (match l with loc_Exact => r = 0 | loc_Inexact Lt => 0 < r /\ 2 * r < D | loc_Inexact Eq => 2 * r = D /\ 0 < r | loc_Inexact Gt => D < 2 * r end) ->
  inv D W 0 (shr_record_of_loc q l).
Proof.
  intros HD Hq EW Hr Hl. split; [destruct l as [| []]; exact Hq|]. exists r. rewrite Z.pow_0_r, Z.mul_1_l.
  destruct l as [| []]; cbn [shr_record_of_loc shr_m shr_r shr_s cls]; split; auto.
Qed.
Lemma round_near s m e : let r := binary_round_aux prec emax s (Zpos m) e loc_Exact in let v := (inject_Z (Zpos m) * bp e)%Q in
  sfin r = true -> (Qabs (sq_val r - (if s then - 1 else 1) * v) <= uu * v + hh)%Q.
Proof.
  intros r v Hr. pose proof (aux_near s (Zpos m) e loc_Exact (Zpos m) 1 eq_refl) as G. cbv zeta in G.
  assert (E : (inject_Z (Z.pos m) / inject_Z 1 * bp e == v)%Q) by (unfold v; change (inject_Z 1) with 1%Q; field).
  rewrite E in G. apply G; auto; try lia. apply (inv0 1 _ _ 0); lia.
Qed.
Lemma shl_val m e e' : let '(m1, e1) := shl_align m e e' in (inject_Z (Zpos m1) * bp e1 == inject_Z (Zpos m) * bp e)%Q.
Proof.
  unfold shl_align. destruct (e' - e) as [|d|d] eqn:E; try reflexivity.
  replace e with (Z.pos d + e') by lia. rewrite shift_pos_correct, inject_Z_mult, bp_add, (bp_Z (Z.pos d)) by lia.
  change (Zpower_pos 2 d) with (2 ^ Z.pos d). ring.
Qed.
Lemma shl_fst m e e' : e' <= e -> (inject_Z (Zpos (fst (shl_align m e e'))) * bp e' == inject_Z (Zpos m) * bp e)%Q.
Proof.
  intros H. pose proof (shl_val m e e') as G. unfold shl_align in *. destruct (e' - e) as [|d|d] eqn:E; cbn [fst] in *; try exact G.
  - replace e' with e by lia. reflexivity.
  - lia.
Qed.
Lemma bround_near s m e : let r := binary_round prec emax s m e in let v := (inject_Z (Zpos m) * bp e)%Q in
  sfin r = true -> (Qabs (sq_val r - (if s then - 1 else 1) * v) <= uu * v + hh)%Q.
Proof.
  cbv zeta. unfold binary_round. pose proof (shl_val m e (fexp (Z.pos (digits2_pos m) + e))) as G.
  destruct (shl_align _ _ _) as [m1 e1]. intros Hr. pose proof (round_near s m1 e1 Hr) as N. cbv zeta in N. rewrite G in N. exact N.
Qed.
Lemma norm_near z e s : let r := binary_normalize prec emax z e s in let v := (inject_Z z * bp e)%Q in
  sfin r = true -> (Qabs (sq_val r - v) <= uu * Qabs v + hh)%Q.
Proof.
  cbv zeta. pose proof (bp_pos e) as Hb. assert (Hh : (0 < hh)%Q) by apply bp_pos. unfold binary_normalize. destruct z as [|m|m]; intros Hr.
  - cbn [sq_val]. assert (E : (inject_Z 0 * bp e == 0)%Q) by ring. rewrite E. change (Qabs (0 - 0)) with 0%Q. change (Qabs 0) with 0%Q. lra.
  - pose proof (bround_near false m e Hr) as N. cbv zeta in N. rewrite Qmult_1_l in N. rewrite (Qabs_pos (inject_Z (Z.pos m) * bp e)); [exact N|].
    apply Qmult_le_0_compat; [discriminate|apply Qlt_le_weak; auto].
  - pose proof (bround_near true m e Hr) as N. cbv zeta in N.
    assert (E : (inject_Z (Z.neg m) * bp e == - 1 * (inject_Z (Z.pos m) * bp e))%Q).
    { change (Z.neg m) with (- Z.pos m). rewrite inject_Z_opp. ring. }
    rewrite E. assert (E2 : (Qabs (- 1 * (inject_Z (Z.pos m) * bp e)) == inject_Z (Z.pos m) * bp e)%Q).
    { rewrite Qabs_Qmult. change (Qabs (-1)) with 1%Q. rewrite Qmult_1_l. apply Qabs_pos. apply Qmult_le_0_compat; [discriminate|apply Qlt_le_weak; auto]. }
    rewrite E2. exact N.
Qed.

Lemma add_near x y : sfin (SFadd prec emax x y) = true -> sfin x = true /\ sfin y = true /\
  (Qabs (sq_val (SFadd prec emax x y) - (sq_val x + sq_val y)) <= uu * Qabs (sq_val x + sq_val y) + hh)%Q.
Proof.
  assert (Hu : (0 < uu)%Q) by apply bp_pos. assert (Hh : (0 < hh)%Q) by apply bp_pos.
  assert (Z0 : forall a b : Q, (a == b)%Q -> (Qabs (a - b) <= uu * Qabs b + hh)%Q).
  { intros a b E. rewrite E. assert (E0 : (b - b == 0)%Q) by ring. rewrite E0. change (Qabs 0) with 0%Q.
    assert (0 <= uu * Qabs b)%Q by (apply Qmult_le_0_compat; [apply Qlt_le_weak; auto|apply Qabs_nonneg]). lra. }
  destruct x as [sx|sx| |sx mx ex], y as [sy|sy| |sy my ey]; cbn [sfin]; intros H; try discriminate H; try (destruct sx, sy; discriminate H).
  - split; [reflexivity|]. split; [reflexivity|]. apply Z0. destruct sx, sy; reflexivity.
  - split; [reflexivity|]. split; [reflexivity|]. apply Z0. cbn [SFadd sq_val]. ring.
  - split; [reflexivity|]. split; [reflexivity|]. apply Z0. cbn [SFadd sq_val]. ring.
  - split; [reflexivity|]. split; [reflexivity|]. cbn [SFadd] in *. pose proof (norm_near _ _ _ H) as N. cbv zeta in N.
    assert (E : (inject_Z (cond_Zopp sx (Z.pos (fst (shl_align mx ex (Z.min ex ey)))) + cond_Zopp sy (Z.pos (fst (shl_align my ey (Z.min ex ey))))) * bp (Z.min ex ey)
      == sq_val (S754_finite sx mx ex) + sq_val (S754_finite sy my ey))%Q).
    { rewrite inject_Z_plus, Qmult_plus_distr_l. cbn [sq_val]. rewrite !cond_val.
      rewrite (shl_fst mx ex) by lia. rewrite (shl_fst my ey) by lia. reflexivity. }
    rewrite E in N. exact N.
Qed.
Lemma mul_near x y : sfin (SFmul prec emax x y) = true -> sfin x = true /\ sfin y = true /\
  (Qabs (sq_val (SFmul prec emax x y) - sq_val x * sq_val y) <= uu * Qabs (sq_val x * sq_val y) + hh)%Q.
Proof.
  assert (Hu : (0 < uu)%Q) by apply bp_pos. assert (Hh : (0 < hh)%Q) by apply bp_pos.
  assert (Z0 : forall b : Q, (b == 0)%Q -> (Qabs (0 - b) <= uu * Qabs b + hh)%Q).
  { intros b E. rewrite E. change (Qabs (0 - 0)) with 0%Q. change (Qabs 0) with 0%Q. lra. }
  destruct x as [sx|sx| |sx mx ex], y as [sy|sy| |sy my ey]; cbn [sfin]; intros H; try discriminate H;
  (split; [reflexivity|]; split; [reflexivity|]).
  - apply Z0. cbn [sq_val]. ring.
  - apply Z0. cbn [sq_val]. ring.
  - apply Z0. cbn [sq_val]. ring.
  - cbn [SFmul] in *. pose proof (round_near (xorb sx sy) (mx * my) (ex + ey) H) as N. cbv zeta in N.
    assert (E : (sq_val (S754_finite sx mx ex) * sq_val (S754_finite sy my ey) == (if xorb sx sy then - 1 else 1) * (inject_Z (Z.pos (mx * my)) * bp (ex + ey)))%Q).
    { cbn [sq_val]. rewrite !cond_val, bp_add, Pos2Z.inj_mul, inject_Z_mult. destruct sx, sy; cbn [xorb]; ring. }
    rewrite E. rewrite Qabs_Qmult. assert (E1 : (Qabs (if xorb sx sy then - 1 else 1) == 1)%Q) by (destruct (xorb sx sy); reflexivity).
    rewrite E1, Qmult_1_l, (Qabs_pos (_ * _)); [exact N|]. apply Qmult_le_0_compat; [discriminate|apply Qlt_le_weak, bp_pos].
Qed.
Lemma digits_shift m s : 0 < m -> 0 <= s -> Zdigits2 (m * 2 ^ s) = Zdigits2 m + s.
Proof.
  intros Hm Hs. assert (HP : 0 < 2 ^ s) by (apply Z.pow_pos_nonneg; lia). destruct (digits_spec m) as (A & B & C); [lia|]. destruct C as [C1 C2]; [lia|].
  destruct (digits_spec (m * 2 ^ s)) as (A' & B' & C'); [nia|]. destruct C' as [C1' C2']; [nia|].
  apply Z.le_antisymm.
  - apply digits_le; [nia|lia|]. rewrite Z.pow_add_r by lia. nia.
  - destruct (Z_le_gt_dec (Zdigits2 m + s) (Zdigits2 (m * 2 ^ s))); auto. exfalso.
    assert (2 ^ Zdigits2 (m * 2 ^ s) <= 2 ^ (Zdigits2 m - 1 + s)) by (apply Z.pow_le_mono_r; lia). rewrite Z.pow_add_r in H by lia. nia.
Qed.
Lemma loc_spec D r : 0 < D -> 0 <= r < D -> match new_location D r with loc_Exact => r = 0 | loc_Inexact Lt => 0 < r /\ 2 * r < D | loc_Inexact Eq => 2 * r = D /\ 0 < r | loc_Inexact Gt => D < 2 * r end.
Proof.
  intros HD Hr. unfold new_location. destruct (Z.even D) eqn:Ev.
  - unfold new_location_even. destruct (Zeq_bool r 0) eqn:E; [apply Zeq_bool_eq in E; auto|]. apply Zeq_bool_neq in E.
    destruct (Z.compare_spec (2 * r) D); lia.
  - unfold new_location_odd. destruct (Zeq_bool r 0) eqn:E; [apply Zeq_bool_eq in E; auto|]. apply Zeq_bool_neq in E.
    assert (Od : D mod 2 = 1) by (rewrite Zmod_even, Ev; reflexivity). pose proof (Z.div_mod D 2 ltac:(lia)).
    destruct (Z.compare_spec (2 * r + 1) D); lia.
Qed.
Lemma div_near x y : sfin x = true -> sfin y = true -> sfin (SFdiv prec emax x y) = true ->
  (Qabs (sq_val (SFdiv prec emax x y) - sq_val x / sq_val y) <= uu * Qabs (sq_val x / sq_val y) + hh)%Q.
Proof.
  assert (Hu : (0 < uu)%Q) by apply bp_pos. assert (Hh : (0 < hh)%Q) by apply bp_pos.
  destruct x as [sx|sx| |sx mx ex], y as [sy|sy| |sy my ey]; cbn [sfin]; intros Hx Hy H; try discriminate; cbn [SFdiv] in *.
  - cbn [sq_val]. assert (E : (0 / (inject_Z (cond_Zopp sy (Z.pos my)) * bp ey) == 0)%Q) by (unfold Qdiv; ring).
    rewrite E. change (Qabs (0 - 0)) with 0%Q. change (Qabs 0) with 0%Q. lra.
  - destruct (SFdiv_core_binary prec emax (Z.pos mx) ex (Z.pos my) ey) as [[q e] l] eqn:Ec. unfold SFdiv_core_binary in Ec.
    set (d1 := Zdigits2 (Z.pos mx)) in *. set (d2 := Zdigits2 (Z.pos my)) in *.
    set (e' := Z.min (fexp (d1 + ex - (d2 + ey))) (ex - ey)) in *.
    assert (Hs : 0 <= ex - ey - e') by lia.
    assert (Em : (match ex - ey - e' with Z0 => Z.pos mx | Zpos _ => Z.shiftl (Z.pos mx) (ex - ey - e') | Zneg _ => 0 end) = Z.pos mx * 2 ^ (ex - ey - e')).
    { destruct (ex - ey - e') as [|p|p] eqn:Es; [cbn; lia| |lia]. apply Z.shiftl_mul_pow2. lia. }
    rewrite Em in Ec. clear Em. set (s := ex - ey - e') in *. set (W := Z.pos mx * 2 ^ s) in *.
    pose proof (Z_div_mod W (Z.pos my) eq_refl) as DM. destruct (Z.div_eucl W (Z.pos my)) as [q' r'] eqn:Eq. injection Ec as <- <- <-.
    destruct DM as [EW Hr'].
    assert (HW : 0 < W) by (apply Z.mul_pos_pos; [lia|apply Z.pow_pos_nonneg; lia]).
    assert (Hq' : 0 <= q') by nia.
    assert (Hdm : Zdigits2 W = d1 + s) by (apply digits_shift; lia).
    destruct (digits_spec (Z.pos my)) as (Y0 & Y1 & Y2); [lia|]. destruct Y2 as [Y2 Y3]; [lia|]. fold d2 in Y0, Y1, Y2, Y3.
    destruct (digits_spec W) as (W0 & W1 & W2); [lia|]. destruct W2 as [W2 W3]; [lia|]. rewrite Hdm in W0, W1, W2, W3.
    destruct (digits_spec (Z.pos mx)) as (_ & _ & X2); [lia|]. destruct X2 as [X2 _]; [lia|]. fold d1 in X2.
    destruct (digits_spec q' Hq') as (Q0 & Q1 & Q2).
    (* digits of the quotient *)
    assert (HQ : d1 + s - d2 <= Zdigits2 q').
    { destruct (Z_le_gt_dec (d1 + s - d2) (Zdigits2 q')) as [|C]; auto. exfalso.
      assert (A1 : 2 ^ (d2 + Zdigits2 q') <= 2 ^ (d1 + s - 1)) by (apply Z.pow_le_mono_r; lia).
      rewrite Z.pow_add_r in A1 by lia. nia. }
    pose proof (aux_near (xorb sx sy) q' e' (new_location (Z.pos my) r') W (Z.pos my) eq_refl Hq') as N. cbv zeta in N.
    assert (Ev : (sq_val (S754_finite sx mx ex) / sq_val (S754_finite sy my ey) == (if xorb sx sy then - 1 else 1) * (inject_Z W / inject_Z (Z.pos my) * bp e'))%Q).
    { cbn [sq_val]. rewrite !cond_val. unfold W. rewrite inject_Z_mult. rewrite <- bp_Z by lia.
      assert (Ee : (bp ex == bp s * bp e' * bp ey)%Q) by (rewrite <- !bp_add; replace (s + e' + ey) with ex by (unfold s; lia); reflexivity).
      rewrite Ee. assert (Hy0 : ~ (inject_Z (Z.pos my) == 0)%Q) by discriminate.
      assert (Hb0 : ~ (bp ey == 0)%Q) by (intros C; pose proof (bp_pos ey) as P; rewrite C in P; discriminate P).
      destruct sx, sy; cbn [xorb]; field; auto. }
    rewrite Ev, Qabs_Qmult. assert (E1 : (Qabs (if xorb sx sy then - 1 else 1) == 1)%Q) by (destruct (xorb sx sy); reflexivity).
    rewrite E1, Qmult_1_l, (Qabs_pos (inject_Z W / inject_Z (Z.pos my) * bp e')).
    2:{ apply Qmult_le_0_compat; [|apply Qlt_le_weak, bp_pos]. apply Qle_shift_div_l; [reflexivity|]. rewrite Qmult_0_l. change 0%Q with (inject_Z 0). rewrite <- Zle_Qle. lia. }
    apply N; auto.
    + apply (inv0 _ _ _ r'); try lia. apply loc_spec; lia.
    + lia.
    + right. clear - HQ Hp. unfold e', s in *. unfold SpecFloat.fexp in *. lia.
    + intros E0. rewrite E0 in HQ. cbn [Zdigits2] in HQ. clear - HQ Hp X2. unfold s, e', SpecFloat.fexp in *. lia.
Qed.
End Fmt.
