(** Rounding errors of the transforms of multivectors. *)
From Verif Require Export P_Round5.
From Coq Require Import QArith Lqa Lia.
Local Open Scope Qc_scope.

Lemma qsq_pos (a : Qc) : 0 <= a * a.
Proof.
  destruct (Qclt_le_dec a 0) as [H|H]; [|apply qmul_pos; auto]. apply Qclt_le_weak in H. replace (a * a) with (- a * - a) by ring. apply qmul_pos; qlra.
Qed.
Lemma qsum0 (a b : Qc) : 0 <= a -> 0 <= b -> a + b = 0 -> a = 0 /\ b = 0.
Proof.
  intros Ha Hb E. assert (a <= 0) by (rewrite <- E; qlra). assert (b <= 0) by (rewrite <- E; qlra). split; apply Qcle_antisym; auto.
Qed.
#[global] Instance QcReal : FormallyReal Qc.
Proof.
  constructor. assert (Hp : forall l : list Qc, 0 <= suml (fun a => rmul a a) l).
  { induction l as [|a l IH]; cbn [suml]; [apply Qcle_refl|]. cbn [radd rmul QcOps] in *. pose proof (qsq_pos a). qlra. }
  intros l. induction l as [|a l IH]; intros E; [constructor|]. cbn [suml] in E. 
  change (a * a + suml (fun a => rmul a a) l = 0) in E. apply qsum0 in E as [E1 E2]; [|apply qsq_pos|apply Hp].
  constructor; [apply Qcmult_integral in E1; tauto|]. auto.
Qed.

(** ** Sums over blocks *)

Lemma sum_pos d (f : N -> Qc) : (forall i, (i < pow2 d)%N -> 0 <= f i) -> 0 <= sumI d f.
Proof.
  revert f. induction d as [|d IH]; intros f H; [rewrite sumI_O; apply H; reflexivity|]. rewrite sumI_S. change (@radd Qc QcOps) with Qcplus.
  assert (H0 := IH f ltac:(intros; apply H, low_lt; auto)). assert (H1 := IH (fun i => f (pow2 d + i)%N) ltac:(intros; apply H, high_lt; auto)).
  set (a := sumI d f) in *. set (b := sumI d _) in *. clearbody a b. qlra.
Qed.
Lemma sum_block_le n s (f : N -> Qc) w : (forall i, (i < pow2 (n + s))%N -> 0 <= f i) -> (w < pow2 s)%N -> sumI n (blk_of n f w) <= sumI (n + s) f.
Proof.
  revert f w. induction s as [|s IH]; intros f w H Hw.
  - cbn in Hw. assert (w = 0%N) as -> by lia. rewrite Nat.add_0_r in *. rewrite (sumI_ext n (blk_of n f 0) f); [apply Qcle_refl|]. intros i _. unfold blk_of. f_equal. lia.
  - rewrite Nat.add_succ_r in *. rewrite sumI_S. change (@radd Qc QcOps) with Qcplus.
    assert (P0 := sum_pos (n + s) f ltac:(intros; apply H, low_lt; auto)). assert (P1 := sum_pos (n + s) (fun i => f (pow2 (n + s) + i)%N) ltac:(intros; apply H, high_lt; auto)).
    spl w Hw.
    + assert (I := IH f w ltac:(intros; apply H, low_lt; auto) Hw). set (a := sumI (n + s) f) in *. set (b := sumI (n + s) _) in *. set (c := sumI n _) in *. clearbody a b c. qlra.
    + assert (I := IH (fun i => f (pow2 (n + s) + i)%N) w0 ltac:(intros; apply H, high_lt; auto) Hw).
      rewrite (sumI_ext n (blk_of n f (pow2 s + w0)) (blk_of n (fun i => f (pow2 (n + s) + i)%N) w0)).
      * set (a := sumI (n + s) f) in *. set (b := sumI (n + s) _) in *. set (c := sumI n _) in *. clearbody a b c. qlra.
      * intros i _. unfold blk_of. f_equal. rewrite pow2_add. lia.
Qed.
Lemma sum_pad n (f : N -> Qc) : sumI (2 * half n) (pad n f) = sumI n f.
Proof.
  assert (E : sumI n (pad n f) = sumI n f). { apply sumI_ext. intros i Hi. unfold pad. apply N.ltb_lt in Hi. rewrite Hi. reflexivity. }
  destruct (half_cases n) as [(_ & ->)|(_ & ->)]; [exact E|]. rewrite sumI_S, E, (sumI_0 n (fun i => pad n f (pow2 n + i))).
  - apply Qcplus_0_r.
  - intros i Hi. unfold pad. destruct (N.ltb_spec (pow2 n + i) (pow2 n)); [lia|reflexivity].
Qed.

Section Tr.
Context {F : Type} {RF : RingOps F} {DF : DivOps F} {V : RoundOps F} {RL : RoundLaws F} {W : NumLaws F}.
Local Notation C := (cplx F).
Local Notation CQ := (cplx Qc).
Local Instance WC : NumLaws C := cplx_num W.

Lemma unit_r0 (p : C) q : unit4 p q -> rmul r0 p = r0 /\ rmul p r0 = r0.
Proof.
  intros (s & Fs & _ & [(-> & _)|(-> & _)]); destruct (ro_mul_0 s Fs) as [E1 E2]; destruct (ro_mul_0 r0 (proj2 ro_0)) as [E3 _];
  cbn [rmul CplxOps c_re c_im r0]; rewrite ?E1, ?E2, ?E3, ?sub_r0, ?add_r0; auto.
Qed.
Lemma ipw_r0 k : rmul r0 (ipw k : C) = r0.
Proof. apply (unit_r0 _ _ (ipw_unit k)). Qed.
Lemma ipw_l0 k : rmul (ipw k : C) r0 = r0.
Proof. apply (unit_r0 _ _ (ipw_unit k)). Qed.
Lemma ipn_l0 k : rmul (ipn k : C) r0 = r0.
Proof. apply (unit_r0 _ _ (ipn_unit k)). Qed.

(** ** Contents of the transforms, without ring laws *)

Section Array.
Context {T : Type} {RT : RingOps T} {IC : IntoCplx T F} {md : Mode}.
Hypothesis Hi0 : into_complex (r0 : T) = (r0 : C).

Lemma r_prepare n (l : list T) : length l = (2 ^ n)%nat ->
  exists arr : list C, clifft_prepare l = Ok arr /\ length arr = (2 ^ (2 * half n))%nat /\ feq (2 * half n) (lc arr) (tfun l).
Proof.
  intros Hl. unfold clifft_prepare. rewrite Hl, cl_dim_pow. cbn [bind]. rewrite half_even. set (N := (2 * half n)%nat).
  assert (HN : (2 ^ n <= 2 ^ N)%nat) by (apply Nat.pow_le_mono_r; [lia|apply half_le]).
  match goal with |- context [foldM ?f ?e ?s] =>
    destruct (foldM_inv f (fun pre (arr : list C) => length arr = (2 ^ N)%nat /\
      forall k, (k < 2 ^ N)%nat -> nth k arr r0 = if Nat.ltb k (length pre) then tfun l (BinNat.N.of_nat k) else r0) e s) as (arr & E & Hlen & Harr)
  end.
  - split; [apply repeat_length|]. intros k Hk. apply nth_repeat.
  - intros pre [i c] post arr He (Ha & Hk).
    assert (Hp : (length pre < length l)%nat) by (rewrite <- (length_enumerate l), He, app_length; cbn; lia).
    assert (Ei : nth (length pre) (enumerate l) (N0, r0) = (i, c)) by (rewrite He, app_nth2, Nat.sub_diag by lia; reflexivity).
    rewrite nth_enumerate in Ei by auto. injection Ei as <- <-. cbn [fst snd].
    rewrite (nthr_nth _ _ r0) by (cbn [i_powers length]; apply Nat.mod_upper_bound; lia). cbn [bind]. rewrite Nat2N.id.
    unfold updr. rewrite Ha. destruct (Nat.ltb_spec (length pre) (2 ^ N)); [|lia]. eexists. split; [reflexivity|].
    split; [rewrite length_upd; auto|]. intros k Hkk. rewrite nth_upd, Ha, app_length. cbn [length].
    destruct (Nat.ltb_spec (length pre) (2 ^ N)); [|lia]. rewrite Bool.andb_true_r. destruct (Nat.eqb_spec (length pre) k) as [<-|Hne].
    + destruct (Nat.ltb_spec (length pre) (length pre + 1)); [|lia]. unfold tfun, phi, lc. rewrite Nat2N.id. reflexivity.
    + rewrite Hk by auto. destruct (Nat.ltb_spec k (length pre)), (Nat.ltb_spec k (length pre + 1)); auto; lia.
  - exists arr. split; auto. split; auto. intros i Hi. pose proof (proj2 (to_nat_lt_pow2 _ _) Hi) as Hi'. unfold lc at 1. rewrite Harr by auto.
    rewrite N2Nat.id, length_enumerate. destruct (Nat.ltb_spec (N.to_nat i) (length l)) as [H|H]; auto.
    unfold tfun, phi, lc. rewrite (nth_overflow l) by auto. rewrite Hi0, ipw_r0. reflexivity.
Qed.
Lemma r_clifft n (l : list T) : length l = (2 ^ n)%nat -> exists M : mat C, clifft l = Ok M /\ mrep (half n) M (tr n l).
Proof.
  intros Hl. destruct (r_prepare n l Hl) as (arr & E & Ha & Hf). unfold clifft. rewrite E. cbn [bind].
  destruct (clifft_nn_ok (half n) arr Ha) as (M & -> & HM). exists M. split; auto. eapply mrep_ext; [exact HM|]. apply cl_ext; auto.
Qed.
End Array.

Section MV.
Context {md : Mode}.
Variables (sg : list tok) (A : algebra).
Hypothesis D : declared sg A.
Hypothesis Hl : (length sg < 63)%nat.
Let HS := declared_nn sg A D.
Local Notation n := (nonnull sg).
Local Notation d := (a_dim A).
Let Hd : (d < 63)%nat.
Proof. rewrite (declared_dim _ _ D). exact Hl. Qed.
Let s := (d - n)%nat.
Let Hn : (n <= d)%nat := std_nn A n HS.
Let Hs : d = (n + s)%nat.
Proof. unfold s. lia. Qed.
Let Hh : (half n <= 32)%nat.
Proof. unfold half. apply Nat.div_le_upper_bound; lia. Qed.
Context {T : Type} {RT : RingOps T} {WT : NumLaws T} {IC : IntoCplx T F} {FC : FromCplx T F}.
Hypothesis Hi0 : into_complex (r0 : T) = (r0 : C).
Hypothesis Hf0 : from_complex (r0 : C) = (r0 : T).

(** The complexified coefficients. *)
Definition cfl (x : N -> T) (k : N) : C := rmul (ipn (popcount (N.land k (a_imag A)))) (into_complex (x k)).

Lemma r_complexify (x : arr T) : arr_wf d x -> exists z : arr C, complexify A x = Ok z /\ arr_wf d z /\ forall k, (k < pow2 d)%N -> arr_coef z k = cfl (arr_coef x) k.
Proof.
  intros Hx. unfold complexify, complexified_iter.
  rewrite (mapM_Ok _ (fun ic => (fst ic, (fun i c => rmul (ipn (popcount (N.land i (a_imag A)))) (into_complex c)) (fst ic) (snd ic)))).
  - cbn [bind]. rewrite flat_map_map.
    destruct (move_ok (St' := ArrStorage) (SL' := ArrLaws) d (arr_coef x) (mv_coeff_enumerate x) (st_enum_ok (StorageLaws := ArrLaws) d x Hx) (fun _ => true) (fun i => i) (fun i => i)
      (fun i c => rmul (ipn (popcount (N.land i (a_imag A)))) (into_complex c) : C)) with (B := Complexification A) as (z & E & Hz & Hc); auto.
    { intros i. rewrite Hi0. apply ipn_l0. }
    { apply (std_ok _ n), compl_std. exact HS. }
    { cbn. change (a_dim A < 64)%nat. lia. }
    unfold moved in E. cbn beta iota in E. rewrite E. exists z. split; auto. 
  - intros [i c] _. cbn [fst snd]. rewrite (nthr_nth _ _ r0) by (cbn [i_neg_powers length]; apply Nat.mod_upper_bound; lia). reflexivity.
Qed.
Lemma r_decomplexify (o : arr C) : arr_wf d o -> exists z : arr T, decomplexify A o = Ok z /\ arr_wf d z /\
  forall k, (k < pow2 d)%N -> arr_coef z k = from_complex (rmul (ipw (popcount (N.land k (a_imag A)))) (arr_coef o k)).
Proof.
  intros Hx. unfold decomplexify.
  rewrite (mapM_Ok _ (fun ic => (fst ic, (fun i c => from_complex (rmul (ipw (popcount (N.land i (a_imag A)))) c)) (fst ic) (snd ic)))).
  - cbn [bind]. rewrite flat_map_map.
    destruct (move_ok (St' := ArrStorage) (SL' := ArrLaws) d (arr_coef o) (mv_coeff_enumerate o) (st_enum_ok (StorageLaws := ArrLaws) d o Hx) (fun _ => true) (fun i => i) (fun i => i)
      (fun i c => from_complex (rmul (ipw (popcount (N.land i (a_imag A)))) c) : T)) with (B := A) as (z & E & Hz & Hc); auto.
    { intros i. rewrite ipw_l0. apply Hf0. }
    { apply (std_ok _ n HS). }
    { cbn. lia. }
    unfold moved in E. cbn beta iota in E. rewrite E. exists z. split; auto.
  - intros [i c] _. cbn [fst snd]. rewrite (nthr_nth _ _ r0) by (cbn [i_powers length]; apply Nat.mod_upper_bound; lia). reflexivity.
Qed.

Lemma r_fft (x : arr T) : arr_wf d x -> exists r, mv_fft A x = Ok r /\ repr_of sg A r (cfl (arr_coef x)).
Proof.
  intros Hx. unfold mv_fft. rewrite (shl_side sg A D Hl). cbn [bind]. rewrite (shl_wcount sg A D Hl). cbn [bind]. cbv zeta.
  destruct (r_complexify x Hx) as (c & -> & Hc & Ec). cbn [bind].
  cbn [a3_zeros t_mats t_nr t_nc]. rewrite (std_ri A n HS), ones_add1, !pow2_nat. change (d - n)%nat with s.
  destruct Hc as (_ & _ & Hlen). rewrite Hs in Hlen.
  destruct (foldM_seq (fun i l => length l = (2 ^ s)%nat /\ forall w, (w < 2 ^ s)%nat -> if Nat.ltb w i then mrep (half n) (nth w l (m_zeros 0 0)) (frep sg (cfl (arr_coef x)) (N.of_nat w)) else square_mat (2 ^ half n) (nth w l (m_zeros 0 0)))
    (fun l i => v <- slice (arr_data c) (i * 2 ^ n) ((i + 1) * 2 ^ n) ;; dest <- nthr l i ;; m <- unwrap (clifft_into v dest) ;; updr l i m) (2 ^ s)%nat (repeat (m_zeros (2 ^ half n) (2 ^ half n)) (2 ^ s))) as (l & -> & El & Hl').
  - split; [apply repeat_length|]. intros w Hw. cbn [Nat.ltb Nat.leb]. rewrite (nth_indep _ _ (m_zeros (2 ^ half n) (2 ^ half n))) by (rewrite repeat_length; auto).
    rewrite nth_repeat. destruct (mis_zeros (T := C) (2 ^ half n) (2 ^ half n)) as (Z1 & Z2 & Z3 & _). repeat split; auto.
  - intros i l Hi (Ll & Hw). destruct (slice_block n s (arr_data c) i Hlen Hi) as (v & -> & Lv & Hv). cbn [bind].
    rewrite (nthr_nth l i (m_zeros 0 0)) by lia. cbn [bind]. assert (Hsq := Hw i Hi). rewrite Nat.ltb_irrefl in Hsq.
    rewrite (w_clifft_into n v _ Lv Hsq). destruct (r_clifft (T := C) (RT := CplxOps) (IC := CplxInto) eq_refl n v Lv) as (M & -> & HM). cbn [unwrap bind].
    unfold updr. rewrite Ll. destruct (Nat.ltb_spec i (2 ^ s)); [|lia]. eexists. split; [reflexivity|]. split; [rewrite length_upd; auto|].
    intros w Hww. rewrite nth_upd, Ll. destruct (Nat.ltb_spec i (2 ^ s)); [|lia]. rewrite Bool.andb_true_r. destruct (Nat.eqb_spec i w) as [<-|Hne].
    + destruct (Nat.ltb_spec i (Datatypes.S i)); [|lia]. eapply mrep_ext; [exact HM|]. unfold tr, frep. apply cl_ext. intros j Hj. unfold tfun, phi. f_equal.
      cbn [into_complex CplxInto]. rewrite Hv. unfold pad, blk_of. destruct (N.ltb_spec j (pow2 n)); auto. change (lc (arr_data c)) with (arr_coef c). apply Ec.
      rewrite Hs. apply block_lt; auto. apply of_nat_lt; auto.
    + specialize (Hw w Hww). destruct (Nat.ltb_spec w i), (Nat.ltb_spec w (Datatypes.S i)); auto; lia.
  - cbn [bind]. eexists. split; [reflexivity|]. split; [reflexivity|]. split; [reflexivity|]. split; [exact El|]. intros w Hw. cbn [t_mats]. specialize (Hl' w Hw). fold s in Hw. destruct (Nat.ltb_spec w (2 ^ s)); [exact Hl'|lia].
Qed.

Lemma r_ifft r X : arep (half n) s r X -> exists z : arr T, fr_ifft A r = Ok z /\ arr_wf d z /\
  forall k, (k < pow2 d)%N -> arr_coef z k = from_complex (rmul (ipw (popcount (N.land k (a_imag A)))) (icoef sg X k)).
Proof.
  intros (R1 & R2 & R3). pose proof (compl_std A n HS) as HC. set (CA := Complexification A) in *.
  assert (Hcd : a_dim CA = d) by reflexivity.
  assert (HE : alg_std (Even CA) (2 * half n) /\ a_dim (Even CA) = (2 * half n + s)%nat).
  { destruct (half_cases n) as [(E & H)|(E & H)]; rewrite H.
    - split; [apply even_std_even; auto|]. destruct (even_eq CA n HC E) as (-> & _). lia.
    - split; [apply even_std_odd; auto; lia|]. rewrite (even_dim CA n HC E); lia. }
  destruct HE as (HE & Ed). assert (H2 : (2 * half n <= S n)%nat) by (destruct (half_cases n); lia).
  unfold fr_ifft. change (Complexification A) with CA. destruct (zero_ok (T := C) (St := ArrStorage) (SL := ArrLaws) (Even CA)) as (rc & -> & (_ & Drc & Lrc) & Hrc); [cbn [st_dim_ok ArrLaws]; lia|]. cbn [bind].
  change (a_real_dim (Even CA) + a_imag_dim (Even CA))%nat with (base_non_null_dim (Even CA)). rewrite (std_base _ _ HE), shl_1 by lia. cbn [bind]. cbv zeta. rewrite pow2_nat.
  rewrite Ed in Lrc, Drc.
  destruct (foldM_ind (fun i l => length l = (2 ^ (2 * half n + s))%nat /\ forall w k, (w < N.of_nat i)%N -> (k < pow2 (2 * half n))%N -> lc l (pow2 (2 * half n) * w + k) = phi ipn idx_mask (icl (half n) (X w)) k)
    (fun d im => v <- slice d (N.to_nat (fst im) * 2 ^ (2 * half n)) ((N.to_nat (fst im) + 1) * 2 ^ (2 * half n)) ;; v <- unwrap (iclifft_into (snd im) v) ;;
      Ok (unslice d (N.to_nat (fst im) * 2 ^ (2 * half n)) ((N.to_nat (fst im) + 1) * 2 ^ (2 * half n)) v)) (0%N, m_zeros 0 0) (enumerate (t_mats r)) (arr_data rc)) as (l & -> & Ll & Hlw).
  - split; [exact Lrc|]. intros; lia.
  - intros i l Hi (Ll & Hw). rewrite length_enumerate in Hi. destruct R3 as (R3 & R4). assert (Hi2 : (i < 2 ^ s)%nat) by lia.
    rewrite (nth_enumerate _ _ (m_zeros 0 0)) by auto. cbn [fst snd]. rewrite Nat2N.id.
    destruct (slice_block _ s l i Ll Hi2) as (v & -> & Lv & _). cbn [bind].
    destruct (iclifft_into_ok _ _ _ v (R4 i Hi2) Lv) as (v' & -> & Lv' & Hv'). cbn [unwrap bind].
    eexists. split; [reflexivity|]. destruct (unslice_block _ s l v' i Ll Lv' Hi2) as (U1 & U2). split; [exact U1|].
    intros w k Hwi Hk. assert ((w < pow2 s)%N) by (pose proof (of_nat_lt _ _ Hi2); lia). rewrite U2 by auto. destruct (N.eqb_spec w (N.of_nat i)) as [->|Hne]; [apply Hv'; auto|].
    apply Hw; auto; lia.
  - cbn [bind]. rewrite length_enumerate in Hlw. rewrite (proj1 R3), of_nat_pow2 in Hlw.
    assert (HO : exists o, into_original CA (mkArr (arr_dim rc) l) = Ok o /\ arr_wf d o /\ forall k, (k < pow2 d)%N -> arr_coef o k = icoef sg X k).
    { destruct (half_cases n) as [(E & H)|(E & H)].
      - rewrite (into_original_even CA n HC _ E). eexists. split; [reflexivity|]. split.
        + unfold arr_wf. cbn [arr_dim arr_data]. repeat split; try lia. rewrite Ll. f_equal. lia.
        + intros k Hk. rewrite Hs in Hk. apply block_split in Hk as (w & i & -> & Hw & Hi). rewrite (icoef_block sg A D Hl) by auto.
          change (arr_coef _) with (lc l). rewrite H in Hlw. apply Hlw; auto.
      - destruct (into_original_odd (St := ArrStorage) (SL := ArrLaws) CA n HC (mkArr (arr_dim rc) l) E) as (o & -> & Ho & Hc); [lia| |cbn; lia|].
        + cbn [st_wf ArrLaws]. unfold arr_wf. cbn [arr_dim arr_data]. repeat split; try lia. rewrite Ll. f_equal. lia.
        + eexists. split; [reflexivity|]. split; [exact Ho|]. intros k Hk. specialize (Hc k Hk). cbn [st_coef ArrLaws] in Hc. rewrite Hc. clear Hc.
          rewrite Hs in Hk. apply block_split in Hk as (w & i & -> & Hw & Hi). rewrite (icoef_block sg A D Hl), insb_block by auto.
          change (arr_coef _) with (lc l). rewrite H in Hlw. apply Hlw; auto. rewrite pow2_S. lia. }
    destruct HO as (o & -> & Ho & Hc). cbn [bind].
    destruct (r_decomplexify o Ho) as (z & -> & Hz & Ez).
    exists z. split; auto. split; [exact Hz|]. intros k Hk. rewrite Ez by auto. rewrite Hc by auto. reflexivity.
Qed.

(** ** Errors *)

Local Notation gph g := ((1 + ulp) * (1 + ulp) * (1 + g) - 1).
Local Notation eph e := ((1 + ulp) * (1 + ulp) * e + ((1 + ulp) + 1) * eta).
Definition gcl (m : nat) (g : Qc) : Qc := (1 + ulp) ^ m * (1 + g) - 1.
Definition ecl (m : nat) (e : Qc) : Qc := (1 + 1) ^ m * (1 + ulp) ^ m * (e + eta) - eta.

Lemma gph_pos g : 0 <= g -> 0 <= gph g.
Proof.
  intros Hg. pose proof eq1_pos as H. assert (0 <= ((1 + ulp) * (1 + ulp) - 1) * (1 + g)) by (apply qmul_pos; [exact H|qlra]).
  replace (gph g) with (((1 + ulp) * (1 + ulp) - 1) * (1 + g) + g) by ring. set (X := _ * (1 + g)) in *. clearbody X. qlra.
Qed.
Lemma eph_pos e : 0 <= e -> 0 <= eph e.
Proof.
  intros He. pose proof ro_u as Hu. pose proof ee_pos as H. assert (0 <= (1 + ulp) * (1 + ulp) * e) by (repeat (apply qmul_pos; try qlra)).
  set (X := (1 + ulp) * (1 + ulp) * e) in *. set (Y := _ * eta) in *. clearbody X Y. qlra.
Qed.
Lemma gcl_pos m g : 0 <= g -> 0 <= gcl m g.
Proof.
  intros Hg. unfold gcl. pose proof (qpow_ge ulp m ro_u) as H. set (G := (1 + ulp) ^ m) in *. clearbody G.
  assert (0 <= (G - 1) * (1 + g)) by (apply qmul_pos; qlra). replace (G * (1 + g) - 1) with ((G - 1) * (1 + g) + g) by ring. set (X := _ * (1 + g)) in *. clearbody X. qlra.
Qed.
Lemma ecl_pos m e : 0 <= e -> 0 <= ecl m e.
Proof.
  intros He. unfold ecl. pose proof (qpow_ge ulp m ro_u) as H. set (G := (1 + ulp) ^ m) in *. assert (HK : 1 <= (1 + 1) ^ m) by (apply qpow_ge; discriminate). set (K := (1 + 1) ^ m) in *. clearbody G K.
  pose proof ro_eta as Ht. assert (0 <= (K - 1) * G * (e + eta)) by (repeat (apply qmul_pos; try qlra)). assert (0 <= (G - 1) * (e + eta)) by (apply qmul_pos; qlra).
  replace (K * G * (e + eta) - eta) with ((K - 1) * G * (e + eta) + ((G - 1) * (e + eta) + e)) by ring. set (X := _ * _ * (e + eta)) in *. set (Y := _ * (e + eta)) in *. clearbody X Y. qlra.
Qed.
Lemma igain_pos m g : 0 <= g -> 0 <= igain m g.
Proof. intros H. apply (gcl_pos (3 * m) g H). Qed.
Lemma ieta_pos m e : 0 <= e -> 0 <= ieta m e.
Proof.
  intros He. unfold ieta. pose proof ro_eta. pose proof (qpow_ge ulp (3 * m) ro_u) as HG. apply qmul_pos; [set (G := (1 + ulp) ^ _) in *; clearbody G; qlra|].
  assert (0 <= zq (3 * Z.of_nat m) * eta) by (apply qmul_pos; auto; apply zq_pos; lia). set (X := _ * eta) in *. clearbody X. qlra.
Qed.
Lemma napp_B g B B' e (z : C) (w : CQ) : 0 <= g -> B <= B' -> napp g B e z w -> napp g B' e z w.
Proof.
  intros Hg HB (H1 & H2 & H3 & H4). assert (H := qmul_le _ _ g Hg HB). assert (HX : g * B + e <= g * B' + e) by (apply Qcplus_le_compat; [exact H|apply Qcle_refl]).
  split; [eapply Qcle_trans; eassumption|]. split; [eapply Qcle_trans; eassumption|]. split; (eapply Qcle_trans; [eassumption|exact HX]).
Qed.
Lemma cabs1_pos (w : CQ) : 0 <= cabs1 w.
Proof. unfold cabs1. pose proof (Qcabs_nonneg (c_re w)). pose proof (Qcabs_nonneg (c_im w)). qlra. Qed.
Lemma napp_self (z : C) : napp 0 (cabs1 (cval z)) 0 z (cval z).
Proof.
  unfold napp, cwithin, cabs1, cval. cbn [c_re c_im]. pose proof (Qcabs_nonneg (val (c_re z))). pose proof (Qcabs_nonneg (val (c_im z))).
  replace (val (c_re z) - val (c_re z)) with 0 by ring. replace (val (c_im z) - val (c_im z)) with 0 by ring. rewrite qabs0.
  repeat split; qlra.
Qed.

(** Forward, from approximate coefficients. *)
Lemma cl_napp m g e (x : N -> C) (y : N -> CQ) (w : N -> Qc) : 0 <= g -> 0 <= e ->
  (forall t, (t < pow2 (2 * m))%N -> cfinite (x t) = true -> napp g (w t) e (x t) (y t)) ->
  (forall i j, (i < pow2 m)%N -> (j < pow2 m)%N -> cfinite (cl m x i j) = true) ->
  forall i j, (i < pow2 m)%N -> (j < pow2 m)%N -> napp (gcl m g) (sumI (2 * m) w) (ecl m e) (cl m x i j) (cl m y i j).
Proof.
  intros Hg He H HF.
  assert (HF1 : forall i j, (i < pow2 m)%N -> (j < pow2 m)%N -> finite (cl m (fun t => c_re (x t)) i j) = true /\ finite (cl m (fun t => c_im (x t)) i j) = true).
  { intros i j Hi Hj. specialize (HF i j Hi Hj). unfold cfinite in HF. rewrite (proj1 (cl_re m x i j)), (proj2 (cl_re m x i j)) in HF. apply Bool.andb_true_iff in HF. exact HF. }
  assert (Hx : forall t, (t < pow2 (2 * m))%N -> cfinite (x t) = true).
  { intros t Ht. unfold cfinite. apply Bool.andb_true_iff. split.
    - apply (cl_finite m (fun t => c_re (x t))); auto. intros; apply HF1; auto.
    - apply (cl_finite m (fun t => c_im (x t))); auto. intros; apply HF1; auto. }
  intros i j Hi Hj.
  destruct (cl_near g e Hg He m (fun t => c_re (x t)) (fun t => c_re (y t)) w) with (i := i) (j := j) as [R1 R2]; auto.
  { intros t Ht. destruct (H t Ht (Hx t Ht)) as (N1 & N2 & N3 & N4). auto. } { intros; apply HF1; auto. }
  destruct (cl_near g e Hg He m (fun t => c_im (x t)) (fun t => c_im (y t)) w) with (i := i) (j := j) as [I1 I2]; auto.
  { intros t Ht. destruct (H t Ht (Hx t Ht)) as (N1 & N2 & N3 & N4). auto. } { intros; apply HF1; auto. }
  unfold napp, cwithin. rewrite !(proj1 (cl_re m _ i j)), !(proj2 (cl_re m _ i j)). auto.
Qed.

Definition yq (x : N -> T) (k : N) : CQ := cval (into_complex (x k)).
Definition cq (x : N -> T) (k : N) : CQ := rmul (ipn (popcount (N.land k (a_imag A)))) (yq x k).
Definition wq (x : N -> T) (k : N) : Qc := cabs1 (yq x k).
Local Notation g2 := (gph (gph 0)).
Local Notation e2 := (eph (eph 0)).

Lemma g2_pos : 0 <= g2. Proof. apply gph_pos, gph_pos, Qcle_refl. Qed.
Lemma e2_pos : 0 <= e2. Proof. apply eph_pos, eph_pos, Qcle_refl. Qed.

Lemma rt_core (x : N -> T) : (forall k, (k < pow2 d)%N -> cfinite (icoef sg (frep sg (cfl x)) k) = true) ->
  forall k, (k < pow2 d)%N -> napp (gph (igain (half n) (gcl (half n) g2))) (sumI d (wq x)) (eph (ieta (half n) (ecl (half n) e2))) (icoef sg (frep sg (cfl x)) k) (cq x k).
Proof.
  intros HF k Hk. rewrite <- (icoef_frep (F := Qc) sg A D Hl (cq x) k Hk). rewrite Hs in Hk. apply block_split in Hk as (w & i & -> & Hw & Hi).
  rewrite !(icoef_block sg A D Hl) by auto.
  assert (HB : forall i, (i < pow2 n)%N -> cfinite (phi ipn idx_mask (icl (half n) (frep sg (cfl x) w)) i) = true).
  { intros j Hj. rewrite <- (icoef_block sg A D Hl) by auto. apply HF. rewrite Hs. apply block_lt; auto. }
  unfold phi in *.
  assert (HI : forall i, (i < pow2 n)%N -> cfinite (icl (half n) (frep sg (cfl x) w) i) = true).
  { intros j Hj. apply (phase_r _ _ _ (ipn_unit (popcount (N.land j idx_mask)))). apply HB; auto. }
  apply (proj2 (phase_r _ _ _ (ipn_unit (popcount (N.land i idx_mask))) (HB i Hi))).
  pose proof g2_pos as G2. pose proof e2_pos as E2. pose proof (gcl_pos (half n) _ G2) as G3. pose proof (ecl_pos (half n) _ E2) as E3.
  assert (HX := icl_finite_n n _ HI).
  assert (HW : forall k, (k < pow2 (n + s))%N -> 0 <= wq x k) by (intros; apply cabs1_pos).
  apply icl_near_n; auto; [apply sum_pos; intros; apply cabs1_pos|].
  intros a b Ha Hb _. apply (napp_B _ (sumI (2 * half n) (pad n (blk_of n (wq x) w)))); [exact G3|rewrite sum_pad, Hs; apply sum_block_le; auto|].
  unfold frep. apply cl_napp; auto.
  intros t Ht Hft. unfold phi in *. unfold pad in *. destruct (N.ltb_spec t (pow2 n)) as [Htn|Htn].
  - unfold blk_of in *. destruct (phase_r _ _ _ (ipw_unit (popcount (N.land t idx_mask))) Hft) as [Hf1 N1]. apply N1.
    unfold cfl, cq, wq in *. destruct (phase_l _ _ _ (ipn_unit _) Hf1) as [Hf3 N3]. apply N3. apply napp_self.
  - rewrite ipw_r0. replace (rmul (@r0 CQ CplxOps) (ipw _)) with (@r0 CQ CplxOps) by (symmetry; apply mul_0_l).
    unfold napp, cwithin. cbn [c_re c_im r0 CplxOps QcOps]. rewrite (proj1 ro_0). replace (0 - 0) with 0 by ring. rewrite qabs0.
    assert (0 <= g2 * 0 + e2) by (rewrite Qcmult_0_r, Qcplus_0_l; exact E2). split; [apply Qcle_refl|]. split; [apply Qcle_refl|]. split; assumption.
Qed.
End MV.
End Tr.
