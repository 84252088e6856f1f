(** The representation by matrices: [fft], [ifft] and the operations of [FFTRepr]. *)
From Verif Require Export P_Props8.
Local Open Scope nat_scope.

Lemma slice_ok {X} (l : list X) a b : a <= b -> b <= length l -> slice l a b = Ok (firstn (b - a) (skipn a l)).
Proof. intros H1 H2. unfold slice. apply Nat.leb_le in H1, H2. rewrite H1, H2. reflexivity. Qed.

Lemma half_cases n : (Nat.even n = true /\ 2 * half n = n) \/ (Nat.even n = false /\ 2 * half n = S n).
Proof. rewrite <- half_even, <- Nat.negb_even. destruct (Nat.even n); cbn [negb]; auto. Qed.

Lemma foldM_ind {X Y} (P : nat -> X -> Prop) (body : X -> Y -> res X) (dflt : Y) (l : list Y) st :
  P 0 st -> (forall i st, i < length l -> P i st -> exists st', body st (nth i l dflt) = Ok st' /\ P (S i) st') ->
  exists st', foldM body l st = Ok st' /\ P (length l) st'.
Proof.
  revert P st. induction l as [|y l IH]; intros P st H0 Hb; [exists st; split; auto|].
  destruct (Hb 0 st ltac:(cbn; lia) H0) as (st' & E & H1). cbn [foldM nth] in *. rewrite E. cbn [bind].
  apply (IH (fun i => P (S i)) st' H1). intros i s Hi. apply (Hb (S i) s). cbn [length]. lia.
Qed.

Section Slices.
Context {T : Type} {RO : RingOps T} {L : RingLaws T}.
Lemma slice_block n s (l : list T) w : length l = 2 ^ (n + s) -> w < 2 ^ s ->
  exists v, slice l (w * 2 ^ n) ((w + 1) * 2 ^ n) = Ok v /\ length v = 2 ^ n /\ forall i, lc v i = pad n (blk_of n (lc l) (N.of_nat w)) i.
Proof.
  intros Hl Hw. rewrite Nat.pow_add_r in Hl. assert (H : (w + 1) * 2 ^ n <= length l) by (rewrite Hl; nia).
  rewrite slice_ok by nia. eexists. split; [reflexivity|]. replace ((w + 1) * 2 ^ n - w * 2 ^ n) with (2 ^ n) by nia.
  assert (Hv : length (firstn (2 ^ n) (skipn (w * 2 ^ n) l)) = 2 ^ n) by (rewrite firstn_length, skipn_length; nia).
  split; auto. intros i. unfold pad, blk_of, lc. destruct (N.ltb_spec i (pow2 n)) as [Hi|Hi].
  - pose proof (proj2 (to_nat_lt_pow2 _ _) Hi) as Hn. replace (N.to_nat (pow2 n * N.of_nat w + i)) with (w * 2 ^ n + N.to_nat i) by (rewrite N2Nat.inj_add, N2Nat.inj_mul, pow2_nat, Nat2N.id; lia).
    clear - Hn H Hl. revert H. generalize (w * 2 ^ n) as a. intros a _.
    assert (G : forall m (u : list T), nth m (skipn a u) r0 = nth (a + m) u r0).
    { induction a as [|a IH]; intros m u; [reflexivity|]. destruct u; [destruct m; reflexivity|]. apply IH. }
    rewrite <- G. generalize (skipn a l) as u. revert Hn. generalize (2 ^ n) (N.to_nat i). clear. intros p j Hj u.
    revert j Hj u. induction p as [|p IH]; intros j Hj u; [lia|]. destruct u as [|x u]; [destruct j; reflexivity|]. destruct j; [reflexivity|]. cbn [firstn nth]. apply IH. lia.
  - apply nth_overflow. rewrite Hv, <- pow2_nat. lia.
Qed.
Lemma unslice_block n s (l v : list T) w : length l = 2 ^ (n + s) -> length v = 2 ^ n -> w < 2 ^ s ->
  length (unslice l (w * 2 ^ n) ((w + 1) * 2 ^ n) v) = 2 ^ (n + s) /\
  forall u i, (u < pow2 s)%N -> (i < pow2 n)%N -> lc (unslice l (w * 2 ^ n) ((w + 1) * 2 ^ n) v) (pow2 n * u + i) = if (u =? N.of_nat w)%N then lc v i else lc l (pow2 n * u + i).
Proof.
  intros Hl Hv Hw. rewrite Nat.pow_add_r in *. assert (H : (w + 1) * 2 ^ n <= length l) by (rewrite Hl; nia). unfold unslice.
  assert (F : length (firstn (w * 2 ^ n) l) = w * 2 ^ n) by (rewrite firstn_length; nia).
  split; [rewrite !app_length, F, skipn_length; nia|]. intros u i Hu Hi. unfold lc.
  pose proof (proj2 (to_nat_lt_pow2 _ _) Hi) as Hn. pose proof (proj2 (to_nat_lt_pow2 _ _) Hu) as Hun.
  rewrite N2Nat.inj_add, N2Nat.inj_mul, pow2_nat. destruct (N.eqb_spec u (N.of_nat w)) as [->|Hne].
  - rewrite Nat2N.id. rewrite app_nth2 by (rewrite F; nia). rewrite F. rewrite app_nth1 by nia. f_equal. nia.
  - assert (N.to_nat u <> w) by lia. destruct (Nat.lt_ge_cases (N.to_nat u) w) as [Hlt|Hge].
    + rewrite app_nth1 by (rewrite F; nia). rewrite <- (firstn_skipn (w * 2 ^ n) l) at 2. rewrite app_nth1 by (rewrite F; nia). reflexivity.
    + rewrite app_nth2 by (rewrite F; nia). rewrite F. rewrite app_nth2 by nia.
      rewrite <- (firstn_skipn ((w + 1) * 2 ^ n) l) at 2. rewrite (app_nth2 (firstn ((w + 1) * 2 ^ n) l)) by (rewrite firstn_length; nia). f_equal. rewrite firstn_length. nia.
Qed.
End Slices.

Section FR.
Context {F : Type} {RF : RingOps F} {LF : RingLaws F} {DV : DivOps F} {md : Mode}.
Local Notation C := (cplx F).
Variables (sg : list tok) (A : algebra).
Hypothesis D : declared sg A.
Hypothesis Hl : length sg < 63.
Let HS := declared_nn sg A D.
Local Notation n := (nonnull sg).
Local Notation d := (a_dim A).
Let Hd : d < 63.
Proof. rewrite (declared_dim _ _ D). exact Hl. Qed.
Let s := d - n.
Let Hn : n <= d := std_nn A n HS.
Let Hs : d = n + s.
Proof. unfold s. lia. Qed.
Let Hh : half n <= 32.
Proof. unfold half. apply Nat.div_le_upper_bound; lia. Qed.

(** The matrices of a coefficient function of the complexified algebra. *)
Definition frep (c : N -> C) (w : N) : N -> N -> C := cl (half n) (phi ipw idx_mask (pad n (blk_of n c w))).
Definition repr_of (r : fftrepr F) (c : N -> C) : Prop := arep (half n) s r (frep c).

Lemma pop_ri : popcount (N.lor (a_real A) (a_imag A)) = n.
Proof. rewrite (std_ri A n HS). apply popcount_ones. Qed.
Lemma pop_p : popcount (a_proj A) = s.
Proof. unfold s. apply (std_pp A n HS). Qed.
Lemma shl_side : shl 1 ((popcount (N.lor (a_real A) (a_imag A)) + 1) / 2) = Ok (pow2 (half n)).
Proof. rewrite pop_ri. fold (half n). apply shl_1. lia. Qed.
Lemma shl_wcount : shl 1 (popcount (a_proj A)) = Ok (pow2 s).
Proof. rewrite pop_p. apply shl_1. lia. Qed.

Lemma zeros_wrep : wrep (half n) s (repeat (m_zeros (2 ^ half n) (2 ^ half n)) (2 ^ s)) (fun _ _ _ => (r0 : C)).
Proof.
  split; [apply repeat_length|]. intros w Hw. rewrite (nth_indep _ _ (m_zeros (2 ^ half n) (2 ^ half n))) by (rewrite repeat_length; auto).
  rewrite nth_repeat. apply mis_zeros.
Qed.

Section Fft.
Context {T : Type} {RT : RingOps T} {LT : RingLaws T} {IC : IntoCplx T F} {FC : FromCplx T F} {CV : ConvLaws T F}.

Lemma fft_ok (x : arr T) : arr_wf d x -> exists r, mv_fft A x = Ok r /\ repr_of r (cfun A (arr_coef x)).
Proof.
  intros Hx. unfold mv_fft. rewrite shl_side. cbn [bind]. rewrite shl_wcount. cbn [bind]. cbv zeta.
  destruct (complexify_ok (F := F) (IC := IC) (St := ArrStorage) (SL := ArrLaws) (St' := ArrStorage) (SL' := ArrLaws) A n HS x Hx) as (c & -> & Hc & Ec); [cbn; lia|]. cbn [bind]. cbn [st_coef ArrLaws] in Ec.
  cbn [a3_zeros t_mats t_nr t_nc]. rewrite (std_ri A n HS), ones_add1, !pow2_nat.
  destruct Hc as (_ & _ & Hlen). rewrite Hs in Hlen.
  destruct (foldM_seq (fun i l => length l = 2 ^ s /\ forall w, w < 2 ^ s -> if Nat.ltb w i then mrep (half n) (nth w l (m_zeros 0 0)) (frep (cfun A (arr_coef x)) (N.of_nat w)) else square_mat (2 ^ half n) (nth w l (m_zeros 0 0)))
    (fun l i => v <- slice (arr_data c) (i * 2 ^ n) ((i + 1) * 2 ^ n) ;; dest <- nthr l i ;; m <- unwrap (clifft_into v dest) ;; updr l i m) (2 ^ s) (repeat (m_zeros (2 ^ half n) (2 ^ half n)) (2 ^ s))) as (l & -> & El & Hl').
  - split; [apply repeat_length|]. intros w Hw. cbn [Nat.ltb Nat.leb]. destruct zeros_wrep as (_ & HZ). destruct (HZ w Hw) as (Z1 & Z2 & Z3 & _). repeat split; auto.
  - intros i l Hi (Ll & Hw). destruct (slice_block n s (arr_data c) i Hlen Hi) as (v & -> & Lv & Hv). cbn [bind].
    rewrite (nthr_nth l i (m_zeros 0 0)) by lia. cbn [bind]. assert (Hsq := Hw i Hi). rewrite Nat.ltb_irrefl in Hsq.
    rewrite (clifft_into_ok n v _ Lv Hsq). destruct (clifft_ok (F := F) n v Lv) as (M & -> & HM). cbn [unwrap bind].
    unfold updr. rewrite Ll. destruct (Nat.ltb_spec i (2 ^ s)); [|lia]. eexists. split; [reflexivity|]. split; [rewrite length_upd; auto|].
    intros w Hww. rewrite nth_upd, Ll. destruct (Nat.ltb_spec i (2 ^ s)); [|lia]. rewrite Bool.andb_true_r. destruct (Nat.eqb_spec i w) as [<-|Hne].
    + destruct (Nat.ltb_spec i (Datatypes.S i)); [|lia]. eapply mrep_ext; [exact HM|]. unfold tr, frep. apply cl_ext. intros j Hj. unfold tfun, phi. f_equal.
      cbn [into_complex CplxInto]. rewrite Hv. unfold pad, blk_of. destruct (N.ltb_spec j (pow2 n)); auto. change (lc (arr_data c)) with (arr_coef c). apply Ec.
      rewrite Hs. apply block_lt; auto. apply of_nat_lt; auto.
    + specialize (Hw w Hww). destruct (Nat.ltb_spec w i), (Nat.ltb_spec w (Datatypes.S i)); auto; lia.
  - cbn [bind]. eexists. split; [reflexivity|]. split; [reflexivity|]. split; [reflexivity|]. split; [exact El|]. intros w Hw. cbn [t_mats]. specialize (Hl' w Hw). destruct (Nat.ltb_spec w (2 ^ s)); [exact Hl'|lia].
Qed.
End Fft.

Section Ifft.
Context {CF : CommLaws F} {FL : FieldLaws F} {FRl : FormallyReal F}.
Context {T : Type} {RT : RingOps T} {LT : RingLaws T} {IC : IntoCplx T F} {FC : FromCplx T F} {CV : ConvLaws T F}.

(** The coefficients which [ifft] reads from matrices. *)
Definition icoef (X : N -> N -> N -> C) (k : N) : C := phi ipn idx_mask (icl (half n) (X (k / pow2 n)%N)) (k mod pow2 n)%N.

Lemma icoef_block X w i : (i < pow2 n)%N -> icoef X (pow2 n * w + i)%N = phi ipn idx_mask (icl (half n) (X w)) i.
Proof.
  intros Hi. unfold icoef. pose proof (pow2_pos n). rewrite (N.add_comm (_ * w)), (N.mul_comm (pow2 n)), N.mod_add, N.mod_small, N.div_add, N.div_small by lia. reflexivity.
Qed.

Lemma ifft_ok r X : arep (half n) s r X -> exists z : arr T, fr_ifft A r = Ok z /\ arr_wf d z /\
  forall k, (k < pow2 d)%N -> arr_coef z k = from_complex (phi ipw (a_imag A) (icoef X) k).
Proof.
  intros (R1 & R2 & R3). pose proof (compl_std A n HS) as HC. set (CA := Complexification A) in *.
  assert (Hcd : a_dim CA = d) by reflexivity.
  assert (HE : alg_std (Even CA) (2 * half n) /\ a_dim (Even CA) = 2 * half n + s).
  { destruct (half_cases n) as [(E & H)|(E & H)]; rewrite H.
    - split; [apply even_std_even; auto|]. destruct (even_eq CA n HC E) as (-> & _). lia.
    - split; [apply even_std_odd; auto; lia|]. rewrite (even_dim CA n HC E); lia. }
  destruct HE as (HE & Ed). assert (H2 : 2 * half n <= S n) by (destruct (half_cases n); lia).
  unfold fr_ifft. change (Complexification A) with CA. destruct (zero_ok (T := C) (St := ArrStorage) (SL := ArrLaws) (Even CA)) as (rc & -> & (_ & Drc & Lrc) & Hrc); [cbn [st_dim_ok ArrLaws]; lia|]. cbn [bind].
  change (a_real_dim (Even CA) + a_imag_dim (Even CA)) with (base_non_null_dim (Even CA)). rewrite (std_base _ _ HE), shl_1 by lia. cbn [bind]. cbv zeta. rewrite pow2_nat.
  rewrite Ed in Lrc, Drc.
  destruct (foldM_ind (fun i l => length l = 2 ^ (2 * half n + s) /\ forall w k, (w < N.of_nat i)%N -> (k < pow2 (2 * half n))%N -> lc l (pow2 (2 * half n) * w + k) = phi ipn idx_mask (icl (half n) (X w)) k)
    (fun d im => v <- slice d (N.to_nat (fst im) * 2 ^ (2 * half n)) ((N.to_nat (fst im) + 1) * 2 ^ (2 * half n)) ;; v <- unwrap (iclifft_into (snd im) v) ;;
      Ok (unslice d (N.to_nat (fst im) * 2 ^ (2 * half n)) ((N.to_nat (fst im) + 1) * 2 ^ (2 * half n)) v)) (0%N, m_zeros 0 0) (enumerate (t_mats r)) (arr_data rc)) as (l & -> & Ll & Hlw).
  - split; [exact Lrc|]. intros; lia.
  - intros i l Hi (Ll & Hw). rewrite length_enumerate in Hi. destruct R3 as (R3 & R4). assert (Hi2 : i < 2 ^ s) by lia.
    rewrite (nth_enumerate _ _ (m_zeros 0 0)) by auto. cbn [fst snd]. rewrite Nat2N.id.
    destruct (slice_block _ s l i Ll Hi2) as (v & -> & Lv & _). cbn [bind].
    destruct (iclifft_into_ok _ _ _ v (R4 i Hi2) Lv) as (v' & -> & Lv' & Hv'). cbn [unwrap bind].
    eexists. split; [reflexivity|]. destruct (unslice_block _ s l v' i Ll Lv' Hi2) as (U1 & U2). split; [exact U1|].
    intros w k Hwi Hk. assert ((w < pow2 s)%N) by (pose proof (of_nat_lt _ _ Hi2); lia). rewrite U2 by auto. destruct (N.eqb_spec w (N.of_nat i)) as [->|Hne]; [apply Hv'; auto|].
    apply Hw; auto; lia.
  - cbn [bind]. rewrite length_enumerate in Hlw. rewrite (proj1 R3), of_nat_pow2 in Hlw.
    assert (HO : exists o, into_original CA (mkArr (arr_dim rc) l) = Ok o /\ arr_wf d o /\ forall k, (k < pow2 d)%N -> arr_coef o k = icoef X k).
    { destruct (half_cases n) as [(E & H)|(E & H)].
      - rewrite (into_original_even CA n HC _ E). eexists. split; [reflexivity|]. split.
        + unfold arr_wf. cbn [arr_dim arr_data]. repeat split; try lia. rewrite Ll. f_equal. lia.
        + intros k Hk. rewrite Hs in Hk. apply block_split in Hk as (w & i & -> & Hw & Hi). rewrite icoef_block by auto.
          change (arr_coef _) with (lc l). rewrite H in Hlw. apply Hlw; auto.
      - destruct (into_original_odd (St := ArrStorage) (SL := ArrLaws) CA n HC (mkArr (arr_dim rc) l) E) as (o & -> & Ho & Hc); [lia| |cbn; lia|].
        + cbn [st_wf ArrLaws]. unfold arr_wf. cbn [arr_dim arr_data]. repeat split; try lia. rewrite Ll. f_equal. lia.
        + eexists. split; [reflexivity|]. split; [exact Ho|]. intros k Hk. specialize (Hc k Hk). cbn [st_coef ArrLaws] in Hc. rewrite Hc. clear Hc.
          rewrite Hs in Hk. apply block_split in Hk as (w & i & -> & Hw & Hi). rewrite icoef_block, insb_block by auto.
          change (arr_coef _) with (lc l). rewrite H in Hlw. apply Hlw; auto. rewrite pow2_S. lia. }
    destruct HO as (o & -> & Ho & Hc). cbn [bind].
    destruct (decomplexify_ok (F := F) (FC := FC) (St := ArrStorage) (SL := ArrLaws) (St' := ArrStorage) (SL' := ArrLaws) A n HS o Ho) as (z & -> & Hz & Ez); [cbn; lia|].
    exists z. split; auto. split; [exact Hz|]. intros k Hk. cbn [st_coef ArrLaws] in Ez. rewrite Ez by auto. f_equal. unfold phi. f_equal. apply Hc; auto.
Qed.

Lemma icoef_frep c k : (k < pow2 d)%N -> icoef (frep c) k = c k.
Proof.
  intros Hk. rewrite Hs in Hk. apply block_split in Hk as (w & i & -> & Hw & Hi). rewrite icoef_block by auto. unfold frep.
  destruct (has_half cplx_two) as (H1 & H2). assert (Hi2 : (i < pow2 (2 * half n))%N) by (eapply N.lt_le_trans; [exact Hi|]; apply pow2_le; apply half_le).
  unfold phi at 1. rewrite (icl_cl _ H1 H2) by auto. fold (phi ipn idx_mask (phi ipw idx_mask (pad n (blk_of n c w))) i).
  rewrite phi_inv by apply ipw_ipn. unfold pad. apply N.ltb_lt in Hi. rewrite Hi. reflexivity.
Qed.
Lemma ifft_repr r c : repr_of r c -> exists z : arr T, fr_ifft A r = Ok z /\ arr_wf d z /\
  forall k, (k < pow2 d)%N -> arr_coef z k = from_complex (phi ipw (a_imag A) c k).
Proof.
  intros H. destruct (ifft_ok r _ H) as (z & E & Hz & Hc). exists z. split; auto. split; auto. intros k Hk. rewrite Hc by auto.
  f_equal. unfold phi. f_equal. apply icoef_frep; auto.
Qed.
End Ifft.
End FR.
