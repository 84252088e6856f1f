(** The matrix transforms succeed whatever the coefficients. *)
From Verif Require Export Spec_TProg Spec_Exp P_Total P_F64 P_FFTRepr2 P_HalfSpin P_TProg.
Local Open Scope nat_scope.

Section Shapes.
Context {T : Type} {RO : RingOps T}.
Local Notation mx := (N -> N -> T).

Definition wsh (m s : nat) (l : list (mat T)) : Prop := exists X, wrep m s l X.
Definition ash (m s : nat) (a : arr3 T) : Prop := exists X, arep m s a X.

Lemma sq_mrep m (M : mat T) : square_mat (2 ^ m) M -> exists X, mrep m M X.
Proof.
  intros (R & C & K). exists (fun i j => m_at M (N.to_nat i) (N.to_nat j)). split; [exact R|]. split; [exact C|]. split; [exact K|].
  intros i j Hi Hj. unfold nn. rewrite !Nat2N.id. reflexivity.
Qed.
Lemma mrep_sq m (M : mat T) X : mrep m M X -> square_mat (2 ^ m) M.
Proof. intros (R & C & K & _). split; [exact R|]. split; [exact C|exact K]. Qed.
Lemma wsh_iff m s l : wsh m s l <-> length l = 2 ^ s /\ forall w, w < 2 ^ s -> square_mat (2 ^ m) (nth w l (m_zeros 0 0)).
Proof.
  split.
  - intros (X & H1 & H2). split; auto. intros w Hw. eapply mrep_sq. eauto.
  - intros (H1 & H2). exists (fun w i j => m_at (nth (N.to_nat w) l (m_zeros 0 0)) (N.to_nat i) (N.to_nat j)). split; auto.
    intros w Hw. destruct (H2 w Hw) as (R & C & K). split; [exact R|]. split; [exact C|]. split; [exact K|]. intros i j Hi Hj. unfold nn. rewrite !Nat2N.id. reflexivity.
Qed.
Lemma ash_iff m s a : ash m s a <-> t_nr a = 2 ^ m /\ t_nc a = 2 ^ m /\ wsh m s (t_mats a).
Proof. unfold ash, wsh, arep. firstorder. Qed.

Lemma wsh_map m s l (f : N -> mat T -> mat T) : (forall w M, square_mat (2 ^ m) M -> square_mat (2 ^ m) (f w M)) -> wsh m s l ->
  wsh m s (map (fun km => f (fst km) (snd km)) (enumerate l)).
Proof.
  intros Hf (X & H1 & H2). apply wsh_iff. split; [rewrite map_length, length_enumerate; auto|]. intros w Hw.
  rewrite (nth_indep _ _ ((fun km => f (fst km) (snd km)) (N0, m_zeros 0 0))) by (rewrite map_length, length_enumerate; lia).
  rewrite (map_nth (fun km => f (fst km) (snd km))), nth_enumerate by lia. cbn [fst snd]. apply Hf. eapply mrep_sq. eauto.
Qed.
Lemma sq_build m (f : nat -> nat -> T) : square_mat (2 ^ m) (m_build (2 ^ m) (2 ^ m) f).
Proof. destruct (mis_build (2 ^ m) (2 ^ m) f) as (R & C & K & _). split; [exact R|]. split; [exact C|exact K]. Qed.
Lemma sq_map m f (M : mat T) : square_mat (2 ^ m) M -> square_mat (2 ^ m) (m_map f M).
Proof. intros H. destruct (sq_mrep m M H) as (X & HX). destruct (mis_map _ _ _ _ f HX) as (R & C & K & _). split; [exact R|]. split; [exact C|exact K]. Qed.
Lemma w_alpha m s l : wsh m s l -> wsh m s (a3_alpha l).
Proof.
  intros H. unfold a3_alpha. refine (wsh_map m s l (fun k M => m_build (m_nr M) (m_nc M) (fun i j =>
    if Nat.odd (popcount k + popcount (N.lxor (N.of_nat i) (N.of_nat j))) then rneg (m_at M i j) else m_at M i j)) _ H).
  intros w M (R & C & K). rewrite R, C. apply sq_build.
Qed.

Lemma w_mul_impl m s : forall fuel a b dest, s < fuel -> wsh m s a -> wsh m s b -> wsh m s dest ->
  exists a' d, wmul_impl fuel a b dest = Ok (a', d) /\ wsh m s a' /\ wsh m s d.
Proof.
  induction s as [|s IH]; intros [|fuel] a b dest Hf (X & Ha) (Y & Hb) (Z & Hd); try lia; cbn [wmul_impl]; assert (El : length a = 2 ^ _) by apply Ha; rewrite El.
  - cbn [Nat.pow Nat.eqb].
    destruct (wrep_nthr _ _ _ _ 0 Ha ltac:(cbn; lia)) as (a0 & -> & Ha0). destruct (wrep_nthr _ _ _ _ 0 Hb ltac:(cbn; lia)) as (b0 & -> & Hb0). destruct (wrep_nthr _ _ _ _ 0 Hd ltac:(cbn; lia)) as (d0 & -> & Hd0).
    cbn [bind]. destruct (mrep_dotf _ _ _ _ _ Ha0 Hb0) as (P & -> & HP). cbn [bind]. unfold m_assign. destruct Hd0 as (R & C & _). pose proof HP as (R' & C' & _). rewrite R, C, R', C', !Nat.eqb_refl. cbn [andb bind].
    destruct (wrep_upd0 m dest Z P (fun _ => mmulf m (X 0%N) (Y 0%N)) Hd HP) as (-> & HH). cbn [bind]. eexists _, _. split; [reflexivity|]. split; eexists; eauto.
  - destruct (Nat.eqb_spec (2 ^ S s) 1) as [E|_]; [pose proof (P_CliFFT.pow_pos s); cbn in E; lia|]. rewrite half_pow.
    destruct (wrep_split _ _ _ _ Ha) as (a0 & a1 & -> & Ha0 & Ha1). destruct (wrep_split _ _ _ _ Hb) as (b0 & b1 & -> & Hb0 & Hb1). destruct (wrep_split _ _ _ _ Hd) as (d0 & d1 & -> & Hd0 & Hd1). cbn [bind].
    assert (I0 : forall l X, wrep m s l X -> wsh m s l) by (intros; eexists; eauto).
    destruct (IH fuel a1 b0 d1 ltac:(lia)) as (a1' & top & -> & Ha1' & (XT & Htop)); eauto. cbn [bind].
    destruct (IH fuel (a3_alpha a0) b1 d0 ltac:(lia)) as (a0' & tmp & -> & Ha0' & (XM & Htmp)); eauto using w_alpha. cbn [bind].
    destruct (a3_add_into_ok _ _ _ _ _ _ Htop Htmp) as (top' & -> & Htop'). cbn [bind].
    destruct (IH fuel (a3_alpha a0') b0 tmp ltac:(lia)) as (a0'' & bot & -> & Ha0'' & Hbot); eauto using w_alpha. cbn [bind].
    eexists _, _. split; [reflexivity|].
    assert (AP : forall l l', wsh m s l -> wsh m s l' -> wsh m (S s) (l ++ l')).
    { intros l l' (U & H1 & H2) (V & H3 & H4). apply wsh_iff. split; [rewrite app_length; cbn; lia|]. intros w Hw. cbn in Hw. destruct (Nat.lt_ge_cases w (2 ^ s)).
      - rewrite app_nth1 by lia. eapply mrep_sq. eauto.
      - rewrite app_nth2 by lia. eapply mrep_sq. apply H4. lia. }
    split; apply AP; eauto.
Qed.
Lemma w_mul m s a b : ash m s a -> ash m s b -> exists p, wmul a b = Ok p /\ ash m s p.
Proof.
  intros (X & R & C & Ha) (Y & R' & C' & Hb). unfold wmul. assert (El : length (t_mats a) = 2 ^ s) by apply Ha. rewrite El.
  destruct (Nat.eqb_spec (2 ^ s) 1) as [E|E].
  - assert (s = 0) as -> by (destruct s; auto; pose proof (P_CliFFT.pow_pos s); cbn in E; lia).
    destruct (wrep_nthr _ _ _ _ 0 Ha ltac:(cbn; lia)) as (a0 & -> & Ha0). destruct (wrep_nthr _ _ _ _ 0 Hb ltac:(cbn; lia)) as (b0 & -> & Hb0).
    cbn [bind]. destruct (mrep_dotf _ _ _ _ _ Ha0 Hb0) as (P & -> & HP). cbn [bind]. pose proof HP as (RP & CP & _). rewrite RP, CP, R, C, Nat.eqb_refl.
    eexists. split; [reflexivity|]. eexists (fun _ => mmulf m (X 0%N) (Y 0%N)). split; [reflexivity|]. split; [reflexivity|]. split; [reflexivity|]. cbn [t_mats]. intros w Hw. cbn in Hw. destruct w; [|lia]. cbn [nth].
    replace (mkMat (2 ^ m) (2 ^ m) (m_data P)) with P by (destruct P as [? ? ?]; cbn in *; congruence). exact HP.
  - destruct (w_mul_impl m s (S (2 ^ s)) (t_mats a) (t_mats b) (t_mats (a3_zeros (2 ^ s) (t_nr a) (t_nc a)))) as (a' & d & -> & _ & Hd); try (eexists; eassumption).
    + pose proof (Nat.pow_gt_lin_r 2 s). lia.
    + rewrite R, C. destruct (arep_zeros (T := T) m s) as (_ & _ & Z). eexists. exact Z.
    + cbn [bind]. eexists. split; [reflexivity|]. apply ash_iff. auto.
Qed.
Lemma w_zip m s f a b : ash m s a -> ash m s b -> exists p, a3_zip f a b = Ok p /\ ash m s p.
Proof. intros (X & Ha) (Y & Hb). destruct (a3_zip_ok m s f a b X Y Ha Hb) as (z & E & Hz). exists z. split; auto. eexists. eauto. Qed.
Lemma w_map m s f a : ash m s a -> ash m s (a3_map f a).
Proof. intros (X & Ha). eexists. apply a3_map_ok. eauto. Qed.
End Shapes.

(** The transforms of arrays. *)
Section Arrays.
Context {T F : Type} {RT : RingOps T} {RF : RingOps F} {IC : IntoCplx T F} {DV : DivOps F} {md : Mode}.

Lemma w_prepare n (l : list T) : length l = 2 ^ n -> exists arr : list (cplx F), clifft_prepare l = Ok arr /\ length arr = 2 ^ (2 * half n).
Proof.
  intros Hl. unfold clifft_prepare. rewrite Hl, cl_dim_pow. cbn [bind]. rewrite half_even. set (N := 2 * half n).
  assert (HN : 2 ^ n <= 2 ^ N) by (apply Nat.pow_le_mono_r; [lia|apply half_le]).
  match goal with |- context [foldM ?f ?e ?s] => destruct (foldM_total (fun arr : list (cplx F) => length arr = 2 ^ N) f e s) as (arr & -> & Ha) end.
  - intros arr [i c] Ha Hi. apply (in_enumerate _ _ _ r0) in Hi as (Hi & _). cbn [fst snd].
    rewrite (nthr_nth _ _ r0) by (cbn [i_powers length]; apply Nat.mod_upper_bound; lia). cbn [bind].
    unfold updr. rewrite Ha. destruct (Nat.ltb_spec (N.to_nat i) (2 ^ N)); [|lia]. eexists. split; [reflexivity|]. rewrite length_upd. auto.
  - apply repeat_length.
  - eauto.
Qed.
Lemma w_clifft n (l : list T) : length l = 2 ^ n -> exists M : mat (cplx F), clifft l = Ok M /\ square_mat (2 ^ half n) M.
Proof.
  intros Hl. destruct (w_prepare n l Hl) as (arr & E & Ha). unfold clifft. rewrite E. cbn [bind].
  destruct (clifft_nn_ok (half n) arr Ha) as (M & -> & HM). exists M. split; auto. eapply mrep_sq. eauto.
Qed.
Lemma w_clifft_into n (l : list T) dest : length l = 2 ^ n -> square_mat (2 ^ half n) dest -> clifft_into l dest = (clifft l : res (mat (cplx F))).
Proof.
  intros Hl (H1 & H2 & H3). destruct (w_prepare n l Hl) as (arr & E & Ha). unfold clifft_into, clifft. rewrite E. cbn [bind].
  destruct (clifft_nn_ok (half n) arr Ha) as (M & -> & HM).
  destruct (clifft_nn_into_ok (half n) (S (length arr)) arr dest (m_at dest)) as (M' & -> & HM'); auto.
  - rewrite Ha. pose proof (Nat.pow_gt_lin_r 2 (2 * half n)). lia.
  - repeat split; auto.
  - f_equal. eapply mrep_eq; eauto.
Qed.
End Arrays.

Section FR.
Context {F : Type} {RF : RingOps F} {WF : NumLaws F} {DV : DivOps F} {md : Mode}.
Local Notation C := (cplx F).
Variables (sg : list tok) (A : algebra).
Hypothesis D : declared sg A.
Hypothesis Hl : length sg < 63.
Let HS := declared_nn sg A D.
Local Notation n := (nonnull sg).
Local Notation d := (a_dim A).
Let Hd : d < 63.
Proof. rewrite (declared_dim _ _ D). exact Hl. Qed.
Let s := d - n.
Let Hn : n <= d := std_nn A n HS.
Let Hs : d = n + s.
Proof. unfold s. lia. Qed.
Let Hh : half n <= 32.
Proof. unfold half. apply Nat.div_le_upper_bound; lia. Qed.
Local Instance WC : NumLaws C := cplx_num WF.

Lemma shape_iff r : repr_shape sg r <-> ash (half n) s r.
Proof.
  unfold repr_shape, fr_shape, mats_of, side_of. fold (half n). rewrite <- (declared_dim _ _ D). fold s. split.
  - intros (K & E). apply (a3_ok_arep (half n) s r K E).
  - intros (X & HX). apply (arep_ok _ _ _ _ HX).
Qed.

Section Conv.
Context {T : Type} {RT : RingOps T} {WT : NumLaws T} {IC : IntoCplx T F} {FC : FromCplx T F}.

Lemma w_fft (x : arr T) : arr_wf d x -> exists r, mv_fft (F := F) A x = Ok r /\ ash (half n) s r.
Proof.
  intros Hx. unfold mv_fft. rewrite (shl_side sg A D Hl). cbn [bind]. rewrite (shl_wcount sg A D Hl). cbn [bind]. cbv zeta.
  assert (HC : exists c : arr C, complexify A x = Ok c /\ arr_wf d c).
  { unfold complexify, complexified_iter.
    rewrite (mapM_Ok _ (fun ic => (fst ic, rmul (ipn (popcount (N.land (fst ic) (a_imag A)))) (into_complex (snd ic))))).
    - cbn [bind]. destruct (from_indexed_ok (T := C) (St := ArrStorage) (SL := ArrLaws) (Complexification A) (std_ok _ _ (compl_std A n HS))
        ltac:(cbn; lia) (map (fun ic => (fst ic, rmul (ipn (popcount (N.land (fst ic) (a_imag A)))) (into_complex (snd ic)))) (mv_coeff_enumerate x))) as (c & -> & Hc & _).
      + intros i c Hi. apply in_map_iff in Hi. destruct Hi as ([j b] & E & Hi). injection E as <- _. apply (enum_lt (St := ArrStorage) (SL := ArrLaws) A x (j, b) Hx Hi).
      + exists c. cbn [unwrap]. auto.
    - intros [i c] _. cbn [fst snd]. rewrite (nthr_nth _ _ r0) by (cbn [i_neg_powers length]; apply Nat.mod_upper_bound; lia). reflexivity. }
  destruct HC as (c & -> & Hc). cbn [bind].
  cbn [a3_zeros t_mats t_nr t_nc]. rewrite (std_ri A n HS), ones_add1, !pow2_nat.
  destruct Hc as (_ & _ & Hlen). rewrite Hs in Hlen. change (d - n) with s.
  destruct (foldM_total (fun l : list (mat C) => wsh (half n) s l)
    (fun l i => v <- slice (arr_data c) (i * 2 ^ n) ((i + 1) * 2 ^ n) ;; dest <- nthr l i ;; m <- unwrap (clifft_into v dest) ;; updr l i m) (seq 0 (2 ^ s)) (repeat (m_zeros (2 ^ half n) (2 ^ half n)) (2 ^ s))) as (l & -> & HW).
  - intros l i HW Hi. apply in_seq in Hi. assert (Hi2 : i < 2 ^ s) by lia. destruct (slice_block n s (arr_data c) i Hlen Hi2) as (v & -> & Lv & Hv). cbn [bind].
    apply wsh_iff in HW as (Ll & HW). rewrite (nthr_nth l i (m_zeros 0 0)) by lia. cbn [bind].
    rewrite (w_clifft_into n v _ Lv (HW i Hi2)). destruct (w_clifft (F := F) n v Lv) as (M & -> & HM). cbn [unwrap bind].
    unfold updr. rewrite Ll. destruct (Nat.ltb_spec i (2 ^ s)); [|lia]. eexists. split; [reflexivity|]. apply wsh_iff. split; [rewrite length_upd; auto|].
    intros w Hww. rewrite nth_upd, Ll. destruct (Nat.ltb_spec i (2 ^ s)); [|lia]. rewrite Bool.andb_true_r. destruct (Nat.eqb_spec i w); auto.
  - destruct (arep_zeros (T := C) (half n) s) as (_ & _ & Z). eexists. exact Z.
  - cbn [bind]. eexists. split; [reflexivity|]. apply ash_iff. auto.
Qed.

Lemma w_decomplexify (o : arr C) : arr_wf d o -> exists z : arr T, decomplexify A o = Ok z /\ arr_wf d z.
Proof.
  intros Ho. unfold decomplexify.
  rewrite (mapM_Ok _ (fun ic => (fst ic, from_complex (rmul (ipw (popcount (N.land (fst ic) (a_imag A)))) (snd ic))))).
  - cbn [bind]. destruct (from_indexed_ok (T := T) (St := ArrStorage) (SL := ArrLaws) A (std_ok _ _ HS)
      ltac:(cbn; lia) (map (fun ic => (fst ic, from_complex (rmul (ipw (popcount (N.land (fst ic) (a_imag A)))) (snd ic)))) (mv_coeff_enumerate o))) as (z & -> & Hz & _).
    + intros i c Hi. apply in_map_iff in Hi. destruct Hi as ([j b] & E & Hi). injection E as <- _. apply (enum_lt (St := ArrStorage) (SL := ArrLaws) A o (j, b) Ho Hi).
    + exists z. cbn [unwrap]. auto.
  - intros [i c] _. cbn [fst snd]. rewrite (nthr_nth _ _ r0) by (cbn [i_powers length]; apply Nat.mod_upper_bound; lia). reflexivity.
Qed.
Lemma w_ifft r : ash (half n) s r -> exists z : arr T, fr_ifft A r = Ok z /\ arr_wf d z.
Proof.
  intros (X & R1 & R2 & R3). pose proof (compl_std A n HS) as HC. set (CA := Complexification A) in *.
  assert (HE : alg_std (Even CA) (2 * half n) /\ a_dim (Even CA) = 2 * half n + s).
  { destruct (half_cases n) as [(E & H)|(E & H)]; rewrite H.
    - split; [apply even_std_even; auto|]. destruct (even_eq CA n HC E) as (-> & _). change (a_dim CA) with d. lia.
    - assert (a_dim CA < 63) by (change (a_dim CA) with d; lia). split; [apply even_std_odd; auto; lia|]. rewrite (even_dim CA n HC E); change (a_dim CA) with d; lia. }
  destruct HE as (HE & Ed). assert (H2 : 2 * half n <= S n) by (destruct (half_cases n); lia).
  unfold fr_ifft. change (Complexification A) with CA. destruct (zero_ok (T := C) (St := ArrStorage) (SL := ArrLaws) (Even CA)) as (rc & -> & (_ & Drc & Lrc) & Hrc); [cbn [st_dim_ok ArrLaws]; lia|]. cbn [bind].
  change (a_real_dim (Even CA) + a_imag_dim (Even CA)) with (base_non_null_dim (Even CA)). rewrite (std_base _ _ HE), shl_1 by lia. cbn [bind]. cbv zeta. rewrite pow2_nat.
  rewrite Ed in Lrc, Drc.
  destruct (foldM_total (fun l : list C => length l = 2 ^ (2 * half n + s))
    (fun d im => v <- slice d (N.to_nat (fst im) * 2 ^ (2 * half n)) ((N.to_nat (fst im) + 1) * 2 ^ (2 * half n)) ;; v <- unwrap (iclifft_into (snd im) v) ;;
      Ok (unslice d (N.to_nat (fst im) * 2 ^ (2 * half n)) ((N.to_nat (fst im) + 1) * 2 ^ (2 * half n)) v)) (enumerate (t_mats r)) (arr_data rc)) as (l & -> & Ll).
  - intros l [i M] Ll Hi. cbn [fst snd]. destruct R3 as (R3 & R4). apply (in_enumerate _ _ _ (m_zeros 0 0)) in Hi as (Hi & ->). rewrite R3 in Hi.
    destruct (slice_block _ s l _ Ll Hi) as (v & -> & Lv & _). cbn [bind].
    destruct (iclifft_into_ok _ _ _ v (R4 _ Hi) Lv) as (v' & -> & Lv' & _). cbn [unwrap bind].
    eexists. split; [reflexivity|]. apply (unslice_block _ s l v' _ Ll Lv' Hi).
  - exact Lrc.
  - cbn [bind].
    assert (HO : exists o, into_original CA (mkArr (arr_dim rc) l) = Ok o /\ arr_wf d o).
    { destruct (half_cases n) as [(E & H)|(E & H)].
      - rewrite (into_original_even CA n HC _ E). eexists. split; [reflexivity|].
        unfold arr_wf. cbn [arr_dim arr_data]. repeat split; try lia. rewrite Ll. f_equal. lia.
      - destruct (into_original_odd (St := ArrStorage) (SL := ArrLaws) CA n HC (mkArr (arr_dim rc) l) E) as (o & -> & Ho & Hc); [change (a_dim CA) with d; lia| |cbn; lia|].
        + cbn [st_wf ArrLaws]. unfold arr_wf. cbn [arr_dim arr_data]. change (a_dim CA) with d. repeat split; try lia. rewrite Ll. f_equal. lia.
        + eexists. split; [reflexivity|]. exact Ho. }
    destruct HO as (o & -> & Ho). cbn [bind]. apply w_decomplexify. exact Ho.
Qed.
End Conv.

(** Operations on representations. *)
Local Notation sh := (ash (half n) s).
Lemma w_one : exists z, fr_one (F := F) A = Ok z /\ sh z.
Proof. destruct (one_arep (F := F) sg A D Hl) as (z & E & Hz). exists z. split; auto. eexists. exact Hz. Qed.
Lemma w_zero : exists z, fr_zero (F := F) A = Ok z /\ sh z.
Proof. rewrite (fr_zero_eq sg A D Hl). eexists. split; [reflexivity|]. eexists. apply arep_zeros. Qed.
Lemma w_pow a k : sh a -> exists z, fr_pow A a k = Ok z /\ sh z.
Proof.
  intros Ha. unfold fr_pow.
  assert (G : forall fuel k, k < fuel -> exists z, fr_pow_fuel A fuel a k = Ok z /\ sh z); [|apply G; lia].
  clear k. induction fuel as [|fuel IH]; intros k Hk; [lia|]. cbn [fr_pow_fuel].
  destruct k as [|[|k]]; [apply w_one|exists a; auto|].
  set (j := S (S k)) in *. assert (Nat.div2 j < j) by (apply Nat.lt_div2; lia).
  destruct (IH (Nat.div2 j)) as (h & -> & Hh'); [lia|]. cbn [bind].
  destruct (w_mul _ _ h h Hh' Hh') as (hh & E & Hhh). unfold fr_mul. rewrite E. cbn [bind].
  destruct (Nat.even j); [exists hh; auto|apply w_mul; auto].
Qed.
Lemma sq_fix w (M : mat C) : square_mat (2 ^ half n) M -> square_mat (2 ^ half n) (rev_fix w M).
Proof.
  intros H. pose proof H as (R & C' & _). unfold rev_fix. rewrite R, C'. destruct (popcount w mod 4) as [|[|[|j]]]; [exact H|apply sq_build|apply sq_map; exact H|apply sq_build].
Qed.
Lemma w_rev a : sh a -> exists z, fr_rev A a = Ok z /\ sh z.
Proof.
  intros Ha. apply ash_iff in Ha as (R & C' & Ha). apply wsh_iff in Ha as (La & Ha). unfold fr_rev. rewrite (fr_zero_eq sg A D Hl). cbn [bind]. change (d - n) with s.
  destruct (foldM_total (fun l : list (mat C) => wsh (half n) s l)
    (fun l im => view <- nthr l (N.to_nat (fst im)) ;; r <- unwrap (reversal (snd im)) ;; view <- m_assign view r ;; updr l (N.to_nat (fst im)) (rev_fix (fst im) view))
    (enumerate (t_mats a)) (t_mats (a3_zeros (T := C) (2 ^ s) (2 ^ half n) (2 ^ half n)))) as (l & -> & HW).
  - intros l [i M] HW Hi. cbn [fst snd]. apply (in_enumerate _ _ _ (m_zeros 0 0)) in Hi as (Hi & ->). rewrite La in Hi. set (k := N.to_nat i) in *.
    apply wsh_iff in HW as (Ll & HW). rewrite (nthr_nth l k (m_zeros 0 0)) by lia. cbn [bind].
    destruct (sq_mrep _ _ (Ha k Hi)) as (X & HX). destruct (reversal_ok (half n) _ _ HX) as (M' & -> & HM'). cbn [unwrap bind].
    destruct (HW k Hi) as (RZ & CZ & _). unfold m_assign. pose proof HM' as (RM & CM & _). rewrite RZ, CZ, RM, CM, !Nat.eqb_refl. cbn [andb bind].
    unfold updr. rewrite Ll. destruct (Nat.ltb_spec k (2 ^ s)); [|lia]. eexists. split; [reflexivity|]. apply wsh_iff. split; [rewrite length_upd; auto|].
    intros w Hww. rewrite nth_upd, Ll. destruct (Nat.ltb_spec k (2 ^ s)); [|lia]. rewrite Bool.andb_true_r. destruct (Nat.eqb_spec k w); auto. apply sq_fix. eapply mrep_sq; eauto.
  - destruct (arep_zeros (T := C) (half n) s) as (_ & _ & Z). eexists. exact Z.
  - cbn [bind]. eexists. split; [reflexivity|]. apply ash_iff. auto.
Qed.
Lemma w_flip a : sh a -> sh (fr_flip a).
Proof. intros Ha. apply ash_iff in Ha as (R & C' & Ha). apply ash_iff. unfold fr_flip. cbn [t_nr t_nc t_mats]. split; [auto|]. split; [auto|]. apply w_alpha. auto. Qed.
Lemma w_trace a : sh a -> exists v, fr_trace a = Ok v.
Proof.
  intros (X & Ha). unfold fr_trace. assert (R : t_nr a = 2 ^ half n) by apply Ha. rewrite R.
  destruct (foldM_total (fun _ : C => True) (fun s i => c <- a3_get a 0 i i ;; Ok (radd s c)) (seq 0 (2 ^ half n)) r0) as (v & -> & _); eauto.
  intros b i _ Hi. apply in_seq in Hi. rewrite (a3_get_ok _ _ a X 0 i i Ha (P_CliFFT.pow_pos _)) by lia. cbn [bind]. eauto.
Qed.
Lemma w_ntrace a : sh a -> exists v, fr_ntrace a = Ok v.
Proof. intros Ha. unfold fr_ntrace. destruct (w_trace a Ha) as (v & ->). cbn [bind]. eauto. Qed.
Lemma w_mag2 a : sh a -> exists v, fr_mag2 A a = Ok v.
Proof.
  intros Ha. unfold fr_mag2. destruct (w_rev a Ha) as (r & -> & Hr). cbn [bind].
  destruct (w_mul _ _ r a Hr Ha) as (p & E & Hp). unfold fr_mul. rewrite E. cbn [bind]. apply w_ntrace. auto.
Qed.
End FR.

(** ** Gauss inverse *)
Section Gauss.
Context {T R : Type} {RO : RingOps T} {DV : DivOps T} {NC : NormCmp T R}.
Variable n : nat.
Definition rect (h w : nat) (M : mat T) : Prop := exists X, mis h w M X.
Lemma rect_get h w M i j : rect h w M -> i < h -> j < w -> exists v, m_get M i j = Ok v.
Proof. intros (X & H) Hi Hj. rewrite (mis_get _ _ _ _ _ _ H) by auto. eauto. Qed.
Lemma rect_set h w M i j v : rect h w M -> i < h -> j < w -> exists M', m_set M i j v = Ok M' /\ rect h w M'.
Proof. intros (X & H) Hi Hj. destruct (mis_set _ _ _ _ i j v H Hi Hj) as (M' & E & H'). exists M'. split; auto. eexists. eauto. Qed.
Lemma foldMO_total {X Y} (P : X -> Prop) (f : X -> Y -> res (option X)) l st :
  (forall st y, P st -> In y l -> exists o, f st y = Ok o /\ forall st', o = Some st' -> P st') -> P st ->
  exists o, foldMO f l st = Ok o /\ forall st', o = Some st' -> P st'.
Proof.
  intros Hf H0. unfold foldMO. apply (foldM_total (fun o => forall st', o = Some st' -> P st')).
  - intros [b|] y Hb Hy; [apply Hf; auto|]. exists None. split; [reflexivity|discriminate].
  - intros st' E. injection E as <-. auto.
Qed.
Local Notation rc := (rect n (2 * n)).

Lemma w_find_pivot M i : rc M -> i < n -> exists v p, find_pivot n M i = Ok (v, p) /\ p < n.
Proof.
  intros HM Hi. unfold find_pivot. destruct (rect_get _ _ _ i i HM) as (x & ->); [lia..|]. cbn [bind].
  destruct (foldM_total (fun st : R * nat => snd st < n) (fun st j => x <- m_get M j i ;; Ok (if n_gt (nrm x) (fst st) then (nrm x, j) else st))
    (seq (i + 1) (n - (i + 1))) (nrm x, i)) as ([v p] & -> & Hp); [|auto|eauto].
  intros st j Hs Hj. apply in_seq in Hj. destruct (rect_get _ _ _ j i HM) as (y & ->); [lia..|]. cbn [bind]. eexists. split; [reflexivity|].
  destruct (n_gt _ _); cbn [snd]; auto. lia.
Qed.
Lemma w_eliminate i M j : rc M -> i < n -> j < n -> exists o, eliminate n i M j = Ok o /\ forall M', o = Some M' -> rc M'.
Proof.
  intros HM Hi Hj. unfold eliminate. destruct (rect_get _ _ _ j i HM) as (q & ->); [lia..|]. cbn [bind].
  match goal with |- context [foldMO ?f ?l M] => destruct (foldMO_total (fun M => rc M) f l M) as (o & -> & Ho) end; auto.
  - intros w m Hw Hm. apply in_seq in Hm. destruct (rect_get _ _ _ j m Hw) as (a & ->); [lia..|]. destruct (rect_get _ _ _ i m Hw) as (b & ->); [lia..|]. cbn [bind].
    destruct (rect_set _ _ _ j m (rsub a (rmul q b)) Hw) as (w' & -> & Hw'); [lia..|]. cbn [bind]. destruct (rect_get _ _ _ j m Hw') as (c & ->); [lia..|]. cbn [bind].
    destruct (negb _); eexists; (split; [reflexivity|]); intros ? E; [discriminate|injection E as <-; auto].
  - cbn [bind]. destruct o as [w|]; [|eexists; split; [reflexivity|discriminate]]. specialize (Ho w eq_refl).
    destruct (rect_get _ _ _ j j Ho) as (c & ->); [lia..|]. cbn [bind]. destruct (ris0 c); eexists; (split; [reflexivity|]); intros ? E; [discriminate|injection E as <-; auto].
Qed.
Lemma w_upper M i : rc M -> i < n -> exists o, upper_step n M i = Ok o /\ forall M', o = Some M' -> rc M'.
Proof.
  intros HM Hi. unfold upper_step. destruct (w_find_pivot M i HM Hi) as (v & p & -> & Hp). cbn [bind].
  destruct (n_is0 v); [eexists; split; [reflexivity|discriminate]|].
  match goal with |- context [foldM ?f (seq 0 (2 * n)) M] => destruct (foldM_total (fun M => rc M) f (seq 0 (2 * n)) M) as (M1 & -> & H1) end; auto.
  { intros w m Hw Hm. apply in_seq in Hm. unfold m_swap. destruct (rect_get _ _ _ i m Hw) as (a & ->); [lia..|]. destruct (rect_get _ _ _ p m Hw) as (b & ->); [lia..|]. cbn [bind].
    destruct (rect_set _ _ _ i m b Hw) as (w' & -> & Hw'); [lia..|]. cbn [bind]. apply rect_set; auto; lia. }
  cbn [bind]. destruct (rect_get _ _ _ i i H1) as (k & ->); [lia..|]. cbn [bind].
  match goal with |- context [foldM ?f (seq i ?c) M1] => destruct (foldM_total (fun M => rc M) f (seq i c) M1) as (M2 & -> & H2) end; auto.
  { intros w m Hw Hm. apply in_seq in Hm. destruct (rect_get _ _ _ i m Hw) as (a & ->); [lia..|]. cbn [bind]. apply rect_set; auto; lia. }
  cbn [bind]. apply foldMO_total; auto. intros w j Hw Hj. apply in_seq in Hj. apply w_eliminate; auto; lia.
Qed.
Lemma w_clear M i j : rc M -> i < n -> j < n -> exists M', clear_above n M i j = Ok M' /\ rc M'.
Proof.
  intros HM Hi Hj. unfold clear_above. destruct (rect_get _ _ _ i i HM) as (x & ->); [lia..|]. destruct (rect_get _ _ _ j i HM) as (y & ->); [lia..|]. cbn [bind]. cbv zeta.
  apply foldM_total; auto. intros w m Hw Hm. apply in_seq in Hm. destruct (rect_get _ _ _ j m Hw) as (a & ->); [lia..|]. destruct (rect_get _ _ _ i m Hw) as (b & ->); [lia..|]. cbn [bind].
  apply rect_set; auto; lia.
Qed.
Lemma w_matrix_inv M : rect n n M -> exists o, matrix_inv M = Ok o /\ forall M', o = Some M' -> rect n n M'.
Proof.
  intros (X & Hr & Hc & _). unfold matrix_inv. rewrite Hr, Hc, Nat.eqb_refl. cbn [negb]. cbv zeta.
  match goal with |- context [foldM ?f ?l ?s] => destruct (foldM_total (fun M => rc M) f l s) as (M1 & -> & H1) end.
  - intros w i Hw Hi. apply in_seq in Hi. apply rect_set; auto; lia.
  - eexists. apply mis_build.
  - cbn [bind]. destruct (foldMO_total (fun M => rc M) (upper_step n) (seq 0 n) M1) as (o & -> & Ho); auto.
    { intros w i Hw Hi. apply in_seq in Hi. apply w_upper; auto; lia. }
    cbn [bind]. destruct o as [w|]; [|eexists; split; [reflexivity|discriminate]].
    match goal with |- context [foldM ?f ?l w] => destruct (foldM_total (fun M => rc M) f l w) as (w' & -> & Y & Hw') end; auto.
    + intros b i Hb Hi. apply in_rev, in_seq in Hi. apply foldM_total; auto. intros c j Hc' Hj. apply in_rev, in_seq in Hj. apply w_clear; auto; lia.
    + cbn [bind]. eexists. split; [reflexivity|]. intros M' E. injection E as <-. eexists. apply (mis_block _ _ _ _ 0 n n n Hw'); lia.
Qed.
End Gauss.

(** ** The rest of the interface of FFTRepr *)
Section FR2.
Context {F : Type} {RF : RingOps F} {WF : NumLaws F} {DV : DivOps F} {md : Mode} {HO : HashOrder}.
Local Notation C := (cplx F).
Variables (sg : list tok) (A : algebra).
Hypothesis D : declared sg A.
Hypothesis Hl : length sg < 63.
Local Notation sh := (ash (half (nonnull sg)) (a_dim A - nonnull sg)).
Local Notation rs := (repr_shape sg).
Local Notation WC := (cplx_num WF).
Implicit Types a b : fftrepr F.

Local Notation r_ok := (fits (F := F) sg).
Lemma r_sh (r : res (fftrepr F)) : (exists z, r = Ok z /\ sh z) -> r_ok r.
Proof. intros (z & E & Hz). exists z. split; auto. apply (shape_iff sg A D). exact Hz. Qed.
Lemma to_sh a : rs a -> sh a.
Proof. apply (shape_iff sg A D). Qed.
Lemma of_sh a : sh a -> rs a.
Proof. apply (shape_iff sg A D). Qed.

Lemma ops_total a b (t : C) (u : F) k : rs a -> rs b ->
  r_ok (fr_zero A) /\ r_ok (fr_one A) /\ r_ok (fr_add a b) /\ r_ok (fr_sub a b) /\ r_ok (fr_mul a b) /\ r_ok (fr_rev A a) /\ r_ok (fr_pow A a k) /\
  rs (fr_neg a) /\ rs (fr_flip a) /\ rs (fr_scale a t) /\ rs (fr_scale_r a u) /\ rs (fr_div a t) /\ rs (fr_div_r a u) /\
  (exists v, fr_trace a = Ok v) /\ (exists v, fr_ntrace a = Ok v) /\ (exists v, fr_mag2 A a = Ok v).
Proof.
  intros Ha Hb. apply to_sh in Ha, Hb.
  split; [apply r_sh, w_zero; auto|]. split; [apply r_sh, w_one; auto|]. split; [apply r_sh, w_zip; auto|]. split; [apply r_sh, w_zip; auto|].
  split; [apply r_sh, w_mul; auto|]. split; [apply r_sh, w_rev; auto|]. split; [apply r_sh, w_pow; auto|].
  split; [apply of_sh, w_map; auto|]. split; [apply of_sh, (w_flip sg A); auto|]. do 4 (split; [apply of_sh, w_map; auto|]).
  split; [apply (w_trace sg A); auto|]. split; [apply (w_ntrace sg A); auto|]. apply (w_mag2 sg A D Hl); auto.
Qed.

Lemma inv_total {R} {NC : NormCmp C R} a : rs a -> exists o, fr_inv a = Ok o /\
  forall z, o = Some z -> a3_ok z /\ fr_shape z = (1, side_of sg, side_of sg).
Proof.
  intros Ha. apply to_sh in Ha. destruct Ha as (X & Ha). unfold fr_inv.
  destruct Ha as (_ & _ & Ha). destruct (wrep_nthr _ _ _ _ 0 Ha (P_CliFFT.pow_pos _)) as (M & -> & HM). cbn [bind].
  destruct (w_matrix_inv (2 ^ half (nonnull sg)) M) as (o & -> & Ho); [eexists; exact HM|]. cbn [bind].
  eexists. split; [reflexivity|]. intros z E. destruct o as [M'|]; [|discriminate]. injection E as <-. destruct (Ho M' eq_refl) as (Y & R1 & R2 & R3 & _).
  unfold side_of. fold (half (nonnull sg)). split.
  - unfold a3_ok. cbn [t_mats t_nr t_nc]. constructor; [auto|constructor].
  - unfold fr_shape, a3_dim. cbn [t_mats t_nr t_nc length]. rewrite R1, R2. reflexivity.
Qed.

Lemma half_spin_total a : rs a -> nonnull sg = length sg -> 0 < length sg ->
  exists E O, fr_into_half_spin_repr a = Ok (E, O) /\ square_mat (side_of sg / 2) E /\ square_mat (side_of sg / 2) O.
Proof.
  clear Hl. intros Ha En Hp. apply to_sh in Ha. destruct Ha as (X & _ & _ & Lm & Ha).
  assert (Es : a_dim A - nonnull sg = 0) by (rewrite (declared_dim _ _ D), En; lia). rewrite Es in *.
  destruct (t_mats a) as [|M [|? ?]] eqn:Em; cbn in Lm; try discriminate. specialize (Ha 0 (P_CliFFT.pow_pos _)). cbn [nth] in Ha.
  assert (Hh : exists p, half (nonnull sg) = S p).
  { exists (half (nonnull sg) - 1). unfold half. assert (1 <= (nonnull sg + 1) / 2) by (apply Nat.div_le_lower_bound; lia). lia. }
  destruct Hh as (p & Hh). unfold side_of. fold (half (nonnull sg)). rewrite Hh in *.
  destruct (half_ok p M _ a Ha Em) as (E & O & Eq & H1 & H2). exists E, O. split; auto. rewrite half_pow.
  destruct H1 as (P1 & P2 & P3 & _), H2 as (Q1 & Q2 & Q3 & _). repeat split; auto.
Qed.

(** The exponential. *)
Section Exp.
Context {EO : ExpOps F}.
Local Notation ecf := (exp_coeff (F := F)).
Lemma exp_loop_total y K : e_gt_eps (ecf K) = false -> sh y -> forall r k fuel fuel' s p, k + r = K -> r < fuel -> r < fuel' -> sh s -> sh p ->
  exists z, exp_loop fuel y (ecf k) (S k) s p = Ok z /\ exp_loop fuel' y (ecf k) (S k) s p = Ok z /\ sh z.
Proof.
  intros HK Hy. induction r as [|r IH]; intros k fuel fuel' s p Hk Hf Hf' Hs Hp; destruct fuel as [|fuel], fuel' as [|fuel']; try lia; cbn [exp_loop].
  - rewrite Nat.add_0_r in Hk. subst k. rewrite HK. exists s. auto.
  - destruct (e_gt_eps (ecf k)); [|exists s; auto]. change (rdiv (ecf k) (nat_f (S k))) with (ecf (S k)).
    destruct (w_zip _ _ radd s (fr_scale_r p (ecf (S k))) Hs (w_map _ _ _ p Hp)) as (s' & E & Hs'). unfold fr_add. rewrite E. cbn [bind].
    destruct (w_mul _ _ p y Hp Hy) as (p' & E' & Hp'). unfold fr_mul. rewrite E'. cbn [bind]. rewrite !Nat.add_1_r. apply IH; auto; lia.
Qed.
Lemma fr_exp_total a K fuel : rs a -> e_gt_eps (ecf K) = false -> K < fuel ->
  exists z, rs z /\ forall fuel', K < fuel' -> fr_exp A fuel' a = Ok z.
Proof.
  intros Ha HK Hf. apply to_sh in Ha. unfold fr_exp, exp_scale. destruct (w_one (F := F) sg A D Hl) as (o & Eo & Ho). rewrite Eo. cbn [bind].
  destruct (w_mag2 sg A D Hl a Ha) as (mg & Em). rewrite Em. cbn [bind]. set (c := e_ceil _).
  assert (Hy : sh (fr_div_r a c)) by (apply w_map; auto).
  destruct (exp_loop_total _ K HK Hy K 0 (S K) (S K) o _ eq_refl (Nat.lt_succ_diag_r K) (Nat.lt_succ_diag_r K) Ho Hy) as (r & E & _ & Hr).
  destruct (w_pow sg A D Hl r (e_usize c) Hr) as (z & Ez & Hz). exists z. split; [apply of_sh; auto|]. intros fuel' Hf'.
  destruct (exp_loop_total _ K HK Hy K 0 fuel' (S K) o _ eq_refl Hf' (Nat.lt_succ_diag_r K) Ho Hy) as (r' & E1 & E2 & _).
  assert (r' = r) as -> by congruence. change (ecf 0) with (r1 : F) in E1. rewrite E1. cbn [bind]. exact Ez.
Qed.

Context {T : Type} {RT : RingOps T} {WT : NumLaws T} {NF : NormF T F} {FF : FromF T F}.
Context {S : Type} {St : Storage T S} {SL : StorageLaws T S}.
Let AO := declared_ok sg A D.
Lemma s_add (x y : S) : valid A x -> valid A y -> succeeds A (mv_add x y).
Proof. intros Hx Hy. exact (gives_succeeds A _ _ (g_add A x y Hx Hy)). Qed.
Lemma mv_loop_total (y : S) K : e_gt_eps (ecf K) = false -> valid A y -> forall r k fuel fuel' (s p : S), k + r = K -> r < fuel -> r < fuel' -> valid A s -> valid A p ->
  exists z, mv_exp_loop A fuel y (ecf k) (Datatypes.S k) s p = Ok z /\ mv_exp_loop A fuel' y (ecf k) (Datatypes.S k) s p = Ok z /\ valid A z.
Proof.
  clear Hl. intros HK Hy. induction r as [|r IH]; intros k fuel fuel' s p Hk Hf Hf' Hs Hp; destruct fuel as [|fuel], fuel' as [|fuel']; try lia; cbn [mv_exp_loop].
  - rewrite Nat.add_0_r in Hk. subst k. rewrite HK. exists s. auto.
  - destruct (e_gt_eps (ecf k)); [|exists s; auto]. change (rdiv (ecf k) (nat_f (Datatypes.S k))) with (ecf (Datatypes.S k)).
    destruct (s_scale A p (from_f (ecf (Datatypes.S k))) Hp) as (q & E & Hq). rewrite E. cbn [bind].
    destruct (s_add s q Hs Hq) as (s' & E1 & Hs'). rewrite E1. cbn [bind].
    destruct (s_mul A AO p y Hp Hy) as (p' & E2 & Hp'). rewrite E2. cbn [bind]. rewrite !Nat.add_1_r. apply IH; auto; lia.
Qed.
Lemma mv_exp_total (x : S) K fuel : valid A x -> e_gt_eps (ecf K) = false -> K < fuel ->
  exists z, valid A z /\ forall fuel', K < fuel' -> mv_exp A fuel' x = Ok z.
Proof.
  intros Hx HK Hf. unfold mv_exp, mv_exp_scale. destruct (s_one A x Hx) as (o & Eo & Ho). rewrite Eo. cbn [bind].
  destruct (t_mag2 A AO x Hx) as (mg & Em). rewrite Em. cbn [bind]. set (c := e_ceil _). cbv zeta.
  destruct (s_scale A x (from_f (rdiv r1 c)) Hx) as (y & Ey & Hy). rewrite Ey. cbn [bind].
  destruct (mv_loop_total y K HK Hy K 0 (Datatypes.S K) (Datatypes.S K) o y eq_refl (Nat.lt_succ_diag_r K) (Nat.lt_succ_diag_r K) Ho Hy) as (r & E & _ & Hr).
  destruct (s_pow A AO r (e_usize c) Hr) as (z & Ez & Hz). exists z. split; auto. intros fuel' Hf'.
  destruct (mv_loop_total y K HK Hy K 0 fuel' (Datatypes.S K) o y eq_refl Hf' (Nat.lt_succ_diag_r K) Ho Hy) as (r' & E1 & E2 & _).
  assert (r' = r) as -> by congruence. change (ecf 0) with (r1 : F) in E1. rewrite E1. cbn [bind]. exact Ez.
Qed.
End Exp.

(** Programs. *)
Context {T : Type} {RT : RingOps T} {WT : NumLaws T} {DT : DivOps T} {CJ : ConjOps T} {IC : IntoCplx T F} {FC : FromCplx T F}.
Lemma fft_total (x : arr T) : valid A x -> r_ok (mv_fft A x).
Proof. intros Hx. apply r_sh. apply (w_fft sg A D Hl x Hx). Qed.
Lemma ifft_total a : rs a -> succeeds A (fr_ifft A a : res (arr T)).
Proof. intros Ha. destruct (w_ifft sg A D Hl (T := T) a (to_sh a Ha)) as (z & E & Hz). exists z. auto. Qed.

Definition rgood (ok : Prop) (r : res (fftrepr F)) : Prop := match r with Ok z => rs z | Err _ => ~ ok | Panic => False end.
Lemma rgood_bind {X} (ok : Prop) (r : res X) (P : X -> Prop) (f : X -> res (fftrepr F)) (ok' : Prop) : (ok -> ok') ->
  match r with Ok z => P z | Err _ => ~ ok' | Panic => False end -> (forall z, P z -> rgood ok (f z)) -> rgood ok (bind r f).
Proof. intros K G H. destruct r as [z| |]; cbn [bind]; auto. cbn. intros O. apply G, K, O. Qed.
Lemma rgood_ok ok r : r_ok r -> rgood ok r.
Proof. intros (z & -> & Hz). exact Hz. Qed.
Lemma feval_total (e : expr T) : offers KDense A e -> rgood (args_ok A e) (feval (F := F) A e).
Proof.
  assert (SC : forall e, offers KDense A e -> rgood (args_ok A e) (z <- eval KDense A e ;; mv_fft A (z : arr T))).
  { intros e' Ho. eapply (rgood_bind _ _ (valid A)); [intros K; exact K|apply (eval_total A sg D e' KDense I Ho)|]. intros z Hz. apply rgood_ok, fft_total. exact Hz. }
  assert (OT := fun a Ha b Hb t u k => ops_total a b t u k Ha Hb).
  induction e; intros Ho; try (exact (SC _ Ho)); cbn [feval args_ok offers] in *.
  - apply rgood_ok, r_sh, w_zero; auto.
  - apply rgood_ok, r_sh, w_one; auto.
  - destruct (basis_gives (T := cplx F) (W := WC) KDense sg A D I) as (b & E & Lb & Hb).
    unfold fr_basis. assert (E0 : (mv_basis A : res (list (arr C))) = Ok b) by exact E. rewrite E0. cbn [bind].
    assert (Hf : forall e, In e b -> exists Z, mv_fft (F := F) A (e : arr C) = Ok Z /\ sh Z).
    { intros e He. apply In_nth_error in He. destruct He as (i & Hi). assert (i < a_dim A) by (rewrite <- Lb; apply nth_error_Some; congruence).
      destruct (Hb i) as (e' & E' & He' & _); auto. rewrite Hi in E'. injection E' as <-. apply (w_fft (WT := WC) sg A D Hl). exact He'. }
    destruct (mapM_nth (fun e => mv_fft (F := F) A (e : arr C)) b) as (l & El & Ll & Hn); [intros e He; destruct (Hf e He) as (Z & EZ & _); eauto|].
    rewrite El. cbn [bind]. unfold nthr. destruct (nth_error b n) as [x|] eqn:Ex; [|apply nth_error_None in Ex; rewrite Lb in Ex; lia].
    destruct (Hn n x Ex) as (X & EX & ->). destruct (Hf x (nth_error_In _ _ Ex)) as (Z & EZ & HZ). assert (Z = X) as -> by congruence. apply (of_sh X). exact HZ.
  - eapply (rgood_bind _ _ rs); [intros K; exact (proj1 K)|apply IHe1; tauto|]. intros x Hx. eapply (rgood_bind _ _ rs); [intros K; exact (proj2 K)|apply IHe2; tauto|]. intros y Hy. apply rgood_ok. apply (OT x Hx y Hy r0 r0 0).
  - eapply (rgood_bind _ _ rs); [intros K; exact (proj1 K)|apply IHe1; tauto|]. intros x Hx. eapply (rgood_bind _ _ rs); [intros K; exact (proj2 K)|apply IHe2; tauto|]. intros y Hy. apply rgood_ok. apply (OT x Hx y Hy r0 r0 0).
  - eapply (rgood_bind _ _ rs); [intros K; exact K|apply IHe; tauto|]. intros x Hx. apply (OT x Hx x Hx r0 r0 0).
  - eapply (rgood_bind _ _ rs); [intros K; exact (proj1 K)|apply IHe1; tauto|]. intros x Hx. eapply (rgood_bind _ _ rs); [intros K; exact (proj2 K)|apply IHe2; tauto|]. intros y Hy. apply rgood_ok. apply (OT x Hx y Hy r0 r0 0).
  - eapply (rgood_bind _ _ rs); [intros K; exact K|apply IHe; tauto|]. intros x Hx. apply (OT x Hx x Hx (into_complex t) r0 0).
  - eapply (rgood_bind _ _ rs); [intros K; exact K|apply IHe; tauto|]. intros x Hx. apply (OT x Hx x Hx r0 r0 0).
  - eapply (rgood_bind _ _ rs); [intros K; exact K|apply IHe; tauto|]. intros x Hx. apply rgood_ok. apply (OT x Hx x Hx r0 r0 0).
  - eapply (rgood_bind _ _ rs); [intros K; exact K|apply IHe; tauto|]. intros x Hx. apply rgood_ok. apply (OT x Hx x Hx r0 r0 n).
Qed.
End FR2.

Lemma arrays_total {T F} {RT : RingOps T} {RF : RingOps F} {IC : IntoCplx T F} {DV : DivOps F} {m : Mode} :
  (forall n (l : list T), length l = 2 ^ n -> exists M : mat (cplx F), clifft l = Ok M /\ square_mat (2 ^ ((n + 1) / 2)) M) /\
  (forall l : list T, (forall n, length l <> 2 ^ n) -> clifft (F := F) l = Err InvalidShape) /\
  (forall n (M : mat (cplx F)), square_mat (2 ^ n) M -> exists l, iclifft M = Ok l /\ length l = 2 ^ (2 * n)) /\
  (forall M : mat (cplx F), m_ok M -> (forall n, ~ square_mat (2 ^ n) M) -> iclifft M = Err InvalidShape).
Proof.
  split; [intros n l Hl; exact (w_clifft n l Hl)|]. split; [intros l Hl; exact (proj1 (clifft_bad l Hl))|]. split.
  - intros n M HM. destruct (sq_mrep n M HM) as (X & HX). destruct (iclifft_ok n M X HX) as (l & E & Ll & _). eauto.
  - intros M K H. exact (iclifft_bad M H K).
Qed.
