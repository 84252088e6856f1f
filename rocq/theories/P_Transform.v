(** Properties C35-C37. *)
From Verif Require Export P_Cplx.
Local Open Scope nat_scope.

Lemma popcount_1 n : popcount (N.of_nat n) = 1 -> exists m, n = 2 ^ m.
Proof.
  intros H. assert (Hn : n <> 0) by (intros ->; discriminate).
  set (m := Nat.log2 n). pose proof (Nat.log2_spec n ltac:(lia)) as [Hlo Hhi]. fold m in Hlo, Hhi.
  exists m. assert (E : N.of_nat n = (pow2 m + N.of_nat (n - 2 ^ m))%N) by (rewrite <- of_nat_pow2; lia).
  rewrite E, popcount_add_pow2 in H.
  - injection H as H. apply popcount_eq0 in H. lia.
  - apply of_nat_lt. cbn in Hhi. lia.
Qed.

Lemma mask_bit k : k < 64 -> N.testbit idx_mask (N.of_nat k) = Nat.odd k.
Proof.
  intros H. do 64 (destruct k as [|k]; [reflexivity|]). lia.
Qed.
Lemma mask_odd m : m <= 32 -> odd_mask m idx_mask.
Proof.
  intros Hm i Hi. split.
  - rewrite mask_bit by lia. rewrite Nat.odd_mul. reflexivity.
  - rewrite mask_bit by lia. rewrite Nat.odd_succ, Nat.even_mul. reflexivity.
Qed.

Definition half (n : nat) : nat := (n + 1) / 2.
Lemma half_even n : (if Nat.odd n then S n else n) = 2 * half n.
Proof.
  unfold half. pose proof (Nat.div2_odd n) as E. destruct (Nat.odd n); cbn [Nat.b2n] in E.
  - replace (n + 1) with ((Nat.div2 n + 1) * 2) by lia. rewrite Nat.div_mul by lia. lia.
  - replace (n + 1) with (1 + Nat.div2 n * 2) by lia. rewrite Nat.div_add by lia. cbn [Nat.div Nat.divmod fst Nat.add]. change (1 / 2) with 0. lia.
Qed.
Lemma half_le n : n <= 2 * half n.
Proof. rewrite <- half_even. destruct (Nat.odd n); lia. Qed.

(** Halving in a field where 1 + 1 is not zero. *)
Section Half.
Context {T : Type} {RO : RingOps T} {L : RingLaws T} {CL : CommLaws T} {DV : DivOps T} {FL : FieldLaws T}.
Lemma has_half : radd r1 r1 <> (r0 : T) ->
  radd (rdiv r1 (radd r1 r1)) (rdiv r1 (radd r1 r1)) = (r1 : T) /\ forall x : T, rdiv x (radd r1 r1) = rmul x (rdiv r1 (radd r1 r1)).
Proof.
  intros H. split; [|intros; apply div_as_mul; auto].
  pose proof (div_mul r1 (radd r1 r1) H) as E. rewrite mul_add_r, mul_1_r in E. exact E.
Qed.
End Half.

Section Clifft.
Context {T F : Type} {RT : RingOps T} {LT : RingLaws T} {RF : RingOps F} {LF : RingLaws F}
  {IC : IntoCplx T F} {FC : FromCplx T F} {CV : ConvLaws T F} {DV : DivOps F} {md : Mode}.
Implicit Types l : list T.

Lemma lc_coefs l i : lc l i = coefs l i.
Proof. reflexivity. Qed.

Definition tfun l (i : N) : cplx F := phi ipw idx_mask (fun i => into_complex (lc l i)) i.
(** The transform of an array of length 2^n, as a function. *)
Definition tr (n : nat) l : N -> N -> cplx F := cl (half n) (tfun l).

Lemma clifft_prepare_ok n l : length l = 2 ^ n ->
  exists arr : list (cplx F), clifft_prepare l = Ok arr /\ length arr = 2 ^ (2 * half n) /\ feq (2 * half n) (lc arr) (tfun l).
Proof.
  intros Hl. unfold clifft_prepare. rewrite Hl, cl_dim_pow. cbn [bind]. rewrite half_even. set (N := 2 * half n).
  assert (HN : 2 ^ n <= 2 ^ N) by (apply Nat.pow_le_mono_r; [lia|apply half_le]).
  match goal with |- context [foldM ?f ?e ?s] =>
    destruct (foldM_inv f (fun pre (arr : list (cplx F)) => length arr = 2 ^ N /\
      forall k, k < 2 ^ N -> nth k arr r0 = if Nat.ltb k (length pre) then tfun l (BinNat.N.of_nat k) else r0) e s) as (arr & E & Hlen & Harr)
  end.
  - split; [apply repeat_length|]. intros k Hk. apply nth_repeat.
  - intros pre [i c] post arr He (Ha & Hk).
    assert (Hp : length pre < length l) by (rewrite <- (length_enumerate l), He, app_length; cbn; lia).
    assert (Ei : nth (length pre) (enumerate l) (N0, r0) = (i, c)) by (rewrite He, app_nth2, Nat.sub_diag by lia; reflexivity).
    rewrite nth_enumerate in Ei by auto. injection Ei as <- <-. cbn [fst snd].
    rewrite (nthr_nth _ _ r0) by (cbn [i_powers length]; apply Nat.mod_upper_bound; lia). cbn [bind]. rewrite Nat2N.id.
    unfold updr. rewrite Ha. destruct (Nat.ltb_spec (length pre) (2 ^ N)); [|lia]. eexists. split; [reflexivity|].
    split; [rewrite length_upd; auto|]. intros k Hkk. rewrite nth_upd, Ha, app_length. cbn [length].
    destruct (Nat.ltb_spec (length pre) (2 ^ N)); [|lia]. rewrite Bool.andb_true_r. destruct (Nat.eqb_spec (length pre) k) as [<-|Hne].
    + destruct (Nat.ltb_spec (length pre) (length pre + 1)); [|lia]. unfold tfun, phi, lc. rewrite Nat2N.id. reflexivity.
    + rewrite Hk by auto. destruct (Nat.ltb_spec k (length pre)), (Nat.ltb_spec k (length pre + 1)); auto; lia.
  - exists arr. split; auto. split; auto. intros i Hi. pose proof (proj2 (to_nat_lt_pow2 _ _) Hi) as Hi'. unfold lc at 1. rewrite Harr by auto.
    rewrite N2Nat.id, length_enumerate. destruct (Nat.ltb_spec (N.to_nat i) (length l)) as [H|H]; auto.
    unfold tfun, phi, lc. rewrite (nth_overflow l) by auto. rewrite into_0, mul_0_l. reflexivity.
Qed.

Lemma clifft_ok n l : length l = 2 ^ n -> exists M : mat (cplx F), clifft l = Ok M /\ mrep (half n) M (tr n l).
Proof.
  intros Hl. destruct (clifft_prepare_ok n l Hl) as (arr & E & Ha & Hf). unfold clifft. rewrite E. cbn [bind].
  destruct (clifft_nn_ok (half n) arr Ha) as (M & -> & HM). exists M. split; auto. eapply mrep_ext; [exact HM|]. apply cl_ext; auto.
Qed.
Lemma clifft_into_ok n l dest : length l = 2 ^ n -> square_mat (2 ^ half n) dest -> clifft_into l dest = (clifft l : res (mat (cplx F))).
Proof.
  intros Hl (H1 & H2 & H3). destruct (clifft_ok n l Hl) as (M & -> & HM). destruct (clifft_prepare_ok n l Hl) as (arr & E & Ha & Hf).
  unfold clifft_into. rewrite E. cbn [bind].
  destruct (clifft_nn_into_ok (half n) (S (length arr)) arr dest (m_at dest)) as (M' & -> & HM'); auto.
  - rewrite Ha. pose proof (Nat.pow_gt_lin_r 2 (2 * half n)). lia.
  - repeat split; auto.
  - f_equal. eapply mrep_eq; [eapply mrep_ext; [exact HM'|apply cl_ext; exact Hf]|exact HM].
Qed.
Lemma clifft_bad l : (forall n, length l <> 2 ^ n) -> clifft l = (Err InvalidShape : res (mat (cplx F))) /\
  forall dest : mat (cplx F), clifft_into l dest = Err InvalidShape.
Proof.
  intros H. destruct (cl_dim_cases (length l)) as [(n & E & _)|(_ & E)]; [destruct (H n E)|].
  unfold clifft, clifft_into, clifft_prepare. rewrite E. auto.
Qed.
End Clifft.

Section Inverse.
Context {F : Type} {RF : RingOps F} {LF : RingLaws F} {CF : CommLaws F} {DV : DivOps F} {FL : FieldLaws F} {FR : FormallyReal F} {md : Mode}.

Lemma cplx_two : radd r1 r1 <> (r0 : cplx F).
Proof. intros E. injection E as E _. revert E. apply fr_two. apply sum_sq. Qed.

Lemma iclifft_into_ok m (M : mat (cplx F)) X dest : mrep m M X -> length dest = 2 ^ (2 * m) ->
  exists l, iclifft_into M dest = Ok l /\ length l = 2 ^ (2 * m) /\ feq (2 * m) (lc l) (phi ipn idx_mask (icl m X)).
Proof.
  intros HM Hd. unfold iclifft_into. assert (E : m_nr M = 2 ^ m) by apply HM. rewrite E.
  destruct (iclifft_nn_into_ok m (S (2 ^ m)) M X dest) as (l & -> & Hl & Hf); auto.
  { pose proof (Nat.pow_gt_lin_r 2 m). lia. }
  cbn [bind].
  rewrite (mapM_Ok _ (fun ic => rmul (snd ic) (ipn (popcount (N.land (fst ic) idx_mask))))).
  - eexists. split; [reflexivity|]. split; [rewrite map_length, length_enumerate; auto|].
    intros i Hi. pose proof (proj2 (to_nat_lt_pow2 _ _) Hi) as Hi'. unfold lc.
    set (g := fun ic : N * cplx F => _). rewrite (nth_indep _ r0 (g (N0, r0))) by (rewrite map_length, length_enumerate; lia).
    rewrite map_nth, nth_enumerate by lia. unfold g. cbn [fst snd]. rewrite N2Nat.id. unfold phi. rewrite <- Hf by auto. reflexivity.
  - intros [i c] _. cbn [fst snd]. rewrite (nthr_nth _ _ r0) by (cbn [i_neg_powers length]; apply Nat.mod_upper_bound; lia). reflexivity.
Qed.
Lemma iclifft_ok m (M : mat (cplx F)) X : mrep m M X ->
  exists l, iclifft M = Ok l /\ length l = 2 ^ (2 * m) /\ feq (2 * m) (lc l) (phi ipn idx_mask (icl m X)).
Proof.
  intros HM. apply iclifft_into_ok; auto. rewrite repeat_length. destruct HM as (R & C & K & _). unfold m_ok in K. rewrite K, R, C, pow_sq. reflexivity.
Qed.
Lemma iclifft_bad (M : mat (cplx F)) : (forall m, ~ square_mat (2 ^ m) M) -> m_ok M -> iclifft M = Err InvalidShape.
Proof.
  intros H K. unfold iclifft, iclifft_into. cbn [iclifft_nn_into].
  destruct (Nat.eqb_spec (m_nr M) (m_nc M)) as [E|E]; [|reflexivity].
  destruct (Nat.eqb_spec (popcount (N.of_nat (m_nr M))) 1) as [E'|E']; [|reflexivity].
  apply popcount_1 in E' as (m & Em). destruct (H m). split; [|split]; congruence.
Qed.

Section Conv.
Context {T : Type} {RT : RingOps T} {LT : RingLaws T} {IC : IntoCplx T F} {FC : FromCplx T F} {CV : ConvLaws T F}.

Lemma roundtrip_thm n (l : list T) : length l = 2 ^ n ->
  exists M : mat (cplx F), clifft l = Ok M /\ square_mat (2 ^ ((n + 1) / 2)) M /\
    iclifft M = Ok (map into_complex l ++ repeat r0 (2 ^ (2 * ((n + 1) / 2)) - 2 ^ n)) /\
    (forall dest : mat (cplx F), square_mat (2 ^ ((n + 1) / 2)) dest -> clifft_into l dest = Ok M).
Proof.
  intros Hl. destruct (clifft_ok (F := F) n l Hl) as (M & E & HM). exists M. split; auto.
  assert (Hs : square_mat (2 ^ ((n + 1) / 2)) M) by (repeat split; apply HM). split; auto.
  split; [|intros dest Hd; rewrite <- E; apply (clifft_into_ok n); auto].
  destruct (iclifft_ok _ _ _ HM) as (l' & -> & Hl' & Hf). f_equal. fold (half n).
  assert (HN : 2 ^ n <= 2 ^ (2 * half n)) by (apply Nat.pow_le_mono_r; [lia|apply half_le]).
  apply (list_lc _ _ (2 * half n)); auto.
  - rewrite app_length, map_length, repeat_length. lia.
  - intros i Hi. rewrite Hf by auto. destruct (has_half cplx_two) as (H1 & H2).
    transitivity (phi ipn idx_mask (tfun (F := F) l) i); [unfold phi; f_equal; apply (icl_cl _ H1 H2); auto|].
    unfold tfun. rewrite phi_inv by apply ipw_ipn. unfold lc.
    destruct (Nat.lt_ge_cases (N.to_nat i) (length l)) as [H|H].
    + rewrite app_nth1 by (rewrite map_length; auto). rewrite (nth_indep _ r0 (into_complex r0)) by (rewrite map_length; auto). rewrite map_nth. reflexivity.
    + rewrite (nth_overflow l) by auto. rewrite app_nth2 by (rewrite map_length; auto). rewrite nth_repeat. apply into_0.
Qed.
End Conv.

Lemma roundtrip2_thm m (M : mat (cplx F)) : square_mat (2 ^ m) M ->
  exists l, iclifft M = Ok l /\ length l = 2 ^ (2 * m) /\ clifft l = Ok M.
Proof.
  intros (R & C & K).
  set (X := fun i j : N => m_at M (N.to_nat i) (N.to_nat j)).
  assert (HM : mrep m M X).
  { repeat split; auto. intros i j Hi Hj. unfold nn, X. rewrite !Nat2N.id. reflexivity. }
  destruct (iclifft_ok m M X HM) as (l & E & Hl & Hf). exists l. split; auto. split; auto.
  destruct (clifft_ok (F := F) (2 * m) l Hl) as (M' & -> & HM'). f_equal.
  assert (Hh : half (2 * m) = m) by (pose proof (half_even (2 * m)) as G; rewrite Nat.odd_mul in G; cbn [Nat.odd Nat.even negb andb] in G; lia).
  rewrite Hh in HM'. eapply mrep_eq; [|exact HM]. eapply mrep_ext; [exact HM'|].
  destruct (has_half cplx_two) as (H1 & H2). unfold tr. rewrite Hh.
  eapply meq_trans; [|apply (cl_icl _ H1 H2)]. apply cl_ext. intros i Hi. unfold tfun. rewrite <- (phi_inv ipn ipw idx_mask (icl m X) i) by apply ipn_ipw.
  unfold phi at 1 2. cbn [into_complex CplxInto]. f_equal. rewrite Hf by auto. reflexivity.
Qed.

Lemma bad_shapes_thm (M : mat (cplx F)) : m_ok M -> (forall m, ~ square_mat (2 ^ m) M) ->
  iclifft M = Err InvalidShape /\ imaginary_flip M = Err InvalidShape /\ reversal M = Err InvalidShape.
Proof.
  intros K H. split; [apply iclifft_bad; auto|].
  assert (G : forall P : mat (cplx F), m_ok P -> (forall m, ~ square_mat (2 ^ m) P) -> imaginary_flip P = Err InvalidShape).
  { intros P KP HP. unfold imaginary_flip. destruct (Nat.eqb_spec (m_nr P) (m_nc P)) as [E|E]; [|reflexivity].
    destruct (Nat.eqb_spec (popcount (N.of_nat (m_nr P))) 1) as [E'|E']; [|reflexivity].
    apply popcount_1 in E' as (m & Em). destruct (HP m). split; [|split]; congruence. }
  split; [apply G; auto|]. unfold reversal.
  pose proof (mis_t _ _ _ _ (mis_self M K)) as (R & C & K' & _).
  apply G; auto. intros m (A & B & _). apply (H m). split; [|split]; congruence.
Qed.
End Inverse.

Section Hom.
Context {T F : Type} {RT : RingOps T} {LT : RingLaws T} {RF : RingOps F} {LF : RingLaws F}
  {IC : IntoCplx T F} {FC : FromCplx T F} {CV : ConvLaws T F} {DV : DivOps F} {md : Mode}.
Implicit Types x y z : list T.

Lemma q1_metric n : metric q1 n 0 0.
Proof. intros i Hi. rewrite !N.bits_0. reflexivity. Qed.

(** Products in a smaller algebra, seen in a bigger one. *)
Lemma gp_pad {R} {RO : RingOps R} {L : RingLaws R} n j Q P (x y : N -> R) :
  (forall i, (pow2 n <= i)%N -> x i = r0) -> (forall i, (pow2 n <= i)%N -> y i = r0) ->
  forall k, (k < pow2 (n + j))%N -> gp (n + j) Q P x y k = if (k <? pow2 n)%N then gp n Q P x y k else r0.
Proof.
  intros Hx Hy. induction j as [|j IH]; intros k Hk.
  - rewrite Nat.add_0_r in *. apply N.ltb_lt in Hk. rewrite Hk. reflexivity.
  - rewrite Nat.add_succ_r in *. assert (Hle : (pow2 n <= pow2 (n + j))%N) by (unfold pow2; apply N.pow_le_mono_r; lia).
    assert (Ux : forall i, up (n + j) x i = r0) by (intros i; apply Hx; lia).
    assert (Uy : forall i, up (n + j) y i = r0) by (intros i; apply Hy; lia).
    apply split_lt in Hk as [Hk|(k' & -> & Hk)].
    + rewrite gp_S_low by auto. rewrite <- IH by auto.
      transitivity (radd (gp (n + j) Q P x y k) (act (gen_sq Q P (n + j)) r0)); [f_equal; f_equal|rewrite act_0, add_0_r; reflexivity].
      rewrite <- (gp_0_l (n + j) Q P (up (n + j) y) k). apply gp_ext; auto; intros i Hi; [|auto]; unfold alpha; rewrite Ux; apply sgb_0.
    + rewrite gp_S_high by auto. destruct (N.ltb_spec (pow2 (n + j) + k') (pow2 n)); [lia|].
      rewrite <- (add_0_r r0) at 1. f_equal.
      * rewrite <- (gp_0_l (n + j) Q P y k'). apply gp_ext; auto; intros i Hi; auto.
      * rewrite <- (gp_0_r (n + j) Q P (alpha x) k'). apply gp_ext; auto; intros i Hi; auto.
Qed.

Lemma lc_pad n x i : length x = 2 ^ n -> (pow2 n <= i)%N -> lc x i = r0.
Proof. intros Hl Hi. unfold lc. apply nth_overflow. rewrite Hl, <- pow2_nat. lia. Qed.

Lemma tr_mul n x y z : n < 63 -> length x = 2 ^ n -> length y = 2 ^ n -> length z = 2 ^ n ->
  feq n (lc z) (gp n 0 0 (lc x) (lc y)) -> meq (half n) (tr n z) (mmul (half n) (tr n x) (tr (F := F) n y)).
Proof.
  intros Hn Hx Hy Hz Hg. unfold tr.
  assert (Hm : half n <= 32) by (unfold half; apply Nat.div_le_upper_bound; lia).
  eapply meq_trans; [|apply cl_mul; apply mask_odd; exact Hm]. apply cl_ext. intros k Hk.
  unfold tfun. rewrite phi_gp by apply ipw_phase. rewrite N.lxor_nilpotent. unfold phi. f_equal.
  rewrite <- into_gp. f_equal. destruct (Nat.le_exists_sub n (2 * half n)) as (j & Ej & _); [apply half_le|].
  rewrite Ej, Nat.add_comm in *. rewrite gp_pad by (auto; intros; eapply lc_pad; eauto).
  destruct (N.ltb_spec k (pow2 n)); [apply Hg; auto|eapply lc_pad; eauto].
Qed.

Lemma product_thm n x y z : n < 63 -> length x = 2 ^ n -> length y = 2 ^ n -> length z = 2 ^ n ->
  (forall k, (k < 2 ^ N.of_nat n)%N -> coefs z k = spec_mul q1 n (coefs x) (coefs y) k) ->
  exists X Y Z : mat (cplx F), clifft x = Ok X /\ clifft y = Ok Y /\ clifft z = Ok Z /\ m_dot X Y = Ok Z.
Proof.
  intros Hn Hx Hy Hz Hg.
  destruct (clifft_ok (F := F) n x Hx) as (X & EX & HX). destruct (clifft_ok (F := F) n y Hy) as (Y & EY & HY). destruct (clifft_ok (F := F) n z Hz) as (Z & EZ & HZ).
  exists X, Y, Z. repeat (split; auto). destruct (mrep_dot _ _ _ _ _ HX HY) as (P & -> & HP). f_equal.
  eapply mrep_eq; [exact HP|]. eapply mrep_ext; [exact HZ|]. apply tr_mul; auto.
  intros k Hk. rewrite <- (spec_mul_gp q1) by (auto; apply q1_metric). apply Hg. exact Hk.
Qed.

Lemma tr_add n x y z : length x = 2 ^ n -> length y = 2 ^ n -> length z = 2 ^ n ->
  feq n (lc z) (fadd (lc x) (lc y)) -> forall i j, tr (F := F) n z i j = radd (tr n x i j) (tr n y i j).
Proof.
  intros Hx Hy Hz Hg i j. unfold tr. rewrite <- cl_add. apply cl_ext0. intros k. unfold tfun.
  rewrite <- phi_add. unfold phi. f_equal. unfold fadd. rewrite <- into_add. f_equal.
  destruct (N.lt_ge_cases k (pow2 n)); [apply Hg; auto|]. rewrite !(lc_pad n) by auto. symmetry. apply add_0_r.
Qed.
Lemma mrep_at m (M : mat (cplx F)) X i j : mrep m M X -> i < 2 ^ m -> j < 2 ^ m -> m_at M i j = nn X i j.
Proof. apply mis_at. Qed.

Lemma additive_thm n x y z : length x = 2 ^ n -> length y = 2 ^ n -> length z = 2 ^ n ->
  (forall k, (k < 2 ^ N.of_nat n)%N -> coefs z k = radd (coefs x k) (coefs y k)) ->
  exists X Y Z : mat (cplx F), clifft x = Ok X /\ clifft y = Ok Y /\ clifft z = Ok Z /\ entrywise2 radd X Y Z.
Proof.
  intros Hx Hy Hz Hg.
  destruct (clifft_ok (F := F) n x Hx) as (X & EX & HX). destruct (clifft_ok (F := F) n y Hy) as (Y & EY & HY). destruct (clifft_ok (F := F) n z Hz) as (Z & EZ & HZ).
  exists X, Y, Z. do 3 (split; [assumption|]). pose proof HX as (RX & CX & _). pose proof HY as (RY & CY & _). pose proof HZ as (RZ & CZ & _).
  repeat split; try congruence. rewrite RX, CX. intros i j Hi Hj. rewrite (mis_get _ _ _ _ _ _ HZ Hi Hj). f_equal.
  rewrite (mrep_at _ _ _ _ _ HX Hi Hj), (mrep_at _ _ _ _ _ HY Hi Hj). unfold nn. apply tr_add; auto.
Qed.

Lemma one_thm n : exists M : mat (cplx F), clifft (r1 :: repeat r0 (2 ^ n - 1) : list T) = Ok M /\ identity_mat (2 ^ ((n + 1) / 2)) M.
Proof.
  set (l := r1 :: repeat r0 (2 ^ n - 1) : list T). assert (Hl : length l = 2 ^ n) by (cbn; rewrite repeat_length; pose proof (P_CliFFT.pow_pos n); lia).
  destruct (clifft_ok (F := F) n l Hl) as (M & E & HM). exists M. split; auto. fold (half n). split; [repeat split; apply HM|].
  intros i j Hi Hj. rewrite (mis_get _ _ _ _ _ _ HM Hi Hj). f_equal. unfold nn, tr.
  rewrite (cl_ext0 _ _ (del 0 r1)).
  - rewrite cl_one by (apply of_nat_lt; auto). destruct (Nat.eqb_spec i j) as [->|Hne]; [rewrite N.eqb_refl; auto|].
    destruct (N.eqb_spec (N.of_nat i) (N.of_nat j)); auto. lia.
  - intros k. unfold tfun, phi, del. destruct (N.eqb_spec k 0) as [->|Hk].
    + cbn [N.land popcount lc nth N.to_nat]. unfold lc. cbn [N.to_nat nth l]. rewrite into_one. apply mul_1_l.
    + unfold lc, l. destruct (N.to_nat k) eqn:Ek; [lia|]. cbn [nth]. rewrite nth_repeat, into_0. apply mul_0_l.
Qed.

(** Involutions. *)
Lemma odd_gens_mask n k : n <= 64 -> (k < pow2 n)%N -> popcount (N.land k idx_mask) = odd_gens n k.
Proof.
  intros Hn Hk. rewrite (popcount_bitsum n) by (apply land_lt_l; auto).
  assert (G : forall m, m <= n -> bitsum m (N.land k idx_mask) = odd_gens m k).
  { induction m as [|m IH]; intros Hm; [reflexivity|]. cbn [bitsum]. unfold odd_gens in *. rewrite seq_S, filter_app, app_length, <- IH by lia.
    cbn [filter Nat.add]. rewrite N.land_spec, mask_bit by lia. rewrite Bool.andb_comm.
    destruct (Nat.odd m && N.testbit k (N.of_nat m))%bool; cbn [length]; lia. }
  apply G. lia.
Qed.

Definition inv_case (n : nat) (g : N -> nat) (f : mat (cplx F) -> res (mat (cplx F))) : Prop := forall x x',
  length x = 2 ^ n -> length x' = 2 ^ n -> (forall k, (k < 2 ^ N.of_nat n)%N -> coefs x' k = msign (g k) (coefs x k)) ->
  exists X X' : mat (cplx F), clifft x = Ok X /\ clifft x' = Ok X' /\ f X = Ok X'.

Lemma inv_intro n g f (h : (N -> N -> cplx F) -> N -> N -> cplx F) :
  (forall M X, mrep (half n) M X -> exists M', f M = Ok M' /\ mrep (half n) M' (h X)) ->
  (forall x x', length x = 2 ^ n -> length x' = 2 ^ n -> (forall k, lc x' k = msign (g k) (lc x k)) -> meq (half n) (h (tr n x)) (tr n x')) ->
  inv_case n g f.
Proof.
  intros Hf Hh x x' Hx Hx' Hg.
  destruct (clifft_ok (F := F) n x Hx) as (X & EX & HX). destruct (clifft_ok (F := F) n x' Hx') as (X' & EX' & HX').
  exists X, X'. repeat (split; auto). destruct (Hf _ _ HX) as (M' & -> & HM'). f_equal. eapply mrep_eq; [|exact HX'].
  eapply mrep_ext; [exact HM'|]. apply Hh; auto. intros k. destruct (N.lt_ge_cases k (pow2 n)); [apply Hg; auto|].
  rewrite !(lc_pad n) by auto. unfold msign. destruct (Nat.odd (g k)); auto. rewrite neg_0. reflexivity.
Qed.
Lemma into_msign n (a : T) : into_complex (msign n a) = (sgb (Nat.odd n) (into_complex a) : cplx F).
Proof. apply (into_sgb (Nat.odd n)). Qed.

Lemma parity_thm n : inv_case n popcount (fun M => Ok (parity_flip M)).
Proof.
  apply (inv_intro n _ _ malpha).
  - intros M X HM. eexists. split; [reflexivity|]. apply parity_flip_ok; auto.
  - intros x x' Hx Hx' Hg i j Hi Hj. unfold tr. rewrite <- cl_alpha by auto. apply cl_ext0. intros k. unfold tfun. rewrite <- phi_alpha.
    unfold phi, alpha. rewrite Hg, into_msign. reflexivity.
Qed.
Lemma iflip_thm n : n < 63 -> inv_case n (odd_gens n) imaginary_flip.
Proof.
  intros Hn. assert (Hm : half n <= 32) by (unfold half; apply Nat.div_le_upper_bound; lia).
  assert (G : inv_case n (fun k => popcount (N.land k idx_mask)) imaginary_flip).
  { apply (inv_intro n _ _ (iflip (half n))); [apply imaginary_flip_ok|].
    intros x x' Hx Hx' Hg i j Hi Hj. unfold tr. rewrite <- (cl_iflip _ idx_mask) by (auto; apply mask_odd; auto). apply cl_ext0. intros k. unfold tfun. rewrite <- phi_alpham.
    unfold phi, alpham. rewrite Hg, into_msign. reflexivity. }
  intros x x' Hx Hx' Hg. apply G; auto. intros k Hk. rewrite (odd_gens_mask n) by (auto; lia). auto.
Qed.
Lemma reversal_thm n : inv_case n (fun k => Nat.div2 (popcount k * (popcount k - 1))) reversal.
Proof.
  apply (inv_intro n _ _ (fun X => iflip (half n) (mtr X))); [apply reversal_ok|].
  intros x x' Hx Hx' Hg i j Hi Hj. unfold tr. rewrite <- cl_rev by auto. apply cl_ext0. intros k. unfold tfun. rewrite <- phi_frev.
  unfold phi, frev. rewrite Hg, into_msign, rbit_tri. reflexivity.
Qed.
End Hom.

(** Dense multivectors. *)
Section Dense.
Context {T F : Type} {RT : RingOps T} {LT : RingLaws T} {RF : RingOps F} {LF : RingLaws F}
  {IC : IntoCplx T F} {FC : FromCplx T F} {CV : ConvLaws T F} {DV : DivOps F} {md : Mode} {H : HashOrder}.

Lemma dense_len A (x : store KDense T) : valid A x -> length (arr_data x) = 2 ^ a_dim A.
Proof. intros (H1 & H2 & H3). auto. Qed.
Lemma dense_rd A (x : store KDense T) i : valid A x -> (i < pow2 (a_dim A))%N -> rd x i = lc (arr_data x) i.
Proof. intros Hx Hi. rewrite (rd_coef (a_dim A)) by auto. reflexivity. Qed.

Lemma sq_plus n i : i < n -> sq (repeat Tplus n) i = 1%Z.
Proof. intros Hi. unfold sq. rewrite (nth_error_nth' _ Tplus) by (rewrite repeat_length; auto). rewrite nth_repeat. reflexivity. Qed.

Lemma dense_product_thm n A (x y : store KDense T) : declared (repeat Tplus n) A -> n < 63 -> valid A x -> valid A y ->
  exists (z : store KDense T) (X Y Z : mat (cplx F)), mv_mul A x y = Ok z /\ valid A z /\
    clifft (arr_data x) = Ok X /\ clifft (arr_data y) = Ok Y /\ clifft (arr_data z) = Ok Z /\ m_dot X Y = Ok Z.
Proof.
  intros D Hn Hx Hy. destruct (h_mul A _ D x y _ _ Hx Hy (feq_refl _ _) (feq_refl _ _)) as (z & Ez & Hz & Hc).
  assert (Hd : a_dim A = n) by (rewrite (declared_dim _ _ D), repeat_length; auto).
  pose proof (dense_len A x Hx) as Lx. pose proof (dense_len A y Hy) as Ly. pose proof (dense_len A z Hz) as Lz. rewrite Hd in *.
  assert (M0 : metric (sq (repeat Tplus n)) n 0 0) by (intros i Hi; rewrite !N.bits_0; apply sq_plus; auto).
  assert (MA : metric (sq (repeat Tplus n)) n (a_imag A) (a_proj A)) by (rewrite <- Hd at 2; apply declared_metric; auto).
  destruct (clifft_ok (F := F) n _ Lx) as (X & EX & HX). destruct (clifft_ok (F := F) n _ Ly) as (Y & EY & HY). destruct (clifft_ok (F := F) n _ Lz) as (Z & EZ & HZ).
  exists z, X, Y, Z. do 5 (split; [assumption|]). destruct (mrep_dot _ _ _ _ _ HX HY) as (P & -> & HP). f_equal.
  eapply mrep_eq; [exact HP|]. eapply mrep_ext; [exact HZ|]. apply tr_mul; auto.
  intros k Hk. rewrite <- (spec_mul_gp _ _ _ _ _ _ M0) by auto. rewrite (spec_mul_gp _ _ _ _ _ _ MA) by auto.
  specialize (Hc k Hk). rewrite <- dense_rd with (A := A) by (auto; rewrite Hd; auto). unfold rd at 1. rewrite Hc.
  apply gp_ext; auto; intros i Hi; apply (dense_rd A); auto; rewrite Hd; auto.
Qed.
End Dense.
