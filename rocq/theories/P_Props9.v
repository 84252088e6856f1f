(** Properties C38 to C42, C45: the matrix representation of multivectors. *)
From Verif Require Export P_FFTRepr2 Spec_Repr.
Local Open Scope nat_scope.

Section FftThms.
Context {T F : Type} {RT : RingOps T} {LT : RingLaws T} {RF : RingOps F} {LF : RingLaws F} {CF : CommLaws F} {DV : DivOps F}
  {IC : IntoCplx T F} {FC : FromCplx T F} {CV : ConvLaws T F} {md : Mode} {HO : HashOrder}.
Local Notation C := (cplx F).
Local Notation MV := (store KDense T).
Variables (sg : list tok) (A : algebra).
Hypothesis D : declared sg A.
Hypothesis Hl : length sg < 63.
Local Notation d := (a_dim A).
Let HS := declared_nn sg A D.
Let Hd : d < 63.
Proof. rewrite (declared_dim _ _ D). exact Hl. Qed.
Local Notation rp := (repr_of (F := F) sg A).
Local Notation fft x := (mv_fft (F := F) A (x : arr T)).

Lemma valid_arr (x : MV) : valid A x -> arr_wf d x.
Proof. auto. Qed.
Lemma arr_eq (x y : arr T) : arr_wf d x -> arr_wf d y -> (forall k, (k < pow2 d)%N -> arr_coef x k = arr_coef y k) -> x = y.
Proof.
  intros (_ & D1 & L1) (_ & D2 & L2) H. destruct x as [dx lx], y as [dy ly]. cbn in *. subst. f_equal. apply (nth_ext _ _ r0 r0); [congruence|].
  intros k Hk. specialize (H (N.of_nat k)). unfold arr_coef in H. rewrite Nat2N.id in H. apply H. rewrite L1 in Hk. apply of_nat_lt; auto.
Qed.
Lemma fft_gives (x : MV) f : valid A x -> feq d (rd x) f -> exists r, fft x = Ok r /\ rp r (cfun A f).
Proof.
  intros Hx Hf. destruct (fft_ok (IC := IC) sg A D Hl x (valid_arr x Hx)) as (r & E & Hr). exists r. split; [exact E|].
  eapply (repr_ext sg A D Hl); [exact Hr|]. intros k Hk. unfold cfun, phi. f_equal. f_equal. rewrite <- Hf by auto. symmetry. exact (rd_coef d x k Hx Hk).
Qed.
Lemma fft_r (r : res MV) f : gives A r f -> exists R, (z <- r ;; fft z) = Ok R /\ rp R (cfun A f).
Proof. intros (z & -> & Hz & H). cbn [bind]. apply fft_gives; auto. intros i Hi. unfold rd. rewrite H by auto. reflexivity. Qed.

Lemma cfun_at f k : cfun (F := F) A f k = rmul (into_complex (f k)) (ipn (popcount (N.land k (a_imag A)))).
Proof. reflexivity. Qed.

Ltac use H := let r := fresh "r" in let E := fresh "E" in let Hr := fresh "Hr" in destruct H as (r & E & Hr).

Lemma c38_total (x : MV) : valid A x -> exists X, fft x = Ok X /\ repr_shape sg X.
Proof.
  intros Hx. destruct (fft_gives x _ Hx (fun i _ => eq_refl)) as (r & E & Hr). exists r. split; [exact E|]. destruct (arep_ok _ _ _ _ Hr) as (H1 & H2). split; [exact H1|].
  unfold fr_shape, mats_of, side_of. rewrite H2. rewrite (declared_dim _ _ D). reflexivity.
Qed.

Lemma c39_repr (x y : MV) : valid A x -> valid A y ->
  both_ok (X <- fft x ;; Y <- fft y ;; fr_mul X Y) (z <- mv_mul A x y ;; fft z).
Proof.
  intros Hx Hy. destruct (fft_gives x _ Hx (fun i _ => eq_refl)) as (X & -> & HX). destruct (fft_gives y _ Hy (fun i _ => eq_refl)) as (Y & -> & HY). cbn [bind].
  destruct (repr_mul sg A D Hl _ _ _ _ HX HY) as (P & -> & HP). exists P. split; auto.
  destruct (fft_r _ _ (g_mul A sg D x y Hx Hy)) as (R & -> & HR). f_equal. eapply (repr_eq2 sg A D Hl); [exact HR|exact HP|].
  intros k Hk. symmetry. apply cfun_gp.
Qed.
Lemma c40_add (x y : MV) : valid A x -> valid A y -> both_ok (X <- fft x ;; Y <- fft y ;; fr_add X Y) (z <- mv_add x y ;; fft z).
Proof.
  intros Hx Hy. destruct (fft_gives x _ Hx (fun i _ => eq_refl)) as (X & -> & HX). destruct (fft_gives y _ Hy (fun i _ => eq_refl)) as (Y & -> & HY). cbn [bind].
  destruct (repr_add sg A _ _ _ _ HX HY) as (P & -> & HP). exists P. split; auto.
  destruct (fft_r _ _ (g_add A x y Hx Hy)) as (R & -> & HR). f_equal. eapply (repr_eq2 sg A D Hl); [exact HR|exact HP|].
  intros k Hk. apply cfun_add.
Qed.
Lemma c40_sub (x y : MV) : valid A x -> valid A y -> both_ok (X <- fft x ;; Y <- fft y ;; fr_sub X Y) (z <- mv_sub x y ;; fft z).
Proof.
  intros Hx Hy. destruct (fft_gives x _ Hx (fun i _ => eq_refl)) as (X & -> & HX). destruct (fft_gives y _ Hy (fun i _ => eq_refl)) as (Y & -> & HY). cbn [bind].
  destruct (repr_sub sg A _ _ _ _ HX HY) as (P & -> & HP). exists P. split; auto.
  destruct (fft_r _ _ (g_sub A x y Hx Hy)) as (R & -> & HR). f_equal. eapply (repr_eq2 sg A D Hl); [exact HR|exact HP|].
  intros k Hk. unfold fsub. rewrite !cfun_at, into_sub, !sub_def, mul_add_l, mul_neg_l. reflexivity.
Qed.
Lemma c40_neg (x : MV) : valid A x -> both_ok (X <- fft x ;; Ok (fr_neg X)) (z <- mv_neg A x ;; fft z).
Proof.
  intros Hx. destruct (fft_gives x _ Hx (fun i _ => eq_refl)) as (X & -> & HX). cbn [bind]. eexists. split; [reflexivity|].
  destruct (fft_r _ _ (g_neg A sg D x Hx)) as (R & -> & HR). f_equal. eapply (repr_eq2 sg A D Hl); [exact HR|apply (repr_neg sg A _ _ HX)|].
  intros k Hk. unfold fneg. rewrite !cfun_at, into_neg, mul_neg_l. reflexivity.
Qed.
Lemma c40_scale (x : MV) (t : T) : valid A x -> both_ok (X <- fft x ;; Ok (fr_scale X (into_complex t))) (z <- mv_scale A x t ;; fft z).
Proof.
  intros Hx. destruct (fft_gives x _ Hx (fun i _ => eq_refl)) as (X & -> & HX). cbn [bind]. eexists. split; [reflexivity|].
  destruct (fft_r _ _ (g_scale A x t Hx)) as (R & -> & HR). f_equal. eapply (repr_eq2 sg A D Hl); [exact HR|apply (repr_scale sg A _ _ _ HX CF)|].
  intros k Hk. cbn beta. rewrite !cfun_at, into_mul, <- !mul_assoc. f_equal. apply mul_comm.
Qed.
Let DOK : st_dim_ok (StorageLaws := KLaws KDense (T := T)) d.
Proof. cbn. lia. Qed.
Lemma c40_zero : both_ok (fr_zero (F := F) A) (z <- (mv_zero A : res MV) ;; fft z).
Proof.
  destruct (repr_zero (F := F) sg A D Hl) as (Z & -> & HZ). exists Z. split; auto.
  destruct (fft_r _ _ (g_default A DOK)) as (R & E & HR). etransitivity; [exact E|]. f_equal. eapply (repr_eq2 sg A D Hl); [exact HR|exact HZ|].
  intros k Hk. rewrite cfun_at. rewrite (into_0 (T := T) (F := F)). apply mul_0_l.
Qed.
Lemma c40_one : both_ok (fr_one (F := F) A) (z <- (mv_one A : res MV) ;; fft z).
Proof.
  destruct (repr_one (F := F) sg A D Hl) as (Z & -> & HZ). exists Z. split; auto.
  destruct (fft_r _ _ (g_one A DOK)) as (R & E & HR). etransitivity; [exact E|]. f_equal. eapply (repr_eq2 sg A D Hl); [exact HR|exact HZ|].
  intros k Hk. rewrite cfun_at. unfold del. destruct (N.eqb_spec k 0) as [->|]; [|rewrite (into_0 (T := T) (F := F)); apply mul_0_l].
  cbn [N.land]. rewrite popcount_0, (ph_0 ipn ipn_phase), into_one. apply mul_1_l.
Qed.
Lemma c41_rev (x : MV) : valid A x -> both_ok (X <- fft x ;; fr_rev A X) (z <- mv_rev A x ;; fft z).
Proof.
  intros Hx. destruct (fft_gives x _ Hx (fun i _ => eq_refl)) as (X & -> & HX). cbn [bind]. destruct (repr_rev sg A D Hl _ _ HX) as (P & -> & HP). exists P. split; auto.
  destruct (fft_r _ _ (g_rev A x Hx)) as (R & -> & HR). f_equal. eapply (repr_eq2 sg A D Hl); [exact HR|exact HP|].
  intros k Hk. unfold frev. rewrite !cfun_at, into_sgb. unfold sgb. destruct (rbit _); rewrite ?mul_neg_l; reflexivity.
Qed.
Lemma c41_flip (x : MV) : valid A x -> both_ok (X <- fft x ;; Ok (fr_flip X)) (z <- mv_flip A x ;; fft z).
Proof.
  intros Hx. destruct (fft_gives x _ Hx (fun i _ => eq_refl)) as (X & -> & HX). cbn [bind]. eexists. split; [reflexivity|].
  destruct (fft_r _ _ (g_flip A x Hx)) as (R & -> & HR). f_equal. eapply (repr_eq2 sg A D Hl); [exact HR|apply (repr_flip sg A _ _ HX)|].
  intros k Hk. unfold alpha. rewrite !cfun_at, into_sgb. unfold sgb. destruct (par _); rewrite ?mul_neg_l; reflexivity.
Qed.

(** *** With division *)
Context {FL : FieldLaws F} {FRl : FormallyReal F}.

Lemma ifft_fft r f : rp r (cfun A f) -> exists z : arr T, fr_ifft A r = Ok z /\ arr_wf d z /\ forall k, (k < pow2 d)%N -> arr_coef z k = f k.
Proof.
  intros Hr. destruct (ifft_repr (T := T) (IC := IC) (FC := FC) sg A D Hl r _ Hr) as (z & E & Hz & Hc). exists z. split; auto. split; auto. intros k Hk. rewrite Hc by auto. apply cfun_inv.
Qed.
Lemma ifft_of r f (t : res MV) : rp r (cfun A f) -> gives A t f -> both_ok (fr_ifft A r) (t : res (arr T)).
Proof.
  intros Hr (z & -> & Hz & H). destruct (ifft_fft r f Hr) as (z' & -> & Hz' & Hc). exists z'. split; auto. f_equal. apply arr_eq; auto.
  intros k Hk. rewrite Hc by auto. specialize (H k Hk). pose proof (rd_coef d (z : MV) k Hz Hk) as G. unfold rd in G. rewrite H in G. first [exact G | exact (eq_sym G)].
Qed.
Lemma c38_roundtrip (x : MV) : valid A x -> (X <- fft x ;; fr_ifft A X) = Ok (x : arr T).
Proof.
  intros Hx. destruct (fft_gives x _ Hx (fun i _ => eq_refl)) as (X & -> & HX). cbn [bind].
  destruct (ifft_of X _ (Ok x) HX (gives_Ok A x Hx)) as (z & -> & E). symmetry. exact E.
Qed.
Lemma c39_product (x y : MV) : valid A x -> valid A y ->
  both_ok (X <- fft x ;; Y <- fft y ;; P <- fr_mul X Y ;; fr_ifft A P) (mv_mul A x y).
Proof.
  intros Hx Hy. destruct (fft_gives x _ Hx (fun i _ => eq_refl)) as (X & -> & HX). destruct (fft_gives y _ Hy (fun i _ => eq_refl)) as (Y & -> & HY). cbn [bind].
  destruct (repr_mul sg A D Hl _ _ _ _ HX HY) as (P & -> & HP). cbn [bind]. apply (ifft_of P (gp d (a_imag A) (a_proj A) (rd x) (rd y))).
  - eapply (repr_ext sg A D Hl); [exact HP|]. intros k Hk. apply cfun_gp.
  - apply (g_mul A sg D x y Hx Hy).
Qed.

Lemma nat_f_add a b : nat_f (F := F) (a + b) = radd (nat_f a) (nat_f b).
Proof. induction b as [|b IH]; [rewrite Nat.add_0_r; cbn; symmetry; apply add_0_r|]. rewrite Nat.add_succ_r. cbn [nat_f]. rewrite IH. symmetry. apply add_assoc. Qed.
Lemma nat_f_suml a : nat_f (F := F) a = suml (fun x => rmul x x) (repeat r1 a).
Proof. induction a as [|a IH]; [reflexivity|]. cbn [repeat suml nat_f]. rewrite mul_1_l, IH. apply add_comm. Qed.
Lemma nat_f_nz a : a <> 0 -> nat_f a <> (r0 : F).
Proof.
  intros Ha E. rewrite nat_f_suml in E. apply sum_sq in E. destruct a; [congruence|]. cbn [repeat] in E. inversion E. apply (one_neq_zero (T := F)). auto.
Qed.
Lemma dbl_nat m (c : C) : dbl m c = c_mulr c (nat_f (2 ^ m)).
Proof.
  revert c. induction m as [|m IH]; intros c.
  - cbn. apply cplx_ext; cbn; rewrite add_0_l, mul_1_r; auto.
  - cbn [dbl]. replace (2 ^ S m) with (2 ^ m + 2 ^ m) by (cbn; lia). rewrite nat_f_add, IH. apply cplx_ext; cbn; rewrite mul_add_r; auto.
Qed.
Lemma div_cancel (a b : F) : b <> r0 -> rdiv (rmul a b) b = a.
Proof.
  intros Hb. assert (E : rmul (rdiv (rmul a b) b) b = rmul a b) by (apply div_mul; auto).
  assert (I : rmul b (rdiv r1 b) = r1) by (rewrite mul_comm; apply div_mul; auto).
  transitivity (rmul (rmul (rdiv (rmul a b) b) b) (rdiv r1 b)); [rewrite <- mul_assoc, I, mul_1_r; auto|]. rewrite E, <- mul_assoc, I. apply mul_1_r.
Qed.
Lemma repr_ntrace a c : rp a c -> fr_ntrace a = Ok (c 0%N).
Proof.
  intros Ha. unfold fr_ntrace. rewrite (repr_trace sg A a c Ha). cbn [bind]. assert (R : t_nr a = 2 ^ half (nonnull sg)) by apply Ha. rewrite R, dbl_nat. f_equal.
  apply cplx_ext; cbn; apply div_cancel; apply nat_f_nz; pose proof (P_CliFFT.pow_pos (half (nonnull sg))); lia.
Qed.
Lemma cfun_0 f : cfun (F := F) A f 0%N = into_complex (f 0%N).
Proof. rewrite cfun_at. cbn [N.land]. rewrite popcount_0, (ph_0 ipn ipn_phase). apply mul_1_r. Qed.
Lemma c42_ntrace (x : MV) : valid A x -> both_ok (X <- fft x ;; fr_ntrace X) (c <- mv_scalar_part x ;; Ok (into_complex c)).
Proof.
  intros Hx. destruct (fft_gives x _ Hx (fun i _ => eq_refl)) as (X & -> & HX). cbn [bind]. rewrite (repr_ntrace X _ HX). eexists. split; [reflexivity|]. rewrite cfun_0.
  unfold mv_scalar_part, mv_get_by_idx. rewrite (st_get_ok d x 0%N Hx (pow2_pos d)). cbn [bind]. rewrite (rd_coef d x 0%N Hx (pow2_pos d)). reflexivity.
Qed.
Lemma c42_trace (x : MV) : valid A x -> both_ok (X <- fft x ;; fr_trace X) (c <- mv_scalar_part x ;; Ok (c_mulr (into_complex c) (nat_f (side_of sg)))).
Proof.
  intros Hx. destruct (fft_gives x _ Hx (fun i _ => eq_refl)) as (X & -> & HX). cbn [bind]. rewrite (repr_trace sg A X _ HX). eexists. split; [reflexivity|]. rewrite cfun_0, dbl_nat.
  unfold mv_scalar_part, mv_get_by_idx. rewrite (st_get_ok d x 0%N Hx (pow2_pos d)). cbn [bind]. rewrite (rd_coef d x 0%N Hx (pow2_pos d)). reflexivity.
Qed.
Lemma c42_mag2 (x : MV) : valid A x -> both_ok (X <- fft x ;; fr_mag2 A X) (c <- mv_mag2 A x ;; Ok (into_complex c)).
Proof.
  intros Hx. destruct (fft_gives x _ Hx (fun i _ => eq_refl)) as (X & -> & HX). cbn [bind]. unfold fr_mag2. destruct (repr_rev sg A D Hl _ _ HX) as (P & -> & HP). cbn [bind].
  destruct (repr_mul sg A D Hl _ _ _ _ HP HX) as (Q & -> & HQ). cbn [bind]. rewrite (repr_ntrace Q _ HQ). eexists. split; [reflexivity|]. rewrite (v_mag2 A sg D x Hx). cbn [bind]. f_equal.
  rewrite <- cfun_0. rewrite <- cfun_gp. apply gp_ext; try apply pow2_pos; intros k Hk; auto. unfold frev. rewrite !cfun_at, into_sgb. unfold sgb. destruct (rbit _); rewrite ?mul_neg_l; reflexivity.
Qed.
End FftThms.
