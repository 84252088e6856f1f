(** No overflow: the float formats, products, programs. *)
From Verif Require Export Spec_Range P_Range P_Round2 P_Round3 P_Round4.
From Coq Require Import QArith Qabs ZArith Lia Lqa Floats.SpecFloat.
Local Open Scope Qc_scope.

Section Fmt.
Variables prec emax : Z.
Hypothesis Hp : (0 < prec)%Z.
Hypothesis Hmin : (emin prec emax <= 0)%Z.
Hypothesis Hmax : (emin prec emax <= emax - prec)%Z.

Lemma okay_sok (x : flt) : @okay flt (flt_range prec emax) x <-> sok prec emax (to_sf x).
Proof. destruct x; reflexivity. Qed.
Lemma okay_of r : sok prec emax r -> @okay flt (flt_range prec emax) (of_sf r).
Proof. destruct r; cbn; auto. Qed.
Lemma big_Q (a : Qc) (q : Q) : (this a == q)%Q -> Qcabs a < @big flt (flt_range prec emax) -> (Qabs q < bp (emax - 1))%Q.
Proof.
  intros E H. unfold Qclt in H. cbn [big flt_range] in H. unfold pow2q, Qcabs, Q2Qc in H. cbn [this] in H. rewrite !Qred_correct, E in H. exact H.
Qed.
Lemma flt_range_laws : sok prec emax (binary_round prec emax false 1 0) ->
  @RangeLaws flt (flt_ops prec emax) (flt_div prec emax) (flt_round prec emax) (flt_range prec emax).
Proof.
  intros H1. constructor.
  - intros a Ha. destruct a; try contradiction; reflexivity.
  - exact I.
  - apply okay_of. exact H1.
  - intros a Ha. destruct a; try contradiction; exact Ha.
  - intros a b Ha Hb H. cbn [radd flt_ops]. apply okay_of. apply P_Range.add_ok; auto; try (apply okay_sok; assumption).
    eapply big_Q; [|exact H]. unfold Qcplus, Q2Qc. cbn [this]. rewrite Qred_correct. cbn [val flt_round]. rewrite !flt_val_this. reflexivity.
  - intros a b Ha Hb H. cbn [rmul flt_ops]. apply okay_of. apply P_Range.mul_ok; auto; try (apply okay_sok; assumption).
    eapply big_Q; [|exact H]. unfold Qcmult, Q2Qc. cbn [this]. rewrite Qred_correct. cbn [val flt_round]. rewrite !flt_val_this. reflexivity.
  - intros a b Ha Hb Hn H. cbn [rdiv flt_div]. apply okay_of. apply P_Range.div_ok; auto; try (apply okay_sok; assumption).
    + intros C. apply Hn. cbn [val flt_round]. apply Qc_is_canon. rewrite flt_val_this. exact C.
    + eapply big_Q; [|exact H]. unfold Qcdiv, Qcmult, Q2Qc. cbn [this]. rewrite Qred_correct, this_inv_ne. cbn [val flt_round]. rewrite !flt_val_this. reflexivity.
Qed.
End Fmt.
Lemma f64_range : @RangeLaws flt F64 (flt_div 53 1024) (flt_round 53 1024) (flt_range 53 1024).
Proof. apply flt_range_laws; vm_compute; congruence. Qed.
Lemma f32_range : @RangeLaws flt F32 (flt_div 24 128) (flt_round 24 128) (flt_range 24 128).
Proof. apply flt_range_laws; vm_compute; congruence. Qed.

(** ** Products *)
Section Sums.
Context {F : Type} {RF : RingOps F} {DF : DivOps F} {V : RoundOps F} {RL : RoundLaws F} {W : NumLaws F} {G : RangeOps F} {GL : RangeLaws F}.

Lemma ra_sub a b : okay a -> okay b -> Qcabs (val a - val b) < big -> okay (rsub a b).
Proof.
  intros Ha Hb Hl. rewrite n_sub_def. apply ra_add; auto; [apply ra_neg; auto|]. destruct (ro_neg b) as [-> _]. exact Hl.
Qed.
(** Everything met on the way to a sum of t products of total size M is below this. *)
Definition reach (t : nat) (M : Qc) : Qc := M + product_error t M.
Lemma reach_mono t t' M M' : (t <= t')%nat -> 0 <= M -> M <= M' -> reach t M <= reach t' M'.
Proof. intros Ht HM HMM. apply Qcplus_le_compat; [exact HMM|]. apply product_error_mono; auto. Qed.
Lemma reach_step t c S M p q : near t c S M -> finite c = true -> rounds (val p) q ->
  Qcabs (val c + val p) <= reach (Datatypes.S t) (M + Qcabs q) /\ Qcabs q <= reach (Datatypes.S t) (M + Qcabs q).
Proof.
  intros [H1 H2] Hc Hq. specialize (H2 Hc). pose proof ro_u as Hu. pose proof ro_eta as He.
  assert (HM : 0 <= M) by (eapply Qcle_trans; [apply Qcabs_nonneg|exact H1]). pose proof (Qcabs_nonneg q) as Hq0.
  assert (A1 : Qcabs (val c + val p) <= M + product_error t M + Qcabs q + (ulp * Qcabs q + eta)).
  { replace (val c + val p) with ((val c - S) + S + ((val p - q) + q)) by ring.
    eapply Qcle_trans; [apply Qcabs_triangle|]. pose proof (Qcabs_triangle (val c - S) S) as T1. pose proof (Qcabs_triangle (val p - q) q) as T2.
    unfold rounds in Hq. set (E := product_error t M) in *. clearbody E. set (X := ulp * Qcabs q) in *. clearbody X. qlra. }
  assert (A2 : product_error t M + (ulp * Qcabs q + eta) <= product_error (Datatypes.S t) (M + Qcabs q)).
  { unfold product_error. rewrite nat_step. cbn [Qcpower]. pose proof (qpow_ge ulp t Hu) as HG. set (g := (1 + ulp) ^ t) in *. clearbody g.
    pose proof (nat_pos t) as HB. set (B := Q2Qc (inject_Z (2 * Z.of_nat t))) in *. clearbody B.
    assert (G0 : 0 <= g) by (clear - HG; qlra).
    assert (B0 : 0 <= ulp * g) by (apply qmul_pos; auto).
    assert (B1 : 0 <= ulp * ((1 + ulp) * g) * M) by (apply qmul_pos; [apply qmul_pos; [auto|clear - B0 G0; qlra]|auto]).
    assert (B2 : 0 <= ((1 + ulp) * (g - 1)) * Qcabs q) by (apply qmul_pos; [apply qmul_pos; clear - HG Hu; qlra|auto]).
    assert (B3 : 0 <= ulp * ((1 + ulp) * g) * Qcabs q) by (apply qmul_pos; [apply qmul_pos; [auto|clear - B0 G0; qlra]|auto]).
    assert (B4 : 0 <= B * (ulp * g) * eta) by (apply qmul_pos; auto; apply qmul_pos; auto).
    assert (B5 : 0 <= (g - 1) * eta) by (apply qmul_pos; auto; clear - HG; qlra).
    assert (B6 : 0 <= (ulp * g) * eta) by (apply qmul_pos; auto).
    clear - B1 B2 B3 B4 B5 B6 He. set (aq := Qcabs q) in *. clearbody aq. qlra. }
  assert (P0 : 0 <= product_error t M) by (eapply Qcle_trans; [apply Qcabs_nonneg|exact H2]).
  assert (U0 : 0 <= ulp * Qcabs q) by (apply qmul_pos; auto).
  unfold reach. set (E := product_error t M) in *. set (E' := product_error (Datatypes.S t) (M + Qcabs q)) in *. clearbody E E'. clear H2 Hq.
  set (X := ulp * Qcabs q) in *. clearbody X. set (Z := Qcabs (val c + val p)) in *. clearbody Z. set (Y := Qcabs q) in *. clearbody Y. clear - A1 A2 P0 U0 HM He. split; qlra.
Qed.

Lemma terms_kept ord (used : N -> bool) (s : N -> Z) (x z : N -> F) t c S M :
  (forall i, used i = false -> In i ord -> val (z i) = 0) ->
  (forall i, In i ord -> okay (x i) /\ okay (z i)) ->
  near t c S M -> okay c -> 
  reach (t + length ord) (M + suml (fun i => Qcabs (val (x i)) * Qcabs (val (z i))) ord) < big ->
  okay (fold_left (fun c i => if used i then add_term (s i) c (rmul (x i) (z i)) else c) ord c).
Proof.
  revert t c S M. induction ord as [|i ord IH]; intros t c S M Hz Hk Hn Hc Hb; [exact Hc|].
  cbn [fold_left]. destruct (Hk i (or_introl eq_refl)) as [Hxi Hyj].
  assert (HM : 0 <= M) by (destruct Hn as [Hn _]; eapply Qcle_trans; [apply Qcabs_nonneg|exact Hn]).
  assert (HA : 0 <= Qcabs (val (x i)) * Qcabs (val (z i))) by (apply qmul_pos; apply Qcabs_nonneg).
  assert (HS : 0 <= suml (fun i => Qcabs (val (x i)) * Qcabs (val (z i))) ord) by (apply qsum_pos; intros; apply qmul_pos; apply Qcabs_nonneg).
  cbn [suml length] in Hb. change (@radd Qc QcOps) with Qcplus in Hb. rewrite Nat.add_succ_r, <- Nat.add_succ_l, Qcplus_assoc in Hb.
  assert (Hb1 : reach (Datatypes.S t) (M + Qcabs (val (x i)) * Qcabs (val (z i))) < big).
  { eapply Qcle_lt_trans; [|exact Hb]. apply reach_mono; [lia| |]; clear Hb; set (P := Qcabs (val (x i)) * Qcabs (val (z i))) in *; clearbody P;
    set (Q := suml _ ord) in *; clearbody Q; clear - HM HA HS; qlra. }
  rewrite <- Qcabs_Qcmult in HA, Hb, Hb1.
  assert (Hfc : finite c = true) by (apply ra_fin; auto).
  assert (Hp : okay (rmul (x i) (z i))).
  { apply ra_mul; auto. eapply Qcle_lt_trans; [|exact Hb1]. unfold reach.
    assert (0 <= product_error (Datatypes.S t) (M + Qcabs (val (x i) * val (z i)))).
    { apply (Qcle_trans _ (product_error 0 0)); [unfold product_error; change (Q2Qc (inject_Z (2 * Z.of_nat 0))) with 0; replace (_ + _) with 0 by ring; apply Qcle_refl|].
      apply product_error_mono; [lia|apply Qcle_refl|]. set (P := Qcabs (val (x i) * val (z i))) in *; clearbody P. clear - HM HA. qlra. }
    set (P := Qcabs (val (x i) * val (z i))) in *. clearbody P. set (R := product_error _ _) in *. clearbody R. clear - HM HA H. qlra. }
  assert (Hm : rounds (val (rmul (x i) (z i))) (val (x i) * val (z i))) by (apply ro_mul; apply ra_fin; auto).
  destruct (used i) eqn:Eu.
  - unfold add_term. destruct (s i =? 1)%Z eqn:E1; [|destruct (s i =? -1)%Z eqn:E2].
    + apply (IH (Datatypes.S t) _ (S + val (x i) * val (z i)) (M + Qcabs (val (x i) * val (z i)))); auto.
      * intros; apply Hz; cbn; auto.
      * intros; apply Hk; cbn; auto.
      * apply near_add; auto.
      * apply ra_add; auto. eapply Qcle_lt_trans; [|exact Hb1]. apply (reach_step t c S M); auto.
    + apply (IH (Datatypes.S t) _ (S + - (val (x i) * val (z i))) (M + Qcabs (val (x i) * val (z i)))); auto.
      * intros; apply Hz; cbn; auto.
      * intros; apply Hk; cbn; auto.
      * rewrite n_sub_def. rewrite <- (Qcabs_opp (val (x i) * val (z i))). apply near_add; auto.
        intros _. destruct (ro_neg (rmul (x i) (z i))) as [E3 E4]. rewrite E3. apply rounds_neg. exact Hm.
      * rewrite n_sub_def. apply ra_add; auto; [apply ra_neg; auto|]. eapply Qcle_lt_trans; [|exact Hb1].
        rewrite <- (Qcabs_opp (val (x i) * val (z i))). apply (reach_step t c S M); auto.
        destruct (ro_neg (rmul (x i) (z i))) as [E3 E4]. rewrite E3. apply rounds_neg. exact Hm.
    + apply (IH (Datatypes.S t) _ S (M + Qcabs (val (x i) * val (z i)))); auto.
      * intros; apply Hz; cbn; auto.
      * intros; apply Hk; cbn; auto.
      * apply (near_grow _ _ _ M); auto. set (P := Qcabs (val (x i) * val (z i))) in *. clearbody P. clear - HA. qlra.
  - apply (IH (Datatypes.S t) _ S (M + Qcabs (val (x i) * val (z i)))); auto.
    * intros; apply Hz; cbn; auto.
    * intros; apply Hk; cbn; auto.
    * apply (near_grow _ _ _ M); auto. set (P := Qcabs (val (x i) * val (z i))) in *. clearbody P. clear - HA. qlra.
Qed.

(** The recursive algorithm. *)
Lemma okay_alpha n (x : N -> F) : (forall j, (j < pow2 n)%N -> okay (x j)) -> forall j, (j < pow2 n)%N -> okay (alpha x j).
Proof. intros Hx j Hj. unfold alpha. destruct (par j); cbn; auto. apply ra_neg; auto. Qed.
Lemma pair_small (a b P Q R e u va vb ga gb B : Qc) : 0 <= u -> 0 <= e -> 0 <= P -> 0 <= Q -> 0 <= a -> 0 <= b ->
  (1 + u) * (a + b) + u * (P + Q) + e <= R -> P + Q + R < B ->
  P + a < B /\ Q + b < B /\ (Qcabs (va - ga) <= a -> Qcabs (vb - gb) <= b -> Qcabs ga <= P -> Qcabs gb <= Q -> Qcabs (va + vb) < B).
Proof.
  intros Hu He HP HQ Ha Hb HR HB.
  assert (U1 : 0 <= u * (a + b)) by (apply qmul_pos; auto; clear - Ha Hb; qlra).
  assert (U2 : 0 <= u * (P + Q)) by (apply qmul_pos; auto; clear - HP HQ; qlra).
  set (v := u * (P + Q)) in *. clearbody v. set (w := u * (a + b)) in *.
  replace ((1 + u) * (a + b)) with (a + b + w) in HR by (unfold w; ring). clearbody w.
  split; [clear - HP HQ Ha Hb HR HB U1 U2 He; qlra|]. split; [clear - HP HQ Ha Hb HR HB U1 U2 He; qlra|]. intros Na Nb Ga Gb.
  replace (va + vb) with ((va - ga) + ga + ((vb - gb) + gb)) by ring.
  eapply Qcle_lt_trans; [apply Qcabs_triangle|]. pose proof (Qcabs_triangle (va - ga) ga) as T1. pose proof (Qcabs_triangle (vb - gb) gb) as T2.
  clear - T1 T2 Na Nb Ga Gb HR HB U1 U2 He. qlra.
Qed.
Lemma fwp_kept n : forall (x y : N -> F) k, (k < pow2 n)%N -> (forall j, (j < pow2 n)%N -> okay (x j)) -> (forall j, (j < pow2 n)%N -> okay (y j)) ->
  sumI n (fun j => Qcabs (val (x j)) * Qcabs (val (y (N.lxor j k)))) + tree_error n (sumI n (fun j => Qcabs (val (x j)) * Qcabs (val (y (N.lxor j k))))) < big -> okay (fwp n x y k).
Proof.
  pose proof ro_u as Hu. pose proof ro_eta as He.
  induction n as [|n IH]; intros x y k Hk Kx Ky Hb.
  - unfold pow2 in Hk. assert (k = 0%N) as -> by (cbn in Hk; lia). cbn [fwp]. apply ra_mul; [apply Kx|apply Ky|]; try (unfold pow2; cbn; lia).
    rewrite !(sumI_O (T := Qc)) in Hb. change (N.lxor 0 0) with 0%N in Hb. rewrite Qcabs_Qcmult. eapply Qcle_lt_trans; [|exact Hb].
    set (Q := Qcabs (val (x 0%N)) * Qcabs (val (y 0%N))). assert (HQ : 0 <= Q) by (apply qmul_pos; apply Qcabs_nonneg).
    pose proof (tree_error_pos 0 Q HQ) as HT. set (E := tree_error 0 Q) in *. clearbody Q E. clear - HT. qlra.
  - assert (HL : forall i, (i < pow2 n)%N -> (i < pow2 (S n))%N) by (intros i Hi; rewrite pow2_S; lia).
    assert (HH : forall i, (i < pow2 n)%N -> (pow2 n + i < pow2 (S n))%N) by (intros i Hi; rewrite pow2_S; lia).
    destruct (index_split n k Hk) as [Hk'|(k' & Hk' & ->)].
    + rewrite fwp_low by auto. apply IH; auto. eapply Qcle_lt_trans; [|exact Hb]. apply Qcplus_le_compat; [apply psum_low; auto|].
      apply tree_error_mono; [apply psum_pos|apply psum_low; auto].
    + rewrite fwp_high.  rewrite psum_high in Hb by auto.
      destruct (pair_small _ _ _ _ _ _ _ (val (fwp n (up n x) y k')) (val (fwp n (alpha x) (up n y) k'))
        (gp n 0 (ones n) (fun j => val (up n x j)) (fun j => val (y j)) k') (gp n 0 (ones n) (fun j => val (alpha x j)) (fun j => val (up n y j)) k') _ Hu He
        (psum_pos n (up n x) y k') (psum_pos n (alpha x) (up n y) k')
        (tree_error_pos n _ (psum_pos n (up n x) y k')) (tree_error_pos n _ (psum_pos n (alpha x) (up n y) k')) (tree_error_step n _ _) Hb) as (B1 & B2 & B3).
      assert (Ka : okay (fwp n (up n x) y k')) by (apply IH; auto; intros j Hj; apply Kx; auto).
      assert (Kb : okay (fwp n (alpha x) (up n y) k')) by (apply IH; auto; [apply okay_alpha; auto|intros j Hj; apply Ky; auto]).
      apply ra_add; auto. apply B3; try apply gp_abs; apply fwp_near; auto; apply ra_fin; auto.
Qed.

Section Kind.
Context {S : Type} {St : Storage F S} {SL : StorageLaws F S}.
Lemma enum_kept n (x y : S) (p : N -> N) (s : N -> Z) : st_wf n x -> st_wf n y -> (forall i, (i < pow2 n)%N -> (p i < pow2 n)%N) ->
  (forall j, (j < pow2 n)%N -> okay (rd x j)) -> (forall j, (j < pow2 n)%N -> okay (rd y j)) ->
  reach (length (mv_coeff_enumerate x)) (sumI n (fun i => Qcabs (val (rd x i)) * Qcabs (val (rd y (p i))))) < big ->
  okay (fold_left (fun c i => if existsb (N.eqb (p i)) (map fst (mv_coeff_enumerate y)) then add_term (s i) c (rmul (rd x i) (rd y (p i))) else c)
    (map fst (mv_coeff_enumerate x)) r0).
Proof.
  intros Hx Hy Hp Kx Ky Hb. pose proof (st_enum_ok n x Hx) as Ex. pose proof (st_enum_ok n y Hy) as (_ & _ & Ey).
  assert (Ex' : enum_of n (rd x) (fun _ => true) (st_enum x)).
  { destruct Ex as (H1 & H2 & H3). split; [exact H1|]. split.
    - intros i c Hi. rewrite (rd_coef n) by (auto; apply (H2 i c Hi)). apply H2; auto.
    - intros i Hi _. rewrite (rd_coef n) by auto. apply H3; auto. }
  apply (terms_kept (map fst (st_enum x)) (fun i => existsb (N.eqb (p i)) (map fst (st_enum y))) s (rd x) (fun i => rd y (p i)) 0 r0 0 0).
  - intros j Hj Hi. apply in_map_iff in Hi. destruct Hi as ([j' c] & <- & Hi). apply Ex in Hi. cbn [fst] in *. destruct Hi as (Hi & _).
    assert (Hl : (p j' < pow2 n)%N) by (apply Hp; auto).
    destruct (ris0 (rd y (p j'))) eqn:E0; [apply n_is0_spec in E0; rewrite E0; apply ro_0|].
    exfalso. apply not_true_iff_false in Hj. apply Hj. apply existsb_exists. exists (p j'). split; [|apply N.eqb_refl].
    apply in_map_iff. exists (p j', st_coef y (p j')). split; [reflexivity|]. apply Ey; auto.
    rewrite <- (rd_coef n) by auto. intros E. apply n_is0_spec in E. congruence.
  - intros j Hi. apply in_map_iff in Hi. destruct Hi as ([j' c] & <- & Hi). apply Ex in Hi. cbn [fst]. destruct Hi as (Hi & _).
    split; [apply Kx; auto|apply Ky, Hp; auto].
  - exact near_0.
  - exact ra_0.
  - rewrite map_length, Nat.add_0_l, Qcplus_0_l.
    rewrite (enum_sumQ n (rd x) (st_enum x) (fun i v => Qcabs v * Qcabs (val (rd y (p i)))) Ex'); [exact Hb|].
    intros i. rewrite qabs0. apply Qcmult_0_l.
Qed.
Lemma ordered_kept q n (x y : S) k : st_wf n x -> st_wf n y -> (k < pow2 n)%N ->
  (forall j, (j < pow2 n)%N -> okay (rd x j)) -> (forall j, (j < pow2 n)%N -> okay (rd y j)) ->
  reach (length (mv_coeff_enumerate x)) (sumI n (fun i => Qcabs (val (rd x i)) * Qcabs (val (rd y (N.lxor i k))))) < big ->
  okay (ordered_product q n (map fst (mv_coeff_enumerate x)) (fun j => existsb (N.eqb j) (map fst (mv_coeff_enumerate y))) (rd x) (rd y) k).
Proof.
  intros Hx Hy Hk Kx Ky Hb.
  exact (enum_kept n x y (fun i => N.lxor i k) (fun i => csign q n i (N.lxor i k)) Hx Hy (fun i Hi => lxor_lt i k n Hi Hk) Kx Ky Hb).
Qed.
End Kind.
End Sums.

Section Api.
Context {F : Type} {RF : RingOps F} {DF : DivOps F} {V : RoundOps F} {RL : RoundLaws F} {W : NumLaws F} {G : RangeOps F} {GL : RangeLaws F} {m : Mode} {H : HashOrder}.
Variable sg : list tok.
Variable A : algebra.
Hypothesis D : declared sg A.
Variable k : kind.
Variables x y : store k F.
Hypothesis (Hx : valid A x) (Hy : valid A y).
Hypothesis (Kx : all_okay A x) (Ky : all_okay A y).
Local Notation d := (a_dim A).

Theorem mul_kept : exists z : store k F, mv_mul A x y = Ok z /\ valid A z /\
  forall i, (i < 2 ^ N.of_nat d)%N ->
  let P := sumI d (fun j => Qcabs (val (rd x j)) * Qcabs (val (rd y (N.lxor j i)))) in
  P + product_error (length (mv_coeff_enumerate x)) P < big ->
  okay (rd z i) /\ Qcabs (val (rd z i) - spec_mul (sq sg) d (fun j => val (rd x j)) (fun j => val (rd y j)) i) <= product_error (length (mv_coeff_enumerate x)) P.
Proof.
  destruct (mul_seq A sg D x y Hx Hy) as (z & E & Hz & Hc). exists z. split; [exact E|]. split; [exact Hz|]. intros i Hi P Hb.
  assert (Er : rd z i = ordered_product (sq sg) d (map fst (mv_coeff_enumerate x)) (fun j => existsb (N.eqb j) (map fst (mv_coeff_enumerate y))) (rd x) (rd y) i)
    by (unfold rd at 1; rewrite Hc by exact Hi; reflexivity).
  assert (Hk : okay (rd z i)) by (rewrite Er; apply ordered_kept; auto).
  split; [exact Hk|]. pose proof (ra_fin _ Hk) as Hf. rewrite Er in *. apply ordered_near; auto.
Qed.
Theorem wedge_kept : exists z : store k F, naive_wedge A x y = Ok z /\ valid A z /\
  forall i, (i < 2 ^ N.of_nat d)%N ->
  let P := sumI d (fun j => Qcabs (val (rd x j)) * Qcabs (val (rd y (N.lxor j i)))) in
  P + product_error (length (mv_coeff_enumerate x)) P < big ->
  okay (rd z i) /\ Qcabs (val (rd z i) - spec_mul q0 d (fun j => val (rd x j)) (fun j => val (rd y j)) i) <= product_error (length (mv_coeff_enumerate x)) P.
Proof.
  destruct (wedge_seq A sg D x y Hx Hy) as (z & E & Hz & Hc). exists z. split; [exact E|]. split; [exact Hz|]. intros i Hi P Hb.
  assert (Er : rd z i = ordered_product q0 d (map fst (mv_coeff_enumerate x)) (fun j => existsb (N.eqb j) (map fst (mv_coeff_enumerate y))) (rd x) (rd y) i)
    by (unfold rd at 1; rewrite Hc by exact Hi; reflexivity).
  assert (Hk : okay (rd z i)) by (rewrite Er; apply ordered_kept; auto).
  split; [exact Hk|]. pose proof (ra_fin _ Hk) as Hf. rewrite Er in *. apply ordered_near; auto.
Qed.

Lemma gives_okay {S} {St : Storage F S} {SL : StorageLaws F S} (r : res S) g (B : N -> Prop) : gives A r g ->
  (forall i, (i < pow2 d)%N -> B i -> okay (g i)) -> exists z, r = Ok z /\ valid A z /\ forall i, (i < pow2 d)%N -> B i -> okay (rd z i).
Proof.
  intros (z & E & Hz & Hc) Hg. exists z. split; [exact E|]. split; [exact Hz|]. intros i Hi.
  assert (Er : rd z i = g i) by (unfold rd; rewrite Hc by exact Hi; reflexivity). rewrite Er. auto.
Qed.
Lemma reach_big t P : (t <= 2 ^ d)%nat -> 0 <= P -> P + product_error (2 ^ d) P < big -> reach t P < big.
Proof. intros Ht HP Hb. eapply Qcle_lt_trans; [|exact Hb]. apply (reach_mono t (2 ^ d)); auto. apply Qcle_refl. Qed.
Lemma tree_big P : 0 <= P -> P + product_error (2 ^ d) P < big -> P + tree_error d P < big.
Proof. intros HP Hb. eapply Qcle_lt_trans; [|exact Hb]. apply Qcplus_le_compat; [apply Qcle_refl|]. apply tree_error_le; auto. Qed.

(** The wedge and the meet as the storages offer them. *)
Theorem kwedge_kept : k <> KQuat -> exists z : store k F, k_wedge k A x y = Ok z /\ valid A z /\
  forall i, (i < 2 ^ N.of_nat d)%N ->
  (let P := sumI d (fun j => Qcabs (val (rd x j)) * Qcabs (val (rd y (N.lxor j i)))) in P + product_error (2 ^ d) P < big) -> okay (rd z i).
Proof.
  intros HK.
  assert (Gen : exists z : store k F, naive_wedge A x y = Ok z /\ valid A z /\
  forall i, (i < 2 ^ N.of_nat d)%N ->
  (let P := sumI d (fun j => Qcabs (val (rd x j)) * Qcabs (val (rd y (N.lxor j i)))) in P + product_error (2 ^ d) P < big) -> okay (rd z i)).
  { eapply gives_okay; [apply (wedge_seq A sg D x y Hx Hy)|]. intros i Hi Hb. apply ordered_kept; auto. apply reach_big; auto; [exact (enum_len A x Hx)|apply psum_pos]. }
  destruct k; [|exact Gen|congruence]. cbn [k_wedge]. destruct (Nat.lt_ge_cases d 6) as [H6|H6].
  - unfold dense_wedge. destruct (Nat.ltb_spec d 6); [exact Gen|lia].
  - eapply (gives_okay (dense_wedge A x y : res (store KDense F))); [apply (dense_wedge_fwp A x y); auto|]. intros i Hi Hb. apply fwp_kept; auto. apply tree_big; auto. apply psum_pos.
Qed.
Theorem kmeet_kept : k <> KQuat -> exists z : store k F, k_meet k A x y = Ok z /\ valid A z /\
  forall i, (i < 2 ^ N.of_nat d)%N ->
  (let P := sumI d (fun j => Qcabs (val (rd x j)) * Qcabs (val (rd y (2 ^ N.of_nat d - 1 - N.lxor j i)%N))) in P + product_error (2 ^ d) P < big) -> okay (rd z i).
Proof.
  intros HK.
  assert (Gen : exists z : store k F, naive_meet A x y = Ok z /\ valid A z /\
  forall i, (i < 2 ^ N.of_nat d)%N ->
  (let P := sumI d (fun j => Qcabs (val (rd x j)) * Qcabs (val (rd y (2 ^ N.of_nat d - 1 - N.lxor j i)%N))) in P + product_error (2 ^ d) P < big) -> okay (rd z i)).
  { eapply gives_okay; [apply (meet_seq A sg D x y Hx Hy)|]. intros i Hi Hb. unfold meet_sum.
    apply (enum_kept d x y (fun j => cpl A (N.lxor j i)) (fun j => sign_i8 (P_MV.msign A j (cpl A (N.lxor j i))))); auto; [intros; apply cpl_lt|].
    replace (sumI d (fun j => Qcabs (val (rd x j)) * Qcabs (val (rd y (cpl A (N.lxor j i)))))) with (sumI d (fun j => Qcabs (val (rd x j)) * Qcabs (val (rd y (2 ^ N.of_nat d - 1 - N.lxor j i)%N)))).
    - apply reach_big; auto; [exact (enum_len A x Hx)|]. apply qI_pos; intros; apply qmul_pos; apply Qcabs_nonneg.
    - apply sumI_ext. intros j Hj. rewrite cpl_eq by (auto using lxor_lt). reflexivity. }
  destruct k; [|exact Gen|congruence]. cbn [k_meet]. destruct (Nat.lt_ge_cases d 6) as [H6|H6].
  - unfold dense_meet. destruct (Nat.ltb_spec d 6); [exact Gen|lia].
  - eapply (gives_okay (dense_meet A x y : res (store KDense F))); [apply (dense_meet_fwp A sg D x y); auto|]. intros i Hi Hb. unfold fundual.
    assert (Kd : forall (u : N -> F), (forall j, (j < pow2 d)%N -> okay (u j)) -> forall j, (j < pow2 d)%N -> okay (fdual A u j)).
    { intros u Hu j Hj. unfold fdual. destruct (beta d j (cpl A j)); cbn; [apply ra_neg|]; apply Hu, cpl_lt. }
    assert (okay (fwp d (fdual A (rd x)) (fdual A (rd y)) (cpl A i))).
    { apply fwp_kept; [apply cpl_lt|apply Kd; exact Kx|apply Kd; exact Ky|]. rewrite msum_dual by auto. apply tree_big; auto. apply qI_pos; intros; apply qmul_pos; apply Qcabs_nonneg. }
    destruct (beta d (cpl A i) i); cbn; auto. apply ra_neg; auto.
Qed.
End Api.
