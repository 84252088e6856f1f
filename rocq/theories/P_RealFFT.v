(** Property C47: the transform without complexification. *)
From Verif Require Export P_HalfSpin.
Local Open Scope nat_scope.

Lemma split_len h : length (split_sig h) = 2 * h.
Proof. induction h; cbn [split_sig length]; lia. Qed.
Lemma split_nonnull h : nonnull (split_sig h) = 2 * h.
Proof. unfold nonnull. induction h; cbn [split_sig filter length]; lia. Qed.
Lemma split_sq h k : k < h -> sq (split_sig h) (2 * k) = 1%Z /\ sq (split_sig h) (S (2 * k)) = (-1)%Z.
Proof.
  revert k. induction h as [|h IH]; intros k Hk; [lia|]. destruct k as [|k]; [split; reflexivity|].
  replace (2 * S k) with (S (S (2 * k))) by lia. apply (IH k). lia.
Qed.
Lemma split_trait : forall sg, impl_split_signature sg = true <-> exists h, 1 <= h /\ sg = split_sig h.
Proof.
  assert (G : forall n sg, length sg <= n -> (impl_split_signature sg = true <-> exists h, 1 <= h /\ sg = split_sig h)).
  { induction n as [|n IH]; intros sg Hl.
    - destruct sg; [|cbn in Hl; lia]. split; [discriminate|]. intros (h & Hh & E). destruct h; [lia|discriminate E].
    - destruct sg as [|a [|b r]].
      + split; [discriminate|]. intros (h & Hh & E). destruct h; [lia|discriminate E].
      + split; [destruct a; discriminate|]. intros (h & Hh & E). destruct h; [lia|discriminate E].
      + destruct a; [|split; [discriminate|intros (h & Hh & E); destruct h; [lia|discriminate E]]..].
        destruct b; [split; [discriminate|intros (h & Hh & E); destruct h; [lia|discriminate E]]| |split; [discriminate|intros (h & Hh & E); destruct h; [lia|discriminate E]]].
        destruct r as [|c r].
        * split; auto. intros _. exists 1. split; auto.
        * cbn [length] in Hl. specialize (IH (c :: r) ltac:(cbn [length]; lia)). change (impl_split_signature (Tplus :: Tminus :: c :: r)) with (impl_split_signature (c :: r)). rewrite IH. split.
          -- intros (h & Hh & ->). exists (S h). split; [lia|reflexivity].
          -- intros (h & Hh & E). destruct h as [|h]; [lia|]. cbn [split_sig] in E. injection E as E. exists h. split; auto. destruct h; [discriminate E|lia]. }
  intros sg. apply (G (length sg)). lia.
Qed.

Section ClInto.
Context {T F : Type} {RT : RingOps T} {LT : RingLaws T} {RF : RingOps F} {LF : RingLaws F} {IC : IntoCplx T F} {FC : FromCplx T F} {CV : ConvLaws T F}.
Local Notation C := (cplx F).
Local Notation into := (@into_complex T F IC).
Lemma cl_into m : forall (x : N -> T) i j, cl m (fun t => into (x t)) i j = into (cl m x i j).
Proof.
  induction m as [|m IH]; intros x i j; cbn [cl]; auto.
  change (up (2 * m) (fun t => into (x t))) with (fun t => into (up (2 * m) x t)).
  change (up (S (2 * m)) (fun t => into (x t))) with (fun t => into (up (S (2 * m)) x t)).
  change (up (2 * m) (fun t => into (up (S (2 * m)) x t))) with (fun t => into (up (2 * m) (up (S (2 * m)) x) t)).
  unfold blk. destruct (i <? pow2 m)%N, (j <? pow2 m)%N; unfold malpha, madd, msub; rewrite !IH, ?into_sgb, ?into_add, ?into_sub; reflexivity.
Qed.
End ClInto.

Section Real.
Context {T : Type} {RT : RingOps T} {LT : RingLaws T} {DV : DivOps T} {md : Mode} {HO : HashOrder}.
Local Notation MV := (store KDense T).
Variables (h : nat) (A : algebra).
Local Notation sg := (split_sig h).
Hypothesis D : declared sg A.
Local Notation d := (a_dim A).
Local Notation rfft x := (mv_real_fft (x : arr T)).
Let Ed : d = 2 * h := eq_trans (declared_dim _ _ D) (split_len h).

Lemma split_mask : odd_mask h (a_imag A).
Proof.
  intros k Hk. pose proof (declared_metric _ _ D) as M. destruct (split_sq h k Hk) as (S1 & S2). split.
  - specialize (M (2 * k) ltac:(lia)). rewrite S1 in M. destruct (N.testbit (a_proj A) _); [discriminate|]. destruct (N.testbit (a_imag A) _); [discriminate|reflexivity].
  - specialize (M (S (2 * k)) ltac:(lia)). rewrite S2 in M. destruct (N.testbit (a_proj A) _); [discriminate|]. destruct (N.testbit (a_imag A) _); [reflexivity|discriminate].
Qed.
Lemma split_proj : a_proj A = 0%N.
Proof.
  rewrite (std_p A _ (declared_nn sg A D)), split_nonnull, Ed. apply N.ldiff_diag.
Qed.
Lemma split_gp (f g : N -> T) i j : (i < pow2 h)%N -> (j < pow2 h)%N -> cl h (gp d (a_imag A) (a_proj A) f g) i j = mmul h (cl h f) (cl h g) i j.
Proof. intros Hi Hj. rewrite split_proj, Ed. apply cl_mul; auto. apply split_mask. Qed.

Lemma real_ok (x : arr T) : arr_wf d x -> exists M, rfft x = Ok M /\ mrep h M (cl h (arr_coef x)).
Proof.
  intros (_ & _ & L). unfold mv_real_fft. destruct (clifft_nn_ok h (arr_data x)) as (M & E & HM); [rewrite L; f_equal; exact Ed|]. rewrite E. exists M. split; [reflexivity|exact HM].
Qed.
Lemma real_gives (r : res MV) f : gives A r f -> exists M, (z <- r ;; rfft z) = Ok M /\ mrep h M (cl h f).
Proof.
  intros (z & -> & Hz & H). cbn [bind]. destruct (real_ok z Hz) as (M & E & HM). exists M. split; [exact E|]. eapply mrep_ext; [exact HM|]. apply cl_ext. intros k Hk. rewrite <- Ed in Hk.
  pose proof (rd_coef d z k Hz Hk) as E1. unfold rd in E1. rewrite H in E1 by auto. symmetry. exact E1.
Qed.
Lemma real_gives1 (x : MV) : valid A x -> exists M, rfft x = Ok M /\ mrep h M (cl h (rd x)).
Proof.
  intros Hx. destruct (real_ok x Hx) as (M & E & HM). exists M. split; [exact E|]. eapply mrep_ext; [exact HM|]. apply cl_ext. intros k Hk. rewrite <- Ed in Hk. symmetry. exact (rd_coef d x k Hx Hk).
Qed.
Lemma c47_total (x : MV) : valid A x -> exists M, rfft x = Ok M /\ square_mat (2 ^ h) M.
Proof. intros Hx. destruct (real_gives1 x Hx) as (M & E & HM). exists M. split; [exact E|]. split; [|split]; apply HM. Qed.

Lemma c47_mul (x y : MV) : valid A x -> valid A y -> both_ok (X <- rfft x ;; Y <- rfft y ;; m_dot X Y) (z <- mv_mul A x y ;; rfft z).
Proof.
  intros Hx Hy. destruct (real_gives1 x Hx) as (X & -> & HX). destruct (real_gives1 y Hy) as (Y & -> & HY). cbn [bind].
  destruct (real_gives (mv_mul A x y) _ (g_mul_ok (St := KStorage KDense) (SL := KLaws KDense) A x y _ _ (declared_ok _ _ D) Hx Hy (fun i _ => eq_refl) (fun i _ => eq_refl))) as (Z & EZ & HZ).
  destruct (mrep_dot h X Y _ _ HX HY) as (P & EP & HP). exists P. split; [exact EP|]. etransitivity; [exact EZ|]. f_equal. eapply mrep_eq; [|exact HP]. eapply mrep_ext; [exact HZ|]. intros i j Hi Hj. apply split_gp; auto.
Qed.
Lemma c47_add (x y : MV) : valid A x -> valid A y -> exists X Y Z, rfft x = Ok X /\ rfft y = Ok Y /\ (z <- mv_add x y ;; rfft z) = Ok Z /\ entrywise2 radd X Y Z.
Proof.
  intros Hx Hy. destruct (real_gives1 x Hx) as (X & -> & HX). destruct (real_gives1 y Hy) as (Y & -> & HY).
  destruct (real_gives (mv_add x y) _ (g_add_ok (St := KStorage KDense) (SL := KLaws KDense) A x y _ _ Hx Hy (fun i _ => eq_refl) (fun i _ => eq_refl))) as (Z & EZ & HZ).
  exists X, Y, Z. split; [reflexivity|]. split; [reflexivity|]. split; [exact EZ|]. destruct HX as (X1 & X2 & X3 & X4), HY as (Y1 & Y2 & Y3 & Y4). pose proof HZ as (Z1 & Z2 & Z3 & Z4).
  unfold entrywise2. rewrite X1, X2, Y1, Y2, Z1, Z2. do 4 (split; [reflexivity|]). intros i j Hi Hj. rewrite (mis_get _ _ _ _ i j HZ Hi Hj). f_equal. rewrite X4, Y4 by auto. apply (cl_add h).
Qed.
Lemma c47_scale (x : MV) (t : T) : valid A x -> exists X Z, rfft x = Ok X /\ (z <- mv_scale A x t ;; rfft z) = Ok Z /\ entrywise1 (fun c => rmul c t) X Z.
Proof.
  intros Hx. destruct (real_gives1 x Hx) as (X & -> & HX). destruct (real_gives (mv_scale A x t) _ (g_scale A x t Hx)) as (Z & EZ & HZ).
  exists X, Z. split; [reflexivity|]. split; [exact EZ|]. destruct HX as (X1 & X2 & X3 & X4). pose proof HZ as (Z1 & Z2 & Z3 & Z4).
  unfold entrywise1. rewrite X1, X2, Z1, Z2. do 2 (split; [reflexivity|]). intros i j Hi Hj. rewrite (mis_get _ _ _ _ i j HZ Hi Hj). f_equal. rewrite X4 by auto. apply (cl_mul_r h).
Qed.
Let DOK : st_dim_ok (StorageLaws := KLaws KDense (T := T)) d.
Proof. pose proof (proj2 D). rewrite (declared_dim _ _ D). cbn. lia. Qed.
Lemma c47_one : exists M, (z <- (mv_one A : res MV) ;; rfft z) = Ok M /\ identity_mat (2 ^ h) M.
Proof.
  destruct (real_gives (mv_one A) _ (g_one (S := MV) (SL := KLaws KDense (T := T)) A DOK)) as (M & E & HM). exists M. split; [exact E|]. split; [split; [|split]; apply HM|].
  intros i j Hi Hj. rewrite (mis_get _ _ _ _ i j HM Hi Hj). f_equal. unfold nn. transitivity (cl h (del 0 (r1 : T)) (N.of_nat i) (N.of_nat j)); [|rewrite (cl_one h r1 (N.of_nat i) (N.of_nat j)) by (apply of_nat_lt; auto); destruct (Nat.eqb_spec i j) as [->|ne]; [rewrite N.eqb_refl; reflexivity|destruct (N.eqb_spec (N.of_nat i) (N.of_nat j)) as [e|]; [apply Nat2N.inj in e; contradiction|reflexivity]]].
  apply cl_ext; auto using of_nat_lt. intros k Hk. reflexivity.
Qed.

Section Iso.
Context {CT : CommLaws T} {FL : FieldLaws T}.
Hypothesis two : radd r1 r1 <> (r0 : T).
Lemma c47_inj (x y : MV) : valid A x -> valid A y -> rfft x = rfft y -> x = y.
Proof.
  intros Hx Hy E. destruct (real_ok x Hx) as (X & EX & HX). destruct (real_ok y Hy) as (Y & EY & HY). rewrite EX, EY in E. injection E as <-.
  pose proof (mrep_fun _ _ _ _ HX HY) as M. apply (arr_eq A x y Hx Hy). intros k Hk. rewrite Ed in Hk. destruct (has_half two) as (H1 & H2).
  rewrite <- (icl_cl _ H1 H2 h (arr_coef x) k Hk), <- (icl_cl _ H1 H2 h (arr_coef y) k Hk). apply icl_ext; auto.
Qed.
Lemma c47_onto (M : mat T) : square_mat (2 ^ h) M -> exists x : MV, valid A x /\ rfft x = Ok M.
Proof.
  intros (H1 & H2 & H3). set (X := fun i j => m_at M (N.to_nat i) (N.to_nat j)).
  assert (HM : mrep h M X). { pose proof (mis_self M H3) as Q. rewrite H1, H2 in Q. eapply mis_ext; [exact Q|]. intros i j _ _. unfold nn, X. rewrite !Nat2N.id. reflexivity. }
  set (x := mkArr d (map (fun i => icl h X (N.of_nat i)) (seq 0 (2 ^ d))) : arr T).
  assert (Hx : arr_wf d x). { split; [pose proof (proj2 D); rewrite (declared_dim _ _ D); lia|]. split; [reflexivity|]. cbn [arr_data x]. rewrite map_length, seq_length. reflexivity. }
  exists x. split; [exact Hx|]. destruct (real_ok x Hx) as (N & E & HN). rewrite E. f_equal. eapply mrep_eq; [exact HN|]. eapply mrep_ext; [exact HM|].
  destruct (has_half two) as (P1 & P2). eapply meq_trans; [apply meq_sym, (cl_icl _ P1 P2 h X)|]. apply cl_ext. intros k Hk. unfold arr_coef. cbn [arr_data x].
  rewrite <- Ed in Hk. apply to_nat_lt_pow2 in Hk. rewrite (nth_indep _ r0 (icl h X (N.of_nat 0))) by (rewrite map_length, seq_length; auto). rewrite (map_nth (fun i => icl h X (N.of_nat i))), seq_nth by auto. cbn [Nat.add]. rewrite N2Nat.id. reflexivity.
Qed.
End Iso.
End Real.

Section AgreesFft.
Context {T F : Type} {RT : RingOps T} {LT : RingLaws T} {RF : RingOps F} {LF : RingLaws F} {IC : IntoCplx T F} {FC : FromCplx T F} {CV : ConvLaws T F} {DV : DivOps T} {md : Mode} {HO : HashOrder}.
Local Notation MV := (store KDense T).
Variables (h : nat) (A : algebra).
Local Notation sg := (split_sig h).
Hypothesis D : declared sg A.
Hypothesis Hl : 2 * h < 63.
Lemma c47_fft (x : MV) : valid A x -> exists M X Z, mv_real_fft (x : arr T) = Ok M /\ mv_fft (F := F) A (x : arr T) = Ok X /\ fr_into_array2 X = Ok Z /\
  square_mat (2 ^ h) M /\ square_mat (2 ^ h) Z /\ forall i j, i < 2 ^ h -> j < 2 ^ h -> m_get Z i j = Ok (into_complex (m_at M i j)).
Proof.
  intros Hx. destruct (real_gives1 h A D x Hx) as (M & EM & HM). assert (Hl' : length sg < 63) by (rewrite split_len; auto). assert (Hnd : nonnull sg = length sg) by (rewrite split_len; apply split_nonnull).
  destruct (fft_gives (IC := IC) sg A D Hl' x _ Hx (fun i _ => eq_refl)) as (X & EX & HX).
  assert (Eh : half (nonnull sg) = h) by (rewrite split_nonnull; destruct (half_cases (2 * h)) as [(_ & ?)|(Q & _)]; [lia|rewrite Nat.even_mul in Q; discriminate]).
  destruct (rp_mat sg A D Hl' Hnd X _ HX) as (Z & EZ & HZ). rewrite Eh in HZ. exists M, X, Z. split; [exact EM|]. split; [exact EX|]. split; [unfold fr_into_array2; rewrite EZ; reflexivity|].
  split; [split; [|split]; apply HM|]. split; [split; [|split]; apply HZ|]. intros i j Hi Hj. rewrite (mis_get _ _ _ _ i j HZ Hi Hj). f_equal. rewrite (mis_at _ _ _ _ i j HM Hi Hj). unfold nn. rewrite <- cl_into.
  unfold hm. rewrite Eh. apply cl_ext; auto using of_nat_lt. intros k Hk. unfold phi at 1, pad. rewrite split_nonnull. destruct (N.ltb_spec k (pow2 (2 * h))); [|lia].
  replace (N.land k idx_mask) with (N.land k (a_imag A)).
  - exact (phi_inv ipn ipw (a_imag A) (fun t => into_complex (rd x t)) k ipn_ipw).
  - apply N.bits_inj. intros b. rewrite !N.land_spec. destruct (N.testbit k b) eqn:Eb; [|reflexivity]. cbn [andb].
    assert (Hb : (b < N.of_nat (2 * h))%N). { destruct (N.lt_ge_cases b (N.of_nat (2 * h))); auto. rewrite (testbit_high k (2 * h) b) in Eb by auto. discriminate. }
    rewrite <- (N2Nat.id b). set (q := N.to_nat b) in *. assert (q < 2 * h) by lia. rewrite mask_bit by lia. destruct (Nat.Even_or_Odd q) as [(e & ->)|(e & ->)].
    + rewrite Nat.odd_mul. apply (split_mask h A D e). lia.
    + rewrite Nat.add_1_r, Nat.odd_succ, Nat.even_mul. apply (split_mask h A D e). lia.
Qed.
End AgreesFft.
