(** Lemmas behind C81. *)
From Verif Require Export P_Props6.
Local Open Scope nat_scope.

Lemma popcount_lor d i j : (i < pow2 d)%N -> (j < pow2 d)%N -> popcount i + popcount j <= d + popcount (N.land i j).
Proof.
  intros Hi Hj.
  assert (Hl : (N.land i j < pow2 d)%N).
  { apply lt_pow2_bits. intros b Hb. rewrite N.land_spec, (testbit_high i d b) by auto. reflexivity. }
  pose proof (popcount_lxor i j) as Hp.
  pose proof (popcount_lxor (N.lxor i j) (N.land i j)) as Hp2.
  assert (E0 : N.land (N.lxor i j) (N.land i j) = 0%N) by (apply N.bits_inj; intros b; rewrite !N.land_spec, N.lxor_spec, N.bits_0; destruct (N.testbit i b), (N.testbit j b); reflexivity).
  rewrite E0 in Hp2. change (popcount 0) with 0 in Hp2.
  pose proof (popcount_le d _ (lxor_lt _ _ d (lxor_lt i j d Hi Hj) Hl)). lia.
Qed.
Lemma popcount_land_le i j : popcount (N.land i j) <= popcount i.
Proof.
  pose proof (popcount_lxor i (N.land i j)) as Hp. replace (N.land i (N.land i j)) with (N.land i j) in Hp by (rewrite N.land_assoc, N.land_diag; auto). lia.
Qed.

Section GP.
Context {T : Type} {RO : RingOps T} {L : RingLaws T} {m : Mode} {H : HashOrder}.

Lemma gp_grades d Q P r s (x y : N -> T) k : homog d r x -> homog d s y -> (k < pow2 d)%N ->
  (forall t, t <= r -> t <= s -> r + s <= d + t -> popcount k + 2 * t <> r + s) -> gp d Q P x y k = r0.
Proof.
  intros Hx Hy Hk Hn. apply sumI_0. intros i Hi. set (j := N.lxor i k).
  assert (Hj : (j < pow2 d)%N) by (apply lxor_lt; auto).
  destruct (Nat.eq_dec (popcount i) r) as [E1|E1]; [|rewrite (Hx i) by auto; rewrite mul_0_l, act_0; auto].
  destruct (Nat.eq_dec (popcount j) s) as [E2|E2]; [|rewrite (Hy j) by auto; rewrite mul_0_r, act_0; auto].
  exfalso. pose proof (popcount_lxor i j) as Hp. assert (E : N.lxor i j = k) by (unfold j; apply lxor_cancel). rewrite E in Hp.
  apply (Hn (popcount (N.land i j))).
  - rewrite <- E1. apply popcount_land_le.
  - rewrite <- E2, N.land_comm. apply popcount_land_le.
  - rewrite <- E1, <- E2. apply popcount_lor; auto.
  - lia.
Qed.
Lemma c81_grades (k : kind) sg A (D : declared sg A) (x y : store k T) r s : valid A x -> valid A y -> of_grade A r x -> of_grade A s y ->
  exists z, mv_mul A x y = Ok z /\ valid A z /\
  forall i, (i < 2 ^ N.of_nat (a_dim A))%N -> (forall t, t <= r -> t <= s -> r + s <= a_dim A + t -> popcount i + 2 * t <> r + s) -> rd z i = r0.
Proof.
  intros Hx Hy Gx Gy. destruct (h_mul A sg D x y _ _ Hx Hy (feq_refl _ _) (feq_refl _ _)) as (z & Ez & Vz & Fz).
  exists z. split; [exact Ez|]. split; [exact Vz|]. intros i Hi Hn. unfold rd. rewrite Fz by auto. apply (gp_grades (a_dim A) _ _ r s); auto.
Qed.
(** Vectors: a scalar plus a bivector, which is the wedge. *)
Lemma c81_vectors (k : kind) sg A (D : declared sg A) (v w : store k T) : k <> KQuat -> valid A v -> valid A w -> of_grade A 1 v -> of_grade A 1 w ->
  agree A (mv_mul A v w) (p <- mv_mul A v w ;; s <- mv_grade_extract A p 0 ;; b <- k_wedge k A v w ;; mv_add s b).
Proof.
  intros Hk Hv Hw Gv Gw. ag D. intros i Hi. unfold fadd. rewrite (gp_top_grade (a_dim A) (a_imag A) (a_proj A) 1 1) by auto.
  destruct (Nat.eqb_spec (popcount i) 0) as [E0|E0].
  - rewrite E0. cbn [Nat.eqb Nat.add]. symmetry. apply add_0_r.
  - destruct (Nat.eqb_spec (popcount i) (1 + 1)) as [E2|E2]; [symmetry; apply add_0_l|].
    rewrite add_0_l. apply (gp_grades (a_dim A) _ _ 1 1); auto. intros t H1 _ _. cbn [Nat.add] in E2. lia.
Qed.
End GP.
