(** Orthogonal frames are carried into each other by products of vectors: lemmas behind C89. *)
From Verif Require Export P_Sandwich5.
Local Open Scope nat_scope.

Section Frames.
Context {T : Type} {RO : RingOps T} {L : RingLaws T} {CL : CommLaws T} {DV : DivOps T} {F : FieldLaws T}.
Add Ring TRFr : comm_ring_theory.
Variables (d : nat) (Q P : N).
Local Notation gm := (gp d Q P).
Local Notation dot := (dotv d Q P).
Local Notation ch := (chain d Q P).
Local Open Scope rg_scope.
Hypothesis two : (1 + 1 : T) <> 0.
Implicit Types x y v w : N -> T.

Definition fscale (t : T) x : N -> T := fun i => t * x i.
Lemma dot_feq x x' y y' : feq d x x' -> feq d y y' -> dot x y = dot x' y'.
Proof. intros Ex Ey. unfold dotv. apply gp_ext; auto using pow2_pos. Qed.
Lemma dot_scale_l t x y : dot (fscale t x) y = t * dot x y.
Proof. apply gp_scale_l. Qed.
Lemma dot_scale_r t x y : dot x (fscale t y) = t * dot x y.
Proof.
  unfold dotv, fscale. rewrite (gp_ext d Q P x x _ (fun i => y i * t)) by (auto using feq_refl, pow2_pos; intros i Hi; ring). rewrite gp_scale_r. ring.
Qed.
Lemma dot_add_l x x' y : dot (fadd x x') y = dot x y + dot x' y. Proof. apply gp_add_l. Qed.
Lemma dot_add_r x y y' : dot x (fadd y y') = dot x y + dot x y'. Proof. apply gp_add_r. Qed.
Lemma dot_sub_l x x' y : dot (fsub x x') y = dot x y - dot x' y. Proof. apply gp_sub_l. Qed.
Lemma dot_sub_r x y y' : dot x (fsub y y') = dot x y - dot x y'. Proof. apply gp_sub_r. Qed.
Lemma homog_fscale r t x : homog d r x -> homog d r (fscale t x).
Proof. apply homog_scale. Qed.
Lemma homog_fadd r x y : homog d r x -> homog d r y -> homog d r (fadd x y).
Proof. intros Hx Hy i Hi Hr. unfold fadd. rewrite Hx, Hy by auto. ring. Qed.
Lemma au_dot f x y : auto d Q P f -> dot (f x) (f y) = dot x y.
Proof. intros Hf. unfold dotv. rewrite <- (au_mul d Q P f Hf x y 0%N (pow2_pos d)). apply (au_scal d Q P two f Hf). Qed.
(** The sandwich by a vector w with 2 (w.y) = w.w. *)
Lemma psi_half w y : homog d 1 w -> homog d 1 y -> dot w w <> 0 -> dot w y + dot w y = dot w w ->
  feq d (psi d Q P w (1 / dot w w) y) (fsub w y).
Proof.
  intros Hw Hy Hn E k Hk. rewrite (psi_vec d Q P w _ Hw (div_mul _ _ Hn) y Hy k Hk). unfold fsub. f_equal.
  transitivity (1 / dot w w * (dot w y + dot w y) * w k); [ring|]. rewrite E, div_mul by auto. ring.
Qed.
Definition fsgn (b : bool) x : N -> T := fscale (sgb b 1) x.
Lemma sgn_sq b : sgb b 1 * sgb b 1 = (1 : T).
Proof. destruct b; cbn [sgb]; ring. Qed.
Lemma psi_sgn w c b x : feq d (psi d Q P w c (fsgn b x)) (fsgn b (psi d Q P w c x)).
Proof. intros k Hk. apply (psi_scale d Q P w c (sgb b 1) x k Hk). Qed.
Lemma sgn_feq b x y : feq d x y -> feq d (fsgn b x) (fsgn b y).
Proof. intros E k Hk. unfold fsgn, fscale. rewrite E by auto. reflexivity. Qed.
Lemma sgn_neg b x : feq d (fsgn b (fneg x)) (fsgn (negb b) x).
Proof. intros k Hk. unfold fsgn, fscale, fneg. destruct b; cbn [sgb negb]; ring. Qed.

Lemma frames n (U V : nat -> N -> T) :
  (forall i, (i < n)%nat -> homog d 1 (U i) /\ homog d 1 (V i) /\ dot (U i) (U i) = dot (V i) (V i) /\ dot (V i) (V i) <> 0) ->
  (forall i j, (i < n)%nat -> (j < n)%nat -> i <> j -> dot (U i) (U j) = 0 /\ dot (V i) (V j) = 0) ->
  exists ws, vecs d ws /\ Forall (fun w => dot w w <> 0) ws /\ (length ws <= 2 * n)%nat /\
    forall i, (i < n)%nat -> feq d (ch ws (U i)) (fsgn (Nat.odd (length ws)) (V i)).
Proof.
  induction n as [|n IH]; intros H1 H2.
  - exists []. repeat split; auto; try constructor. intros i Hi. lia.
  - destruct IH as (ws & Hw & Hq & Hl & E).
    { intros i Hi. apply H1. lia. } { intros i j Hi Hj. apply H2; lia. }
    pose proof (chain_auto d Q P ws Hw Hq) as Hf. set (b := Nat.odd (length ws)) in *.
    set (y := fsgn b (ch ws (U n))). set (v := V n). destruct (H1 n ltac:(lia)) as (HU & HV & Euv & Hn0). fold v in HV, Euv, Hn0.
    assert (Hy : homog d 1 y) by (apply homog_fscale, (au_vec d Q P _ Hf); auto).
    assert (Ey : feq d (ch ws (U n)) (fsgn b y)).
    { intros k Hk. unfold y, fsgn, fscale. transitivity (sgb b 1 * sgb b 1 * ch ws (U n) k); [rewrite sgn_sq|]; ring. }
    assert (Dy : dot y y = dot v v).
    { unfold y, fsgn. rewrite dot_scale_l, dot_scale_r, au_dot by auto. rewrite Euv. transitivity (sgb b 1 * sgb b 1 * dot v v); [|rewrite sgn_sq]; ring. }
    assert (Do : forall i, (i < n)%nat -> dot y (V i) = 0 /\ dot v (V i) = 0 /\ homog d 1 (V i)).
    { intros i Hi. destruct (H2 n i ltac:(lia) ltac:(lia) ltac:(lia)) as [G1 G2]. split; [|split; [exact G2|apply H1; lia]].
      transitivity (dot (ch ws (U n)) (fsgn b (V i))).
      - unfold y, fsgn. rewrite dot_scale_l, dot_scale_r. reflexivity.
      - rewrite <- (dot_feq _ _ _ _ (feq_refl _ _) (E i Hi)). rewrite au_dot by auto. exact G1. }
    assert (Dvy : dot v y = dot y v) by (apply dotv_comm; auto).
    set (p := fsub y v). set (q := fadd y v).
    assert (Hp : homog d 1 p) by (apply homog_sub; auto). assert (Hqv : homog d 1 q) by (apply homog_fadd; auto).
    destruct (ris0 (dot p p)) eqn:Ep.
    + apply is0_spec in Ep.
      assert (Eq0 : dot q q <> 0).
      { intros Eq0. apply Hn0. apply (cancel2 two). apply (cancel2 two).
        transitivity (dot p p + dot q q); [|rewrite Ep, Eq0; ring]. unfold p, q. rewrite dot_sub_l, !dot_sub_r, dot_add_l, !dot_add_r, Dy, Dvy. ring. }
      exists (v :: q :: ws). split; [constructor; auto; constructor; auto|]. split; [constructor; auto|]. split; [cbn [length]; lia|].
      intros i Hi. cbn [length chain]. rewrite Nat.odd_succ, Nat.even_succ. fold b.
      destruct (Nat.eq_dec i n) as [->|Hne].
      * eapply feq_trans; [apply psi_feq, psi_feq, Ey|]. eapply feq_trans; [apply psi_feq, psi_sgn|]. eapply feq_trans; [apply psi_sgn|]. apply sgn_feq.
        eapply feq_trans; [|apply (psi_self d Q P v (1 / dot v v) HV (div_mul _ _ Hn0))]. apply psi_feq.
        eapply feq_trans; [apply psi_half; auto|intros k Hk; unfold q, fsub, fadd; ring].
        unfold q. rewrite !dot_add_l, !dot_add_r, Dy, Dvy. ring.
      * assert (Hi' : (i < n)%nat) by lia. destruct (Do i Hi') as (G1 & G2 & G3).
        eapply feq_trans; [apply psi_feq, psi_feq, (E i Hi')|]. eapply feq_trans; [apply psi_feq, psi_sgn|]. eapply feq_trans; [apply psi_sgn|]. apply sgn_feq.
        eapply feq_trans; [apply psi_feq, (psi_orth d Q P q _ Hqv (div_mul _ _ Eq0) (V i) G3)|].
        { unfold q. rewrite dot_add_l, G1, G2. ring. }
        eapply feq_trans; [apply (psi_orth d Q P v _ HV (div_mul _ _ Hn0))|].
        { intros k Hk Hr. unfold fneg. rewrite G3 by auto. ring. }
        { unfold dotv. rewrite gp_neg_r. fold (dot v (V i)). rewrite G2. ring. }
        intros k Hk. unfold fneg. ring.
    + assert (Ep0 : dot p p <> 0) by (intros E0; apply is0_spec in E0; congruence).
      exists (p :: ws). split; [constructor; auto|]. split; [constructor; auto|]. split; [cbn [length]; lia|].
      intros i Hi. cbn [length chain]. rewrite Nat.odd_succ, <- Nat.negb_odd. fold b.
      destruct (Nat.eq_dec i n) as [->|Hne].
      * eapply feq_trans; [apply psi_feq, Ey|]. eapply feq_trans; [apply psi_sgn|]. eapply feq_trans; [|apply sgn_neg]. apply sgn_feq.
        eapply feq_trans; [apply psi_half; auto|intros k Hk; unfold p, fsub, fneg; fold v; ring].
        unfold p. rewrite !dot_sub_l, !dot_sub_r, Dy, Dvy. ring.
      * assert (Hi' : (i < n)%nat) by lia. destruct (Do i Hi') as (G1 & G2 & G3).
        eapply feq_trans; [apply psi_feq, (E i Hi')|]. eapply feq_trans; [apply psi_sgn|]. eapply feq_trans; [|apply sgn_neg]. apply sgn_feq.
        apply (psi_orth d Q P p _ Hp (div_mul _ _ Ep0) (V i) G3). unfold p. rewrite dot_sub_l, G1, G2. ring.
Qed.
End Frames.
