(** C89 for the API. *)
From Verif Require Export P_Centre P_Det2 Spec_Frames.
Local Open Scope nat_scope.

Section Fun.
Context {T : Type} {RO : RingOps T} {L : RingLaws T} {CL : CommLaws T} {DV : DivOps T} {F : FieldLaws T}.
Variables (d : nat) (Q P : N).
Lemma psi_ext v v' (c : T) x y : feq d v v' -> feq d x y -> feq d (psi d Q P v c x) (psi d Q P v' c y).
Proof. intros Ev Ex k Hk. unfold psi. f_equal. apply gp_ext; auto. apply gp_feq; auto. Qed.
Lemma chain_ext ws ws' (x : N -> T) : Forall2 (feq d) ws ws' -> feq d (chain d Q P ws x) (chain d Q P ws' x).
Proof.
  induction 1 as [|w w' ws ws' E _ IH]; cbn [chain]; [apply feq_refl|]. rewrite (dot_feq d Q P w w' w w' E E). apply psi_ext; auto.
Qed.
End Fun.

Section API.
Context {T : Type} {RO : RingOps T} {L : RingLaws T} {CL : CommLaws T} {DV : DivOps T} {F : FieldLaws T} {m : Mode} {H : HashOrder}.
Variables (k : kind) (sg : list tok) (A : algebra).
Hypothesis D : declared sg A.
Hypothesis Hs : supports k A.
Local Notation Sk := (store k T).
Local Notation d := (a_dim A).
Local Notation Q := (a_imag A).
Local Notation P := (a_proj A).
Implicit Types vs us ws : list Sk.

Lemma vec_store (w : N -> T) : homog d 1 w -> exists x : Sk, valid A x /\ of_grade A 1 x /\ feq d (rd x) w.
Proof.
  intros Hw. assert (HD := supports_dim (T := T) sg A k D Hs).
  destruct (from_vector_thm k sg A (map (fun i => w (pow2 i)) (seq 0 d)) D Hs) as [G _].
  destruct G as (z & _ & Vz & G1 & G2 & _); [rewrite map_length, seq_length; reflexivity|].
  assert (E : feq d (rd z) w).
  { intros i Hi. unfold rd. destruct (Nat.eq_dec (popcount i) 1) as [E1|E1].
    - destruct (pop_1 d i Hi E1) as (g & Hg & ->). change (pow2 g) with (2 ^ N.of_nat g)%N at 1. rewrite G1 by auto.
      rewrite (nth_map_lt _ _ _ 0) by (rewrite seq_length; auto). rewrite seq_nth by auto. reflexivity.
    - rewrite G2; auto; [symmetry; apply Hw; auto|]. rewrite length_gens, <- popcount_bitsum; auto. }
  exists z. split; [exact Vz|]. split; [|exact E]. intros i Hi Hr. rewrite E by auto. apply Hw; auto.
Qed.
Lemma vec_stores (ws : list (N -> T)) : vecs d ws -> exists xs : list Sk, Forall (valid A) xs /\ Forall (of_grade A 1) xs /\ Forall2 (feq d) (map rd xs) ws.
Proof.
  induction 1 as [|w ws Hw _ (xs & H1 & H2 & H3)]; [exists []; repeat split; constructor|].
  destruct (vec_store w Hw) as (x & V & G & E). exists (x :: xs). cbn [map]. repeat split; constructor; auto.
Qed.
Lemma mk_versor (xs : list Sk) : Forall (valid A) xs -> Forall (of_grade A 1) xs -> Forall (fun w => dotv d Q P w w <> r0) (map rd xs) ->
  exists s n, versor A xs s n.
Proof.
  intros Hv Hg Hq. assert (HD := supports_dim (T := T) sg A k D Hs). pose proof (vecs_of k A xs Hg) as Hvs.
  assert (Gs : gives A (prod_list (mv_mul A) A xs) (fprod d Q P (map rd xs))).
  { rewrite <- fold_fprod. apply prod_list_gives; auto. intros. apply (h_mul A sg D); auto. }
  destruct Gs as (s & Es & Vs & Fs). exists s, (normp d Q P (map rd xs)). repeat split; auto.
  - rewrite (v_mag2 A sg D s Vs). f_equal. transitivity (gp d Q P (frev (fprod d Q P (map rd xs))) (fprod d Q P (map rd xs)) 0%N).
    + apply gp_ext; [apply pow2_pos| |]; intros j Hj; unfold frev, rd; rewrite Fs; auto.
    + rewrite (rev_versor d Q P _ Hvs 0%N (pow2_pos d)), del_eq. reflexivity.
  - apply np_neq. split; auto.
Qed.
Lemma c89_frames us vs h : radd (r1 : T) r1 <> r0 -> length us = length vs ->
  Forall (valid A) us -> Forall (of_grade A 1) us -> Forall (valid A) vs -> Forall (of_grade A 1) vs ->
  (forall i j, i < length vs -> j < length vs -> i <> j -> ip A (nth i us h) (nth j us h) = r0 /\ ip A (nth i vs h) (nth j vs h) = r0) ->
  (forall i, i < length vs -> ip A (nth i us h) (nth i us h) = ip A (nth i vs h) (nth i vs h) /\ ip A (nth i vs h) (nth i vs h) <> r0) ->
  exists ws s n, versor A ws s n /\ length ws <= 2 * length vs /\
    forall i, i < length vs -> agree A (sandwich A s (nth i us h)) (if Nat.odd (length ws) then mv_neg A (nth i vs h) else Ok (nth i vs h)).
Proof.
  intros two El Hu Gu Hv Gv Ho Hn.
  assert (Vu : forall i, i < length vs -> valid A (nth i us h)) by (intros i Hi; apply (proj1 (Forall_forall _ _) Hu); apply nth_In; lia).
  assert (Vv : forall i, i < length vs -> valid A (nth i vs h)) by (intros i Hi; apply (proj1 (Forall_forall _ _) Hv); apply nth_In; lia).
  destruct (frames d Q P two (length vs) (fun i => rd (nth i us h)) (fun i => rd (nth i vs h))) as (ws & W1 & W2 & W3 & W4).
  - intros i Hi. destruct (Hn i Hi) as [E1 E2]. rewrite (ip_dot k sg A D _ _ (Vv i Hi) (Vv i Hi)) in E1, E2. rewrite (ip_dot k sg A D _ _ (Vu i Hi) (Vu i Hi)) in E1.
    split; [apply (proj1 (Forall_forall _ _) Gu); apply nth_In; lia|]. split; [apply (proj1 (Forall_forall _ _) Gv); apply nth_In; lia|]. auto.
  - intros i j Hi Hj Hne. destruct (Ho i j Hi Hj Hne) as [E1 E2]. rewrite (ip_dot k sg A D _ _ (Vu i Hi) (Vu j Hj)) in E1. rewrite (ip_dot k sg A D _ _ (Vv i Hi) (Vv j Hj)) in E2. auto.
  - destruct (vec_stores ws W1) as (xs & X1 & X2 & X3).
    assert (Lx : length xs = length ws) by (rewrite <- (map_length rd xs); clear - X3; induction X3; cbn [length]; congruence).
    destruct (mk_versor xs X1 X2) as (s & n & V).
    { clear - X3 W2 F. revert W2. induction X3 as [|w w' l l' E _ IH]; intros W2; constructor; inversion W2; subst; auto. rewrite (dot_feq d Q P w w' w w' E E). auto. }
    exists xs, s, n. split; [exact V|]. split; [lia|]. intros i Hi.
    pose proof (h_sandwich k sg A D Hs xs s n (nth i us h) _ V (Vu i Hi) (feq_refl _ _)) as G.
    assert (E : feq d (chain d Q P (map rd xs) (rd (nth i us h))) (fsgn (Nat.odd (length xs)) (rd (nth i vs h)))).
    { eapply feq_trans; [apply chain_ext; exact X3|]. rewrite Lx. apply W4; auto. }
    destruct (Nat.odd (length xs)).
    + eapply agree_intro; [exact G|apply (h_neg A sg D (nth i vs h) _ (Vv i Hi) (feq_refl _ _))|]. eapply feq_trans; [exact E|].
      intros j Hj. unfold fsgn, fscale, fneg. cbn [sgb]. rewrite mul_neg_l, mul_1_l. reflexivity.
    + eapply agree_intro; [exact G|apply gives_Ok; auto|]. eapply feq_trans; [exact E|].
      intros j Hj. unfold fsgn, fscale. cbn [sgb]. apply mul_1_l.
Qed.
Lemma c89_unique vs ws s t n n' : radd (r1 : T) r1 <> r0 -> ~ In Tnull sg -> versor A vs s n -> versor A ws t n' ->
  (Nat.odd d = true -> Nat.odd (length vs) = Nat.odd (length ws)) ->
  ((forall i, i < d -> agree A (e <- unit_blade A (2 ^ N.of_nat i) ;; sandwich A s e) (e <- unit_blade A (2 ^ N.of_nat i) ;; sandwich A t e)) <->
   exists c, c <> r0 /\ agree A (Ok s) (mv_scale A t c)).
Proof.
  intros two Hnn Vs Vt Hodd. assert (HD := supports_dim (T := T) sg A k D Hs).
  assert (Pn : forall i, i < d -> N.testbit P (N.of_nat i) = false).
  { intros i Hi. destruct D as ((names & E) & _). destruct (masks_thm sg names A E) as (_ & M & _). destruct (M i) as (_ & _ & M3).
    destruct (N.testbit P (N.of_nat i)); auto. exfalso. apply Hnn. apply nth_error_In with (n := i). apply M3. reflexivity. }
  destruct (versor_facts k sg A D Hs vs s n Vs) as (Ws & Hvs & Fs & En & Hq). destruct (versor_facts k sg A D Hs ws t n' Vt) as (Wt & Hws & Ft & En' & Hq').
  assert (B : forall (xs : list Sk) u q i, versor A xs u q -> i < d -> gives A (e <- unit_blade A (2 ^ N.of_nat i) ;; sandwich A u e) (chain d Q P (map rd xs) (del (pow2 i) r1))).
  { intros xs u q i V Hi. eapply gives_bind; [apply unit_blade_gives; auto; apply pow2_lt; auto|]. intros z Vz Fz. apply (h_sandwich k sg A D Hs xs u q z _ V Vz Fz). }
  split.
  - intros E. destruct (same_sandwich d Q P two Pn (map rd vs) (map rd ws) (conj Hvs Hq) (conj Hws Hq')) as (c & Hc & Ec).
    + rewrite !map_length. exact Hodd.
    + intros i Hi. destruct (E i Hi) as (x & y & Ex & Ey & _ & _ & _ & Exy).
      destruct (gives_rd A _ _ x (B vs s n i Vs Hi) Ex) as (_ & Fx). destruct (gives_rd A _ _ y (B ws t n' i Vt Hi) Ey) as (_ & Fy).
      intros j Hj. rewrite <- Fx, <- Fy by auto. apply Exy; auto.
    + exists c. split; [exact Hc|]. eapply agree_intro; [apply gives_Ok; exact Ws|apply (h_scale A t c (rd t) Wt (feq_refl _ _))|].
      intros j Hj. rewrite Fs, Ec by auto. rewrite Ft by auto. apply mul_comm.
  - intros (c & Hc & x & y & Ex & Ey & _ & _ & _ & Exy) i Hi. injection Ex as <-.
    destruct (gives_rd A _ _ y (h_scale A t c (rd t) Wt (feq_refl _ _)) Ey) as (_ & Fy).
    eapply agree_intro; [apply (B vs s n i Vs Hi)|apply (B ws t n' i Vt Hi)|]. apply (scaled_sandwich d Q P (map rd vs) (map rd ws) c).
    + split; auto. + split; auto.
    + intros j Hj. rewrite <- Fs, Exy, Fy by auto. rewrite Ft by auto. apply mul_comm.
Qed.
End API.

Section Centre.
Context {T : Type} {RO : RingOps T} {L : RingLaws T} {m : Mode} {H : HashOrder}.
Variables (k : kind) (sg : list tok) (A : algebra).
Hypothesis D : declared sg A.
Hypothesis Hs : supports k A.
Local Notation Sk := (store k T).
Local Notation d := (a_dim A).
Local Notation Q := (a_imag A).
Local Notation P := (a_proj A).

Lemma null_bit i : i < d -> N.testbit P (N.of_nat i) = match nth i sg Tplus with Tnull => true | _ => false end.
Proof.
  intros Hi. rewrite (declared_dim sg A D) in Hi. destruct D as ((names & E) & _). destruct (masks_thm sg names A E) as (_ & M & _). destruct (M i) as (_ & _ & M3). apply eq_true_iff_eq. rewrite M3.
  rewrite (nth_error_nth' sg Tplus Hi). destruct (nth i sg Tplus); split; intros; congruence.
Qed.
Lemma central_iff I : (I < pow2 d)%N ->
  (central sg I = true <-> forall i, i < d -> (N.testbit P (N.of_nat i) && N.testbit I (N.of_nat i))%bool = true \/ xorb (par I) (N.testbit I (N.of_nat i)) = false).
Proof.
  intros HI. unfold central. rewrite <- (declared_dim sg A D). rewrite length_gens, <- popcount_bitsum by auto. fold (par I).
  destruct (par I) eqn:Ep.
  - rewrite Nat.eqb_eq. split.
    + intros E i Hi. right. assert (N.testbit I (N.of_nat i) = true); [|rewrite H0; reflexivity].
      destruct (N.testbit I (N.of_nat i)) eqn:Et; auto. exfalso.
      rewrite (popcount_bitsum d) in E by auto. rewrite <- length_gens in E.
      assert (Hin : In i (gens d I)); [|apply in_gens in Hin; destruct Hin; congruence].
      apply (NoDup_length_incl (l := gens d I) (l' := seq 0 d)); auto using NoDup_gens; [rewrite seq_length; lia| |apply in_seq; lia].
      intros j Hj. apply in_gens in Hj. apply in_seq. lia.
    + intros G. assert (EI : I = ones d); [|rewrite EI; apply pop_ones].
      apply N.bits_inj. intros j. rewrite testbit_ones. destruct (N.ltb_spec j (N.of_nat d)) as [Hj|Hj].
      * rewrite <- (N2Nat.id j). destruct (G (N.to_nat j) ltac:(lia)) as [G'|G']; [apply andb_true_iff in G'; apply G'|]. destruct (N.testbit I (N.of_nat (N.to_nat j))); auto; discriminate.
      * rewrite <- (N2Nat.id j). apply (testbit_high I d); auto. lia.
  - rewrite forallb_forall. split.
    + intros G i Hi. destruct (N.testbit I (N.of_nat i)) eqn:Et; [|right; reflexivity]. left. rewrite null_bit by auto. rewrite (G i); [reflexivity|]. apply in_gens. auto.
    + intros G i Hin. apply in_gens in Hin. destruct Hin as [Hi Et]. specialize (G i Hi). rewrite Et in G. destruct G as [G|G]; [|discriminate]. apply andb_true_iff in G. destruct G as [G _]. rewrite null_bit in G by auto. exact G.
Qed.
Lemma comm_gives (x : Sk) i : valid A x -> i < d ->
  (agree A (e <- unit_blade A (2 ^ N.of_nat i) ;; mv_mul A e x) (e <- unit_blade A (2 ^ N.of_nat i) ;; mv_mul A x e) <-> commutes d Q P (rd x) (del (pow2 i) r1)).
Proof.
  intros Vx Hi. assert (HD := supports_dim (T := T) sg A k D Hs).
  assert (G1 : gives A (e <- unit_blade A (2 ^ N.of_nat i) ;; mv_mul A e x) (gp d Q P (del (pow2 i) r1) (rd x))).
  { eapply gives_bind; [apply unit_blade_gives; auto; apply pow2_lt; auto|]. intros z Vz Fz. apply (h_mul A sg D); auto using feq_refl. }
  assert (G2 : gives A (e <- unit_blade A (2 ^ N.of_nat i) ;; mv_mul A x e) (gp d Q P (rd x) (del (pow2 i) r1))).
  { eapply gives_bind; [apply unit_blade_gives; auto; apply pow2_lt; auto|]. intros z Vz Fz. apply (h_mul A sg D); auto using feq_refl. }
  split.
  - intros (u & v & Eu & Ev & _ & _ & _ & Euv) j Hj. destruct (gives_rd A _ _ u G1 Eu) as (_ & Fu). destruct (gives_rd A _ _ v G2 Ev) as (_ & Fv).
    rewrite <- Fu, <- Fv by auto. apply Euv; auto.
  - intros C. eapply agree_intro; [exact G1|exact G2|exact C].
Qed.
Lemma c89_centre (x : Sk) : (forall a : T, radd a a = r0 -> a = r0) -> valid A x ->
  ((forall i, i < d -> agree A (e <- unit_blade A (2 ^ N.of_nat i) ;; mv_mul A e x) (e <- unit_blade A (2 ^ N.of_nat i) ;; mv_mul A x e)) <->
   forall I, (I < 2 ^ N.of_nat d)%N -> central sg I = false -> mv_get_by_idx x I = Ok r0).
Proof.
  intros two Vx. split.
  - intros C I HI Hc. assert (Ex : exists i, i < d /\ (N.testbit P (N.of_nat i) && N.testbit I (N.of_nat i))%bool = false /\ xorb (par I) (N.testbit I (N.of_nat i)) = true).
    { destruct (existsb (fun i => negb (N.testbit P (N.of_nat i) && N.testbit I (N.of_nat i)) && xorb (par I) (N.testbit I (N.of_nat i)))%bool (seq 0 d)) eqn:Ee.
      - apply existsb_exists in Ee. destruct Ee as (i & Hi & Ei). apply in_seq in Hi. apply andb_true_iff in Ei. destruct Ei as [E1 E2]. apply negb_true_iff in E1. exists i. repeat split; auto. lia.
      - exfalso. assert (central sg I = true); [|congruence]. apply central_iff; auto. intros i Hi.
        destruct (N.testbit P (N.of_nat i) && N.testbit I (N.of_nat i))%bool eqn:E1; auto. destruct (xorb (par I) (N.testbit I (N.of_nat i))) eqn:E2; auto.
        exfalso. assert (Hb : existsb (fun i => negb (N.testbit P (N.of_nat i) && N.testbit I (N.of_nat i)) && xorb (par I) (N.testbit I (N.of_nat i)))%bool (seq 0 d) = true); [|congruence].
        apply existsb_exists. exists i. split; [apply in_seq; lia|]. rewrite E1, E2. reflexivity. }
    destruct Ex as (i & Hi & E1 & E2). pose proof (proj1 (commutes_gen d Q P (rd x) i two Hi) (proj1 (comm_gives x i Vx Hi) (C i Hi)) I HI E1 E2) as R.
    rewrite <- R. destruct (gives_Ok A x Vx) as (z & Ez & _ & G). injection Ez as <-. apply G; auto.
  - intros G i Hi. apply comm_gives; auto. apply commutes_gen; auto. intros I HI E1 E2. unfold rd. rewrite G; auto.
    destruct (central sg I) eqn:Ec; auto. destruct (proj1 (central_iff I HI) Ec i Hi); congruence.
Qed.
Lemma c89_all {CL : CommLaws T} (x y : Sk) : valid A x -> valid A y ->
  (forall i, i < d -> agree A (e <- unit_blade A (2 ^ N.of_nat i) ;; mv_mul A e x) (e <- unit_blade A (2 ^ N.of_nat i) ;; mv_mul A x e)) ->
  agree A (mv_mul A y x) (mv_mul A x y).
Proof.
  intros Vx Vy C. eapply agree_intro; [apply (h_mul A sg D); auto using feq_refl|apply (h_mul A sg D); auto using feq_refl|].
  apply (commutes_all d Q P (rd x) (rd y)). intros i Hi. apply comm_gives; auto.
Qed.
End Centre.
