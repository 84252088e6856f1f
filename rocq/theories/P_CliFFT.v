(** The code of the transform computes the functions of P_FFT. *)
From Verif Require Export P_Mat.
Local Open Scope nat_scope.

Lemma cl_dim_pow n : cl_dim (2 ^ n) = Ok n.
Proof.
  unfold cl_dim. pose proof (Nat.pow_nonzero 2 n ltac:(lia)) as H. apply Nat.eqb_neq in H. rewrite H, Nat.log2_pow2, Nat.eqb_refl by lia. reflexivity.
Qed.
Lemma cl_dim_cases size : (exists n, size = 2 ^ n /\ cl_dim size = Ok n) \/ ((forall n, size <> 2 ^ n) /\ cl_dim size = Err InvalidShape).
Proof.
  destruct (Nat.eq_dec size (2 ^ Nat.log2 size)) as [E|E].
  - left. exists (Nat.log2 size). split; auto. rewrite E at 1. apply cl_dim_pow.
  - right. assert (G : forall n, size <> 2 ^ n) by (intros n ->; apply E; rewrite Nat.log2_pow2; lia). split; auto.
    unfold cl_dim. destruct (Nat.eqb_spec size 0); auto. destruct (Nat.eqb_spec (2 ^ Nat.log2 size) size); auto. congruence.
Qed.
Lemma pow_sq m : 2 ^ (2 * m) = 2 ^ m * 2 ^ m.
Proof. replace (2 * m) with (m + m) by lia. apply Nat.pow_add_r. Qed.
Lemma pow_4 m : 2 ^ (2 * S m) = 4 * 2 ^ (2 * m).
Proof. replace (2 * S m) with (S (S (2 * m))) by lia. cbn [Nat.pow]. lia. Qed.
Lemma half_pow m : 2 ^ S m / 2 = 2 ^ m.
Proof. cbn [Nat.pow]. rewrite Nat.mul_comm. apply Nat.div_mul. lia. Qed.
Lemma div4 a : 4 * a / 4 = a.
Proof. rewrite Nat.mul_comm. apply Nat.div_mul. lia. Qed.
Lemma div42 a : 4 * a / 2 = 2 * a.
Proof. replace (4 * a) with (2 * a * 2) by lia. apply Nat.div_mul. lia. Qed.
Lemma pow_even m : 2 * m / 2 = m.
Proof. rewrite Nat.mul_comm. apply Nat.div_mul. lia. Qed.
Lemma pow_pos n : 0 < 2 ^ n.
Proof. pose proof (Nat.pow_nonzero 2 n). lia. Qed.

Ltac fset F Hi Hj a F2 :=
  match type of F with filled _ _ _ _ ?M _ _ => match goal with |- context [m_set M ?i ?j ?v] =>
    destruct (filled_set _ _ _ _ _ _ _ v F Hi Hj) as (a & -> & F2); [reflexivity|] end end.
Section Model.
Context {T : Type} {RO : RingOps T} {L : RingLaws T} {DV : DivOps T} {md : Mode}.

Lemma fft_alpha_sgb (c : T) i j : fft_alpha c i j = sgb (par (N.lxor (N.of_nat i) (N.of_nat j))) c.
Proof. reflexivity. Qed.
Lemma fft_alpha_0 (c : T) i : fft_alpha c i 0 = sgb (par (N.of_nat i)) c.
Proof. unfold fft_alpha. cbn [N.of_nat]. rewrite N.lxor_0_r. reflexivity. Qed.

Lemma quarters (l : list T) m : length l = 2 ^ (2 * S m) ->
  exists l0 l1 l2 l3, l = (l0 ++ l1) ++ (l2 ++ l3) /\
    length l0 = 2 ^ (2 * m) /\ length l1 = 2 ^ (2 * m) /\ length l2 = 2 ^ (2 * m) /\ length l3 = 2 ^ (2 * m).
Proof.
  intros H. replace (2 * S m) with (S (S (2 * m))) in H by lia.
  apply halves in H as (u & v & -> & Hu & Hv). apply halves in Hu as (l0 & l1 & -> & H0 & H1). apply halves in Hv as (l2 & l3 & -> & H2 & H3).
  exists l0, l1, l2, l3. auto.
Qed.
Lemma quarters_lc (l0 l1 l2 l3 : list T) n :
  length l0 = 2 ^ n -> length l1 = 2 ^ n -> length l2 = 2 ^ n -> length l3 = 2 ^ n ->
  let l := (l0 ++ l1) ++ (l2 ++ l3) in
  feq n (lc l) (lc l0) /\ feq n (up n (lc l)) (lc l1) /\ feq n (up (S n) (lc l)) (lc l2) /\ feq n (up n (up (S n) (lc l))) (lc l3).
Proof.
  intros H0 H1 H2 H3 l. unfold l, up.
  assert (Hu : length (l0 ++ l1) = 2 ^ S n) by (rewrite app_length; cbn [Nat.pow]; lia).
  repeat split; intros i Hi.
  - rewrite (lc_app_low (S n)), (lc_app_low n) by auto using low_lt. reflexivity.
  - rewrite (lc_app_low (S n)), (lc_app_high n) by auto using high_lt. reflexivity.
  - rewrite (lc_app_high (S n)), (lc_app_low n) by auto. reflexivity.
  - rewrite (lc_app_high (S n)), (lc_app_high n) by auto. reflexivity.
Qed.

Lemma clifft_nn_into_ok m : forall fuel (coeffs : list T) dest Y, m < fuel -> length coeffs = 2 ^ (2 * m) -> mis (2 ^ m) (2 ^ m) dest Y ->
  exists M, clifft_nn_into fuel coeffs dest = Ok M /\ mrep m M (cl m (lc coeffs)).
Proof.
  induction m as [|m IH]; intros [|fuel] coeffs dest Y Hf Hl Hd; try lia; cbn [clifft_nn_into].
  - cbn in Hl. rewrite Hl. cbn [Nat.eqb]. rewrite (nthr_nth _ _ r0) by lia. cbn [bind].
    destruct (mis_set _ _ _ _ 0 0 (nth 0 coeffs r0) Hd) as (M & E & HM); [cbn; lia..|]. exists M. split; auto.
    eapply mis_ext; [exact HM|]. intros i j Hi Hj. cbn in Hi, Hj. assert (i = 0) as -> by lia. assert (j = 0) as -> by lia. reflexivity.
  - pose proof (pow_pos (2 * m)) as Hp. pose proof (pow_pos m) as Hpm.
    rewrite Hl. destruct (Nat.eqb_spec (2 ^ (2 * S m)) 1) as [E|_]; [rewrite pow_4 in E; lia|].
    rewrite cl_dim_pow. cbn [bind]. rewrite pow_even, half_pow, !pow_4, div4, div42.
    replace (Nat.eqb (2 ^ S m * 2 ^ S m) (4 * 2 ^ (2 * m))) with true by (symmetry; apply Nat.eqb_eq; rewrite <- pow_4, pow_sq; auto).
    replace (Nat.eqb (2 ^ m * 2 ^ m) (2 ^ (2 * m))) with true by (symmetry; apply Nat.eqb_eq; rewrite pow_sq; auto).
    rewrite Bool.andb_false_r.
    apply quarters in Hl as (l0 & l1 & l2 & l3 & -> & H0 & H1 & H2 & H3).
    rewrite split_at_app by (rewrite app_length; lia). cbn [bind]. rewrite !split_at_app by auto. cbn [bind].
    change (2 ^ S m) with (2 * 2 ^ m) in Hd. apply mis_split4 in Hd as (a & b & c & d & -> & Ha & Hb & Hc & Hdd). cbn [bind].
    assert (K : forall l : list T, length l = 2 ^ (2 * m) -> exists M, clifft_nn_with (clifft_nn_into fuel) l = Ok M /\ mrep m M (cl m (lc l))).
    { intros l Hl. unfold clifft_nn_with. rewrite Hl, cl_dim_pow. cbn [bind]. rewrite pow_even. eapply IH; auto; [lia|apply mis_zeros]. }
    destruct (K l0 H0) as (M0 & -> & R0). destruct (K l1 H1) as (M1 & -> & R1). destruct (K l2 H2) as (M2 & -> & R2). destruct (K l3 H3) as (M3 & -> & R3).
    cbn [bind].
    set (X0 := cl m (lc l0)) in *. set (X1 := cl m (lc l1)) in *. set (X2 := cl m (lc l2)) in *. set (X3 := cl m (lc l3)) in *.
    destruct (for_ij_ind (fun i j (st : mat T * mat T * mat T * mat T) => let '(a, b, c, d) := st in
        filled (2 ^ m) (2 ^ m) i j a (nn (madd X0 X3)) Y /\ filled (2 ^ m) (2 ^ m) i j b (nn (malpha (madd X1 X2))) (fun i j => Y i (2 ^ m + j)) /\
        filled (2 ^ m) (2 ^ m) i j c (nn (msub X1 X2)) (fun i j => Y (2 ^ m + i) j) /\ 
        filled (2 ^ m) (2 ^ m) i j d (nn (malpha (msub X0 X3))) (fun i j => Y (2 ^ m + i) (2 ^ m + j)))
        (2 ^ m) (2 ^ m)
        (fun st i j => let '(a, b, c, d) := st in
          x00 <- m_get M0 i j ;; x01 <- m_get M1 i j ;;
          x10 <- m_get M2 i j ;; x11 <- m_get M3 i j ;;
          a <- m_set a i j (radd x00 x11) ;;
          c <- m_set c i j (rsub x01 x10) ;;
          b <- m_set b i j (fft_alpha (radd x01 x10) i j) ;;
          d <- m_set d i j (fft_alpha (rsub x00 x11) i j) ;;
          Ok (a, b, c, d)) (a, b, c, d)) as ([[[a' b'] c'] d'] & E & HE).
    + cbn beta iota. auto using filled_0.
    + intros i j [[[a' b'] c'] d'] Hi Hj (Fa & Fb & Fc & Fd).
      rewrite (mis_get _ _ _ _ _ _ R0 Hi Hj), (mis_get _ _ _ _ _ _ R1 Hi Hj), (mis_get _ _ _ _ _ _ R2 Hi Hj), (mis_get _ _ _ _ _ _ R3 Hi Hj). cbn [bind].
      fset Fa Hi Hj a2 Fa2. cbn [bind].
      fset Fc Hi Hj c2 Fc2. cbn [bind].
      fset Fb Hi Hj b2 Fb2. cbn [bind].
      fset Fd Hi Hj d2 Fd2. cbn [bind].
      eexists. split; [reflexivity|]. cbn beta iota. auto.
    + intros i [[[a' b'] c'] d'] Hi (Fa & Fb & Fc & Fd). cbn beta iota. auto using filled_row.
    + destruct HE as (Fa & Fb & Fc & Fd). rewrite E. cbn [bind]. eexists. split; [reflexivity|].
      apply filled_end in Fa, Fb, Fc, Fd. eapply mrep_ext; [apply mrep_blk; eassumption|].
      destruct (quarters_lc l0 l1 l2 l3 (2 * m)) as (Q0 & Q1 & Q2 & Q3); auto.
      intros i j Hi Hj. cbn [cl].
      spl i Hi; spl j Hj; bk; unfold malpha, madd, msub, X0, X1, X2, X3;
        rewrite ?(cl_ext m _ _ Q0), ?(cl_ext m _ _ Q1), ?(cl_ext m _ _ Q2), ?(cl_ext m _ _ Q3) by auto; reflexivity.
Qed.

Lemma clifft_nn_ok m (l : list T) : length l = 2 ^ (2 * m) -> exists M, clifft_nn l = Ok M /\ mrep m M (cl m (lc l)).
Proof.
  intros Hl. unfold clifft_nn, clifft_nn_with. replace (cl_dim (length l)) with (Ok (2 * m)) by (rewrite Hl, cl_dim_pow; auto). cbn [bind]. rewrite pow_even.
  eapply clifft_nn_into_ok; [|auto|apply mis_zeros]. rewrite Hl. pose proof (Nat.pow_gt_lin_r 2 (2 * m)). lia.
Qed.

(** The inverse. *)
Definition lfilled (n i : nat) (l : list T) (X Y : nat -> T) : Prop :=
  length l = n /\ forall k, k < n -> nth k l r0 = if Nat.ltb k i then X k else Y k.
Lemma lfilled_set n i l X Y v : lfilled n i l X Y -> i < n -> v = X i -> exists l', updr l i v = Ok l' /\ lfilled n (S i) l' X Y.
Proof.
  intros (Hl & E) Hi ->. unfold updr. rewrite Hl. destruct (Nat.ltb_spec i n); [|lia]. eexists. split; [reflexivity|].
  split; [rewrite length_upd; auto|]. intros k Hk. rewrite nth_upd, Hl. specialize (E k Hk).
  destruct (Nat.ltb_spec i n); [|lia]. rewrite Bool.andb_true_r. destruct (Nat.eqb_spec i k).
  - subst. destruct (Nat.ltb_spec k (S k)); [auto|lia].
  - rewrite E. destruct (Nat.ltb_spec k i), (Nat.ltb_spec k (S i)); auto; lia.
Qed.
Ltac lset F Hi a F2 :=
  match goal with |- context [updr ?l ?i ?v] =>
    destruct (lfilled_set _ _ _ _ _ v F Hi) as (a & -> & F2); [reflexivity|] end.
Lemma lfilled_0 l X : lfilled (length l) 0 l X (fun k => nth k l r0).
Proof. split; auto. Qed.
Lemma lfilled_end n l X Y : lfilled n n l X Y -> length l = n /\ forall k, k < n -> nth k l r0 = X k.
Proof. intros (H & E). split; auto. intros k Hk. rewrite E by auto. destruct (Nat.ltb_spec k n); [auto|lia]. Qed.

Lemma foldM_seq {X} (P : nat -> X -> Prop) (body : X -> nat -> res X) n st :
  P 0 st -> (forall i st, i < n -> P i st -> exists st', body st i = Ok st' /\ P (S i) st') ->
  exists st', foldM body (seq 0 n) st = Ok st' /\ P n st'.
Proof.
  intros H0 Hb. assert (G : forall k j s, j + k = n -> P j s -> exists st', foldM body (seq j k) s = Ok st' /\ P n st').
  { induction k as [|k IH]; intros j s Hj Hp; cbn.
    - exists s. split; auto. replace n with j by lia. auto.
    - destruct (Hb j s) as (s2 & -> & H2); auto; [lia|]. cbn. apply IH; auto. lia. }
  apply (G n 0); auto.
Qed.

Lemma popcount_pow2_1 n : popcount (N.of_nat (2 ^ n)) = 1.
Proof. rewrite of_nat_pow2. apply popcount_pow2. Qed.

Lemma iclifft_nn_into_ok m : forall fuel (M : mat T) X dest, m < fuel -> mrep m M X -> length dest = 2 ^ (2 * m) ->
  exists l, iclifft_nn_into fuel M dest = Ok l /\ length l = 2 ^ (2 * m) /\ feq (2 * m) (lc l) (icl m X).
Proof.
  induction m as [|m IH]; intros [|fuel] M X dest Hf HM Hl; try lia; cbn [iclifft_nn_into];
    (assert (mis_self' : m_nr M = 2 ^ _ /\ m_nc M = 2 ^ _) by (split; apply HM)); destruct mis_self' as (ER & EC);
    rewrite ER, EC, Nat.eqb_refl, popcount_pow2_1; cbn [negb orb Nat.eqb].
  - rewrite (mis_get _ _ _ _ 0 0 HM) by (cbn; lia). cbn [bind]. unfold updr. rewrite Hl. cbn [Nat.ltb Nat.leb Nat.pow Nat.mul].
    eexists. split; [reflexivity|]. split; [rewrite length_upd; auto|]. intros i Hi. cbn in Hi. assert (i = 0%N) as -> by lia.
    unfold lc. rewrite nth_upd, Hl. reflexivity.
  - pose proof (pow_pos (2 * m)) as Hp. pose proof (pow_pos m) as Hpm.
    destruct (Nat.eqb_spec (2 ^ S m) 1) as [E|_]; [cbn in E; lia|].
    rewrite half_pow, <- !pow_sq, pow_4, div4, div42, Nat.eqb_refl, Bool.andb_false_r.
    assert (HM4 := HM). unfold mrep in HM4. change (2 ^ S m) with (2 * 2 ^ m) in HM4. apply mis_split4 in HM4 as (a & b & c & d & -> & Ha & Hb & Hc & Hd). cbn [bind].
    assert (K : forall x Z, mrep m x Z -> exists l, iclifft_nn_into fuel x (repeat r0 (length (m_data x))) = Ok l /\ length l = 2 ^ (2 * m) /\ feq (2 * m) (lc l) (icl m Z)).
    { intros x Z Hx. eapply IH; eauto; [lia|]. rewrite repeat_length. destruct Hx as (R & C & Kx & _). unfold m_ok in Kx. rewrite Kx, R, C, pow_sq. auto. }
    assert (Kb : mrep m b (fun i j => X i (pow2 m + j)%N)).
    { eapply mis_ext; [exact Hb|]. intros i j Hi Hj. unfold nn. f_equal. rewrite <- of_nat_pow2. lia. }
    assert (Kc : mrep m c (fun i j => X (pow2 m + i)%N j)).
    { eapply mis_ext; [exact Hc|]. intros i j Hi Hj. unfold nn. f_equal. rewrite <- of_nat_pow2. lia. }
    assert (Kd : mrep m d (fun i j => X (pow2 m + i)%N (pow2 m + j)%N)).
    { eapply mis_ext; [exact Hd|]. intros i j Hi Hj. unfold nn. f_equal; rewrite <- of_nat_pow2; lia. }
    destruct (K a _ Ha) as (va & -> & La & Ea). destruct (K b _ Kb) as (vb & -> & Lb & Eb).
    destruct (K c _ Kc) as (vc & -> & Lc & Ec). destruct (K d _ Kd) as (vd & -> & Ld & Ed). cbn [bind].
    apply quarters in Hl as (l0 & l1 & l2 & l3 & -> & H0 & H1 & H2 & H3).
    rewrite split_at_app by (rewrite app_length; lia). cbn [bind]. rewrite !split_at_app by auto. cbn [bind].
    set (n := 2 * m) in *. set (two := radd r1 r1 : T).
    set (f0 := fun k => rdiv (radd (nth k va r0) (fft_alpha (nth k vd r0) k 0)) two).
    set (f1 := fun k => rdiv (radd (fft_alpha (nth k vb r0) k 0) (nth k vc r0)) two).
    set (f2 := fun k => rdiv (rsub (fft_alpha (nth k vb r0) k 0) (nth k vc r0)) two).
    set (f3 := fun k => rdiv (rsub (nth k va r0) (fft_alpha (nth k vd r0) k 0)) two).
    match goal with |- context [foldM ?body (seq 0 ?N) ?st0] =>
      destruct (foldM_seq (fun i (st : list T * list T * list T * list T) => let '(v0, v1, v2, v3) := st in
        lfilled (2 ^ n) i v0 f0 (fun k => nth k l0 r0) /\ lfilled (2 ^ n) i v1 f1 (fun k => nth k l1 r0) /\
        lfilled (2 ^ n) i v2 f2 (fun k => nth k l2 r0) /\ lfilled (2 ^ n) i v3 f3 (fun k => nth k l3 r0)) body N st0) as ([[[v0 v1] v2] v3] & E & HE)
    end.
    + rewrite <- H0 at 1. rewrite <- H1 at 1. rewrite <- H2 at 1. rewrite <- H3 at 1. auto using lfilled_0.
    + intros i [[[v0 v1] v2] v3] Hi (F0 & F1 & F2 & F3).
      rewrite (nthr_nth va _ r0), (nthr_nth vb _ r0), (nthr_nth vc _ r0), (nthr_nth vd _ r0) by lia. cbn [bind].
      lset F0 Hi w0 G0. cbn [bind].
      lset F1 Hi w1 G1. cbn [bind].
      lset F2 Hi w2 G2. cbn [bind].
      lset F3 Hi w3 G3. cbn [bind]. eexists. split; [reflexivity|]. cbn beta iota. auto.
    + rewrite E. cbn [bind]. destruct HE as (F0 & F1 & F2 & F3). apply lfilled_end in F0 as (L0 & F0), F1 as (L1 & F1), F2 as (L2 & F2), F3 as (L3 & F3).
      eexists. split; [reflexivity|]. split.
      { rewrite !app_length, L0, L1, L2, L3. lia. }
      destruct (quarters_lc v0 v1 v2 v3 n) as (Q0 & Q1 & Q2 & Q3); auto.
      intros t Ht. unfold n in Ht. rewrite two_S in Ht. fold n in Ht. cbn [icl]. fold n. fold two.
      apply split_4 in Ht as (s & Hs & Hcase).
      assert (Hn : N.to_nat s < 2 ^ n) by (apply to_nat_lt_pow2; auto).
      specialize (Q0 s Hs). specialize (Q1 s Hs). specialize (Q2 s Hs). specialize (Q3 s Hs).
      specialize (F0 _ Hn). specialize (F1 _ Hn). specialize (F2 _ Hn). specialize (F3 _ Hn).
      specialize (Ea s Hs). specialize (Eb s Hs). specialize (Ec s Hs). specialize (Ed s Hs).
      unfold up in Q1, Q2, Q3. unfold lc in Ea, Eb, Ec, Ed.
      unfold f0, f1, f2, f3 in *. rewrite !fft_alpha_0, N2Nat.id in F0, F1, F2, F3. rewrite Ea, Ed in F0, F3. rewrite Eb, Ec in F1, F2.
      destruct Hcase as [-> | [-> | [-> | -> ]]]; rewrite ?qsel_0, ?qsel_1, ?qsel_2, ?qsel_3 by auto.
      * rewrite Q0. exact F0.
      * rewrite Q1. exact F1.
      * rewrite Q2. exact F2.
      * rewrite Q3. exact F3.
Qed.

(** The flip. *)
Lemma imaginary_flip_inplace_ok m : forall fuel (M : mat T) X, m < fuel -> mrep m M X ->
  exists M', imaginary_flip_inplace fuel M = Ok M' /\ mrep m M' (iflip m X).
Proof.
  induction m as [|m IH]; intros [|fuel] M X Hf HM; try lia; cbn [imaginary_flip_inplace]; pose proof HM as (ER & EC & EK & _); unfold m_ok in EK; rewrite EK, ER, EC.
  - exists M. split; auto.
  - pose proof (pow_pos m). destruct (Nat.eqb_spec (2 ^ S m * 2 ^ S m) 1) as [E|_]; [cbn in E; nia|].
    rewrite half_pow. assert (HM4 := HM). unfold mrep in HM4. change (2 ^ S m) with (2 * 2 ^ m) in HM4. apply mis_split4 in HM4 as (a & b & c & d & -> & Ha & Hb & Hc & Hd). cbn [bind].
    set (w := 2 ^ m) in *.
    assert (Eb : forall i j, nn X i (w + j) = nn (fun i j => X i (pow2 m + j)%N) i j).
    { intros i j. unfold nn. f_equal. rewrite <- of_nat_pow2. unfold w. lia. }
    assert (Ec : forall i j, nn X (w + i) j = nn (fun i j => X (pow2 m + i)%N j) i j).
    { intros i j. unfold nn. f_equal. rewrite <- of_nat_pow2. unfold w. lia. }
    assert (Ed : forall i j, nn X (w + i) (w + j) = nn (fun i j => X (pow2 m + i)%N (pow2 m + j)%N) i j).
    { intros i j. unfold nn. f_equal; rewrite <- of_nat_pow2; unfold w; lia. }
    match goal with |- context [for_ij ?h ?w' ?body ?st0] =>
      destruct (for_ij_ind (fun i j (st : mat T * mat T * mat T * mat T) => let '(a, b, c, d) := st in
        filled w w i j a (nn (malpha (fun i j => X (pow2 m + i)%N (pow2 m + j)%N))) (nn X) /\
        filled w w i j b (nn (malpha (fun i j => X (pow2 m + i)%N j))) (nn (fun i j => X i (pow2 m + j)%N)) /\
        filled w w i j c (nn (malpha (fun i j => X i (pow2 m + j)%N))) (nn (fun i j => X (pow2 m + i)%N j)) /\
        filled w w i j d (nn (malpha X)) (nn (fun i j => X (pow2 m + i)%N (pow2 m + j)%N))) h w' body st0) as ([[[a' b'] c'] d'] & E & HE)
    end.
    + refine (conj _ (conj _ (conj _ _))); apply filled_0; auto; (eapply mis_ext; [eassumption|]); intros; cbn beta; auto.
    + intros i j [[[a' b'] c'] d'] Hi Hj (Fa & Fb & Fc & Fd).
      rewrite (filled_get _ _ _ _ _ _ _ Fa Hi Hj). cbn [bind]. rewrite (filled_get _ _ _ _ _ _ _ Fd Hi Hj). cbn [bind].
      fset Fa Hi Hj a2 Fa2. cbn [bind].
      fset Fd Hi Hj d2 Fd2. cbn [bind].
      rewrite (filled_get _ _ _ _ _ _ _ Fb Hi Hj). cbn [bind]. rewrite (filled_get _ _ _ _ _ _ _ Fc Hi Hj). cbn [bind].
      fset Fb Hi Hj b2 Fb2. cbn [bind].
      fset Fc Hi Hj c2 Fc2. cbn [bind].
      eexists. split; [reflexivity|]. cbn beta iota. auto.
    + intros i [[[a' b'] c'] d'] Hi (Fa & Fb & Fc & Fd). cbn beta iota. auto using filled_row.
    + rewrite E. cbn [bind]. destruct HE as (Fa & Fb & Fc & Fd). apply filled_end in Fa, Fb, Fc, Fd.
      assert (IH' := fun M X => IH fuel M X ltac:(lia)).
      destruct (IH' a' _ Fa) as (a2 & -> & Ra). cbn [bind]. destruct (IH' b' _ Fb) as (b2 & -> & Rb). cbn [bind].
      destruct (IH' c' _ Fc) as (c2 & -> & Rc). cbn [bind]. destruct (IH' d' _ Fd) as (d2 & -> & Rd). cbn [bind].
      eexists. split; [reflexivity|]. cbn [iflip]. apply mrep_blk; auto.
Qed.

Lemma parity_flip_ok m (M : mat T) X : mrep m M X -> mrep m (parity_flip M) (malpha X).
Proof.
  intros (R & C & K & E). unfold parity_flip. rewrite R, C. eapply mis_ext; [apply mis_build|]. intros i j Hi Hj. cbn beta. rewrite E by auto. reflexivity.
Qed.
Lemma imaginary_flip_ok m (M : mat T) X : mrep m M X -> exists M', imaginary_flip M = Ok M' /\ mrep m M' (iflip m X).
Proof.
  intros HM. pose proof HM as (R & C & K & E). unfold imaginary_flip. rewrite R, C, Nat.eqb_refl, popcount_pow2_1. cbn [negb orb Nat.eqb].
  apply imaginary_flip_inplace_ok; auto. pose proof (Nat.pow_gt_lin_r 2 m). lia.
Qed.
Lemma mrep_t m (M : mat T) X : mrep m M X -> mrep m (m_t M) (mtr X).
Proof. intros H. apply (mis_t _ _ _ _ H). Qed.
Lemma reversal_ok m (M : mat T) X : mrep m M X -> exists M', reversal M = Ok M' /\ mrep m M' (iflip m (mtr X)).
Proof. intros H. unfold reversal. apply imaginary_flip_ok, mrep_t, H. Qed.
End Model.
