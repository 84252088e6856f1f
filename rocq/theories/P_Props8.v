(** Properties C33, C34. *)
From Verif Require Export P_Derived.
Local Open Scope nat_scope.

Lemma nonnull_count sg : forall n, n <= length sg -> (forall i, i < length sg -> (i < n <-> sq sg i <> 0%Z)) -> nonnull sg = n.
Proof.
  unfold nonnull. induction sg as [|t sg IH]; intros n Hn H; cbn in Hn; [cbn; lia|].
  assert (H0 := H 0 ltac:(cbn; lia)). unfold sq in H0. cbn [nth_error] in H0.
  assert (HS : forall i, i < length sg -> (S i < n <-> sq sg i <> 0%Z)) by (intros i Hi; apply (H (S i)); cbn; lia).
  destruct n as [|n].
  - cbn [filter]. assert (t = Tnull) as -> by (destruct t; auto; exfalso; assert (0 < 0) by (apply H0; discriminate); lia).
    apply IH; [lia|]. intros i Hi. specialize (HS i Hi). split; intros; [lia|]. apply HS in H1. lia.
  - cbn [filter]. destruct t; try (exfalso; apply (proj1 H0); [lia|reflexivity]); cbn [length]; f_equal; apply IH; try lia; intros i Hi; rewrite <- HS by auto; lia.
Qed.
Lemma nonnull_std sg A nn : declared sg A -> alg_std A nn -> nn = nonnull sg.
Proof.
  intros D HS. pose proof (declared_dim _ _ D) as Ed. pose proof (std_nn A nn HS) as Hn. symmetry. apply nonnull_count; [lia|]. intros i Hi.
  rewrite (declared_metric sg A D i) by lia. rewrite (std_p A nn HS), N.ldiff_spec, !testbit_ones.
  destruct (N.ltb_spec (N.of_nat i) (N.of_nat (a_dim A))); [|lia]. destruct (N.ltb_spec (N.of_nat i) (N.of_nat nn)); cbn [negb andb].
  - destruct (N.testbit (a_imag A) (N.of_nat i)); split; intros; [discriminate|lia|discriminate|lia].
  - split; intros; [lia|congruence].
Qed.
Lemma declared_nn sg A : declared sg A -> alg_std A (nonnull sg).
Proof. intros D. destruct (declared_std sg A D) as (nn & HS). rewrite <- (nonnull_std sg A nn D HS). exact HS. Qed.

Lemma neg_gens_imag sg A k : declared sg A -> (k < pow2 (a_dim A))%N -> popcount (N.land k (a_imag A)) = neg_gens sg k.
Proof.
  intros D Hk. pose proof (declared_dim _ _ D) as Ed. unfold neg_gens, gens. rewrite <- Ed.
  rewrite (popcount_bitsum (a_dim A)) by (apply land_lt_l; auto).
  assert (G : forall m, m <= a_dim A -> bitsum m (N.land k (a_imag A)) = length (filter (fun i => (sq sg i =? -1)%Z) (filter (fun i => N.testbit k (N.of_nat i)) (rev (seq 0 m))))).
  { induction m as [|m IH]; intros Hm; [reflexivity|]. cbn [bitsum]. rewrite seq_S, rev_app_distr. cbn [rev app Nat.add filter].
    assert (B : N.testbit (a_imag A) (N.of_nat m) = (sq sg m =? -1)%Z).
    { rewrite (declared_metric sg A D m) by lia. assert (AOK := declared_ok sg A D). destruct (N.testbit (a_proj A) (N.of_nat m)) eqn:B.
      - assert (X : N.testbit (N.land (a_imag A) (a_proj A)) (N.of_nat m) = false) by (rewrite (ok_ip A AOK); apply N.bits_0).
        rewrite N.land_spec, B, Bool.andb_true_r in X. rewrite X. reflexivity.
      - destruct (N.testbit (a_imag A) (N.of_nat m)); reflexivity. }
    rewrite N.land_spec, B. destruct (N.testbit k (N.of_nat m)); cbn [andb filter].
    - destruct (sq sg m =? -1)%Z; cbn [length]; rewrite IH by lia; lia.
    - rewrite IH by lia. lia. }
  apply G. lia.
Qed.

Section GMul.
Context {T : Type} {RO : RingOps T} {L : RingLaws T} {md : Mode} {S : Type} {St : Storage T S} {SL : StorageLaws T S}.
Lemma g_mul_ok B (x y : S) f g : alg_ok B -> valid B x -> valid B y -> feq (a_dim B) (rd x) f -> feq (a_dim B) (rd y) g ->
  gives B (mv_mul B x y) (gp (a_dim B) (a_imag B) (a_proj B) f g).
Proof.
  intros BOK Hx Hy Hf Hg. destruct (mul_ok B BOK (st_wf_dim _ _ Hx) x y Hx Hy) as (z & E & Hz & Hc). apply gives_iff. exists z. split; [exact E|]. split; [exact Hz|].
  intros k Hk. rewrite Hc by auto. apply gp_ext; auto; intros i Hi; [rewrite <- Hf|rewrite <- Hg]; auto; symmetry; apply (rd_coef (a_dim B)); auto.
Qed.
Lemma g_add_ok B (x y : S) f g : valid B x -> valid B y -> feq (a_dim B) (rd x) f -> feq (a_dim B) (rd y) g -> gives B (mv_add x y) (fadd f g).
Proof.
  intros Hx Hy Hf Hg. destruct (add_ok B x y Hx Hy) as (z & E & Hz & Hc). apply gives_iff. exists z. split; [exact E|]. split; [exact Hz|].
  intros k Hk. rewrite Hc. unfold fadd. rewrite <- Hf, <- Hg by auto. rewrite !(rd_coef (a_dim B)) by auto. auto.
Qed.
Lemma gives_of B r (f : N -> T) : (exists z : S, r = Ok z /\ st_wf (a_dim B) z /\ forall k, (k < pow2 (a_dim B))%N -> st_coef z k = f k) -> gives B r f.
Proof. apply gives_iff. Qed.
End GMul.

Lemma gives_bind2 {T T'} {RO : RingOps T} {L : RingLaws T} {RO' : RingOps T'} {L' : RingLaws T'} {S S'} {St : Storage T S} {SL : StorageLaws T S} {St' : Storage T' S'} {SL' : StorageLaws T' S'}
  A B (r : res S) (k : S -> res S') f g : gives A r f -> (forall z, valid A z -> feq (a_dim A) (rd z) f -> gives B (k z) g) -> gives B (bind r k) g.
Proof.
  intros (z & -> & Hz & H) Hk. cbn [bind]. apply Hk; auto. intros i Hi. unfold rd. rewrite H by auto. reflexivity.
Qed.

Section C33.
Context {T F : Type} {RT : RingOps T} {LT : RingLaws T} {RF : RingOps F} {LF : RingLaws F}
  {IC : IntoCplx T F} {FC : FromCplx T F} {CV : ConvLaws T F} {md : Mode}.
Local Notation C := (cplx F).
Variables (sg : list tok) (A : algebra).
Hypothesis D : declared sg A.
Let HS := declared_nn sg A D.
Let CS := compl_std A (nonnull sg) HS.
Let CA := Complexification A.
Context {S : Type} {St : Storage T S} {SL : StorageLaws T S} {S' : Type} {St' : Storage C S'} {SL' : StorageLaws C S'}.
Local Notation d := (a_dim A).

Lemma g_complexify (x : S) f : valid A x -> feq d (rd x) f -> st_dim_ok (StorageLaws := SL') d ->
  gives CA (complexify A x : res S') (cfun A f).
Proof.
  intros Hx Hf Hd. destruct (complexify_ok A _ HS x Hx Hd) as (z & E & Hz & Hc). apply gives_of. exists z. split; [exact E|]. split; [exact Hz|].
  intros k Hk. rewrite Hc by auto. unfold cfun, phi. rewrite <- (rd_coef d) by auto. rewrite Hf by auto. reflexivity.
Qed.
Lemma g_decomplexify (z : S') f : valid CA z -> feq d (rd z) f -> st_dim_ok (StorageLaws := SL) d ->
  gives A (decomplexify A z : res S) (fun k => from_complex (phi ipw (a_imag A) f k)).
Proof.
  intros Hx Hf Hd. destruct (decomplexify_ok A _ HS z Hx Hd) as (x & E & Hz & Hc). apply gives_of. exists x. split; [exact E|]. split; [exact Hz|].
  intros k Hk. rewrite Hc by auto. unfold phi. rewrite <- (rd_coef d) by auto. rewrite Hf by auto. reflexivity.
Qed.

Lemma c33_coefs (x : S) : valid A x -> st_dim_ok (StorageLaws := SL') d ->
  gives CA (complexify A x : res S') (fun k => Nat.iter (neg_gens sg k) (rmul (mkC r0 (rneg r1))) (into_complex (rd x k))).
Proof.
  intros Hx Hd. eapply gives_ext; [apply g_complexify; auto; intros i _; reflexivity|]. intros k Hk. unfold cfun, phi. rewrite (neg_gens_imag sg A k D Hk).
  rewrite <- (ph_c ipn ipn_phase). generalize (neg_gens sg k) as n. intros n. generalize (into_complex (rd x k) : C) as c. intros c.
  induction n as [|n IH]; [cbn [Nat.iter]; rewrite (ph_0 ipn ipn_phase); apply mul_1_l|]. change (Nat.iter (Datatypes.S n) (rmul (mkC r0 (rneg r1))) c) with (rmul (mkC r0 (rneg r1)) (Nat.iter n (rmul (mkC r0 (rneg r1))) c)). rewrite <- IH. change (Datatypes.S n) with (1 + n). rewrite (ph_add ipn ipn_phase), <- mul_assoc. reflexivity.
Qed.
Lemma c33_roundtrip (x : S) : valid A x -> st_dim_ok (StorageLaws := SL') d -> agree A (z <- (complexify A x : res S') ;; decomplexify A z) (Ok x).
Proof.
  intros Hx Hd. eapply agree_gives_intro; [|apply gives_Ok; auto].
  apply (gives_bind2 CA A _ (fun z => decomplexify A z) (cfun A (rd x))); [apply g_complexify; auto; intros i _; auto|].
  intros z Hz Hf. eapply gives_ext; [apply g_decomplexify; [exact Hz|exact Hf|apply (st_wf_dim _ _ Hx)]|]. intros k Hk. apply cfun_inv.
Qed.
Lemma c33_mul (x y : S) : valid A x -> valid A y -> st_dim_ok (StorageLaws := SL') d ->
  agree CA (z <- mv_mul A x y ;; (complexify A z : res S')) (X <- (complexify A x : res S') ;; Y <- complexify A y ;; mv_mul CA X Y).
Proof.
  intros Hx Hy Hd. eapply agree_gives_intro.
  - eapply gives_bind2; [apply (g_mul A sg D); auto|]. intros z Hz Hf. apply g_complexify; [exact Hz|exact Hf|exact Hd].
  - eapply gives_bind2; [apply g_complexify; [exact Hx|intros i _; reflexivity|exact Hd]|]. intros X HX EX. cbn beta.
    eapply gives_bind2; [apply g_complexify; [exact Hy|intros i _; reflexivity|exact Hd]|]. intros Y HY EY. cbn beta.
    eapply gives_ext; [apply g_mul_ok; [apply (std_ok _ _ CS)|exact HX|exact HY|exact EX|exact EY]|]. intros k Hk. apply cfun_gp.
Qed.
Lemma c33_add (x y : S) : valid A x -> valid A y -> st_dim_ok (StorageLaws := SL') d ->
  agree CA (z <- mv_add x y ;; (complexify A z : res S')) (X <- (complexify A x : res S') ;; Y <- complexify A y ;; mv_add X Y).
Proof.
  intros Hx Hy Hd. eapply agree_gives_intro.
  - eapply gives_bind2; [apply (g_add A); auto|]. intros z Hz Hf. apply g_complexify; [exact Hz|exact Hf|exact Hd].
  - eapply gives_bind2; [apply g_complexify; [exact Hx|intros i _; reflexivity|exact Hd]|]. intros X HX EX. cbn beta.
    eapply gives_bind2; [apply g_complexify; [exact Hy|intros i _; reflexivity|exact Hd]|]. intros Y HY EY. cbn beta.
    eapply gives_ext; [apply g_add_ok; [exact HX|exact HY|exact EX|exact EY]|]. intros k Hk. symmetry. apply cfun_add.
Qed.
Lemma c33_one : st_dim_ok (StorageLaws := SL) d -> st_dim_ok (StorageLaws := SL') d ->
  agree CA (z <- (mv_one A : res S) ;; (complexify A z : res S')) (mv_one CA).
Proof.
  intros Hd Hd'. eapply agree_gives_intro.
  - eapply gives_bind2; [apply (g_one A); eauto|]. intros z Hz Hf. apply g_complexify; [exact Hz|exact Hf|exact Hd'].
  - apply gives_of. destruct (one_ok CA Hd') as (z & E & Hz & Hc). exists z. split; [exact E|]. split; [exact Hz|]. intros k Hk. rewrite Hc. unfold cfun, phi, del.
    destruct (N.eqb_spec k 0) as [->|]; [|rewrite into_0, mul_0_l; auto]. cbn [N.land popcount]. rewrite (ph_0 ipn ipn_phase), into_one, mul_1_l. reflexivity.
Qed.
Lemma c33_metric (X Y : S') : valid CA X -> valid CA Y -> gives CA (mv_mul CA X Y) (spec_mul (sq_abs sg) (length sg) (rd X) (rd Y)).
Proof.
  intros HX HY. eapply gives_ext; [apply g_mul_ok; [apply (std_ok _ _ CS)|exact HX|exact HY|intros i _; reflexivity|intros i _; reflexivity]|].
  intros k Hk. symmetry. rewrite <- (declared_dim _ _ D). apply spec_mul_gp; [|exact Hk]. intros i Hi. unfold sq_abs. rewrite (declared_metric sg A D i Hi). cbn [CA Complexification a_imag a_proj].
  rewrite N.bits_0. destruct (N.testbit (a_proj A) (N.of_nat i)); auto. destruct (N.testbit (a_imag A) (N.of_nat i)); auto.
Qed.
End C33.

Section C34.
Context {T : Type} {RO : RingOps T} {L : RingLaws T} {md : Mode} {S : Type} {St : Storage T S} {SL : StorageLaws T S}.
Variables (sg : list tok) (A : algebra).
Hypothesis D : declared sg A.
Hypothesis Hl : length sg < 63.
Let HS := declared_nn sg A D.
Local Notation n := (nonnull sg).
Local Notation d := (a_dim A).
Let Hd : d < 63.
Proof. rewrite (declared_dim _ _ D). exact Hl. Qed.

Lemma c34_even (x : S) : Nat.even n = true ->
  a_dim (Even A) = d /\ a_real (Even A) = a_real A /\ a_imag (Even A) = a_imag A /\ a_proj (Even A) = a_proj A /\ into_original A x = Ok x.
Proof. intros E. destruct (even_eq A n HS E) as (H1 & H2 & H3 & H4). do 4 (split; [assumption|]). apply (into_original_even A n HS x E). Qed.

Section Odd.
Hypothesis E : Nat.even n = false.
Let ES := even_std_odd A n HS E Hd.
Let Ed := even_dim A n HS E Hd.
Lemma c34_dim : a_dim (Even A) = Datatypes.S (length sg).
Proof. rewrite Ed, (declared_dim _ _ D). reflexivity. Qed.
Lemma c34_metric (X Y : S) : valid (Even A) X -> valid (Even A) Y -> gives (Even A) (mv_mul (Even A) X Y) (spec_mul (sq_ins sg n) (Datatypes.S (length sg)) (rd X) (rd Y)).
Proof.
  intros HX HY. eapply gives_ext; [apply g_mul_ok; [apply (std_ok _ _ ES)|exact HX|exact HY|intros i _; reflexivity|intros i _; reflexivity]|].
  intros k Hk. symmetry. rewrite <- c34_dim. apply spec_mul_gp; [|exact Hk]. intros i Hi. rewrite Ed in Hi. pose proof (std_nn A n HS) as Hn. unfold sq_ins.
  rewrite (even_proj A n HS E Hd). assert (Ei : a_imag (Even A) = a_imag A) by reflexivity. rewrite Ei.
  pose proof (real_bit A n HS) as RB.
  assert (IB : forall j, n <= j -> N.testbit (a_imag A) (N.of_nat j) = false).
  { intros j Hj. specialize (RB (N.of_nat j)). rewrite N.lor_spec in RB. destruct (N.ltb_spec (N.of_nat j) (N.of_nat n)); [lia|]. apply Bool.orb_false_iff in RB. apply RB. }
  assert (PB : forall j, j < n -> N.testbit (a_proj A) (N.of_nat j) = false).
  { intros j Hj. rewrite (std_p A n HS), N.ldiff_spec, !testbit_ones. destruct (N.ltb_spec (N.of_nat j) (N.of_nat n)); [|lia]. apply Bool.andb_false_r. }
  destruct (Nat.ltb_spec i n) as [H|H].
  - destruct (N.leb_spec (N.of_nat (Datatypes.S n)) (N.of_nat i)); [lia|]. cbn [andb]. rewrite (declared_metric sg A D i) by lia. rewrite PB by auto. reflexivity.
  - rewrite IB by auto. destruct (Nat.eqb_spec i n) as [->|Hne].
    + destruct (N.leb_spec (N.of_nat (Datatypes.S n)) (N.of_nat n)); [lia|reflexivity].
    + destruct (N.leb_spec (N.of_nat (Datatypes.S n)) (N.of_nat i)); [|lia]. destruct (N.ltb_spec (N.of_nat i) (N.of_nat (Datatypes.S d))); [|lia]. cbn [andb].
      rewrite (declared_metric sg A D (i - 1)) by lia. rewrite (std_P A n HS) by lia. reflexivity.
Qed.
Lemma c34_into (X : S) : valid (Even A) X -> st_dim_ok (StorageLaws := SL) d -> gives A (into_original A X) (fun i => rd X (with_gap n i)).
Proof.
  intros HX Hs. unfold valid in HX. rewrite Ed in HX. destruct (into_original_odd A n HS X E Hd HX Hs) as (z & Ez & Hz & Hc). apply gives_of. exists z. split; [exact Ez|]. split; [exact Hz|].
  intros k Hk. rewrite Hc by auto. symmetry. apply (rd_coef (Datatypes.S d)); auto. apply (ins_lt A n k); auto. apply (std_nn A n HS).
Qed.
Lemma padded_gap (f : N -> T) k : padded n f (with_gap n k) = f k.
Proof. change (padf n f (insb n k) = f k). unfold padf. rewrite ins_bit, del_ins. reflexivity. Qed.
Lemma c34_back (x X : S) : valid A x -> valid (Even A) X -> (forall k, (k < 2 ^ N.of_nat (a_dim (Even A)))%N -> rd X k = padded n (rd x) k) ->
  agree A (into_original A X) (Ok x).
Proof.
  intros Hx HX H. eapply agree_gives_intro; [|apply gives_Ok; auto]. eapply gives_ext; [apply c34_into; auto; apply (st_wf_dim _ _ Hx)|]. intros k Hk. cbn beta. rewrite H.
  - apply padded_gap.
  - change (with_gap n k < pow2 (a_dim (Even A)))%N. rewrite Ed. apply (ins_lt A n k); auto. apply (std_nn A n HS).
Qed.
Lemma c34_mul (x y X Y : S) : valid A x -> valid A y -> valid (Even A) X -> valid (Even A) Y ->
  (forall k, (k < 2 ^ N.of_nat (a_dim (Even A)))%N -> rd X k = padded n (rd x) k) ->
  (forall k, (k < 2 ^ N.of_nat (a_dim (Even A)))%N -> rd Y k = padded n (rd y) k) ->
  exists z Z : S, mv_mul A x y = Ok z /\ mv_mul (Even A) X Y = Ok Z /\ valid A z /\ valid (Even A) Z /\
    (forall k, (k < 2 ^ N.of_nat (a_dim (Even A)))%N -> rd Z k = padded n (rd z) k) /\ agree A (into_original A Z) (mv_mul A x y).
Proof.
  intros Hx Hy HX HY H1 H2. pose proof (g_mul A sg D x y Hx Hy) as G. destruct G as (z & Ez & Hz & Hc).
  destruct (g_mul_ok (Even A) X Y _ _ (std_ok _ _ ES) HX HY H1 H2) as (Z & EZ & HZ & HcZ). exists z, Z. do 4 (split; [assumption|]).
  pose proof (std_nn A n HS) as Hn.
  assert (K : forall k, (k < 2 ^ N.of_nat (a_dim (Even A)))%N -> rd Z k = padded n (rd z) k).
  { intros k Hk. unfold rd at 1. rewrite HcZ by exact Hk. change (k < pow2 (a_dim (Even A)))%N in Hk.
    change (gp (a_dim (Even A)) (a_imag A) (a_proj (Even A)) (padf n (rd x)) (padf n (rd y)) k = padf n (rd z) k). rewrite Ed in *.
    replace (Datatypes.S d) with (Datatypes.S n + (d - n)) in * by lia. rewrite (gp_padf n (d - n) _ (a_proj A)); auto.
    - unfold padf. destruct (N.testbit k (N.of_nat n)) eqn:B; auto. replace (n + (d - n)) with d by lia. unfold rd. rewrite Hc; auto. apply (del_lt A n); auto. replace (Datatypes.S d) with (Datatypes.S n + (d - n)) by lia. auto.
    - intros j Hj. apply (std_P A n HS). lia.
    - intros j Hj. rewrite (even_proj A n HS E Hd). destruct (N.leb_spec (N.of_nat (Datatypes.S n)) (N.of_nat (Datatypes.S n + j))); [|lia]. destruct (N.ltb_spec (N.of_nat (Datatypes.S n + j)) (N.of_nat (Datatypes.S d))); [auto|lia].
    - intros j Hj. rewrite (even_proj A n HS E Hd), (std_p A n HS), N.ldiff_spec, !testbit_ones. destruct (N.leb_spec (N.of_nat (Datatypes.S n)) (N.of_nat j)); [lia|]. destruct (N.ltb_spec (N.of_nat j) (N.of_nat n)); [|lia]. rewrite Bool.andb_false_r. reflexivity. }
  split; auto. rewrite Ez. apply c34_back; auto.
Qed.
Lemma c34_add (x y X Y : S) : valid A x -> valid A y -> valid (Even A) X -> valid (Even A) Y ->
  (forall k, (k < 2 ^ N.of_nat (a_dim (Even A)))%N -> rd X k = padded n (rd x) k) ->
  (forall k, (k < 2 ^ N.of_nat (a_dim (Even A)))%N -> rd Y k = padded n (rd y) k) ->
  agree A (Z <- mv_add X Y ;; into_original A Z) (mv_add x y).
Proof.
  intros Hx Hy HX HY H1 H2. eapply agree_gives_intro; [|apply (g_add A); auto].
  eapply gives_bind2; [apply g_add_ok; [exact HX|exact HY|exact H1|exact H2]|]. intros Z HZ EZ. cbn beta. eapply gives_ext; [apply c34_into; auto; apply (st_wf_dim _ _ Hx)|].
  intros k Hk. cbn beta. rewrite EZ.
  - unfold fadd. rewrite !padded_gap. reflexivity.
  - change (with_gap n k < pow2 (a_dim (Even A)))%N. rewrite Ed. apply (ins_lt A n k); auto. apply (std_nn A n HS).
Qed.
End Odd.
End C34.
