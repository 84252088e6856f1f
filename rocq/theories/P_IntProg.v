(** Programs whose intermediate results stay small are computed exactly. *)
From Verif Require Export Spec_IntProg P_RWedge.
From Coq Require Import Lia ZArith.
Local Open Scope Z_scope.

Lemma zsum_le {X} (f g : X -> Z) l : (forall i, In i l -> f i <= g i) -> suml f l <= suml g l.
Proof.
  induction l as [|a l IH]; intros Hl; cbn [suml]; [lia|]. change (@radd Z ZOps) with Z.add.
  assert (f a <= g a) by (apply Hl; cbn; auto). assert (suml f l <= suml g l) by (apply IH; intros; apply Hl; cbn; auto). lia.
Qed.
Lemma zsum_pos {X} (f : X -> Z) l : (forall i, In i l -> 0 <= f i) -> 0 <= suml f l.
Proof.
  induction l as [|a l IH]; intros Hl; cbn [suml]; [cbn; lia|]. change (@radd Z ZOps) with Z.add.
  assert (0 <= f a) by (apply Hl; cbn; auto). assert (0 <= suml f l) by (apply IH; intros; apply Hl; cbn; auto). lia.
Qed.
Lemma zI_pos n (f : N -> Z) : (forall i, (i < pow2 n)%N -> 0 <= f i) -> 0 <= sumI n f.
Proof. intros Hl. apply zsum_pos. intros i Hi. apply Hl. apply in_idxs. auto. Qed.

Lemma enum_tr {T T'} {RT : RingOps T} {RT' : RingOps T'} d (f : N -> T) l (h : N -> T') : enum_of d f (fun _ => true) l ->
  (forall i, (i < pow2 d)%N -> f i = r0 -> h i = r0) -> enum_of d h (fun _ => true) (map (fun ic => (fst ic, h (fst ic))) l).
Proof.
  intros (H1 & H2 & H3) H0. split; [|split].
  - rewrite map_map. cbn. exact H1.
  - intros i c Hi. apply in_map_iff in Hi. destruct Hi as ([i' c'] & E & Hi). inversion E; subst. apply H2 in Hi. destruct Hi as (? & ? & _). auto.
  - intros i Hi Hp Hn. apply in_map_iff. exists (i, f i). split; [reflexivity|]. apply H3; auto.
Qed.
Lemma enum_sum_tr {T T'} {RT : RingOps T} {RT' : RingOps T'} {W' : NumLaws T'} {L' : RingLaws T'} d (f : N -> T) l (h : N -> T') (g : N -> T' -> T') : enum_of d f (fun _ => true) l ->
  (forall i, (i < pow2 d)%N -> f i = r0 -> h i = r0) -> (forall i, g i r0 = r0) ->
  suml (fun i => g i (h i)) (map fst l) = sumI d (fun i => g i (h i)).
Proof.
  intros He H0 Hg. pose proof (enum_tr _ _ _ h He H0) as He'. rewrite <- (enum_sum_all d _ _ g He' Hg). rewrite suml_map. rewrite (suml_map _ _ l).
  apply suml_ext. intros [i c] Hi. reflexivity.
Qed.

Section Sums.
Context {R F : Type} {RR : RingOps R} {LR : RingLaws R} {CR : ConjOps R} {RF : RingOps F} {CF : ConjOps F} {W : NumLaws F} {EM : Emb R F} {EL : EmbLaws R F}.
Local Notation size := (@size R F EM).
Local Notation top := (@top R F EM).
Lemma z_0 : size r0 = 0. Proof. exact (@sz_0 R F RR CR RF CF EM EL). Qed.
Lemma z_1 : size r1 <= top. Proof. exact (@sz_1 R F RR CR RF CF EM EL). Qed.
Lemma z_pos a : 0 <= size a. Proof. exact (@sz_pos R F RR CR RF CF EM EL a). Qed.
Lemma z_neg a : size (rneg a) = size a. Proof. exact (@sz_neg R F RR CR RF CF EM EL a). Qed.
Lemma z_conj a : size (rconj a) = size a. Proof. exact (@sz_conj R F RR CR RF CF EM EL a). Qed.
Lemma z_conj0 : rconj r0 = (@r0 R RR). Proof. exact (@sz_conj0 R F RR CR RF CF EM EL). Qed.
Lemma z_add a b : size (radd a b) <= size a + size b. Proof. exact (@sz_add R F RR CR RF CF EM EL a b). Qed.
Lemma z_mul a b : size (rmul a b) <= size a * size b. Proof. exact (@sz_mul R F RR CR RF CF EM EL a b). Qed.
Lemma w_0 : @emb R F EM r0 = r0. Proof. exact (@em_0 R F RR CR RF CF EM EL). Qed.
Lemma w_1 : @emb R F EM r1 = r1. Proof. exact (@em_1 R F RR CR RF CF EM EL). Qed.
Lemma w_neg a : rneg (emb a) = emb (rneg a). Proof. exact (@em_neg R F RR CR RF CF EM EL a). Qed.
Lemma w_conj a : rconj (emb a) = emb (rconj a). Proof. exact (@em_conj R F RR CR RF CF EM EL a). Qed.
Lemma w_add a b : size a <= top -> size b <= top -> size (radd a b) <= top -> radd (emb a) (emb b) = emb (radd a b). Proof. exact (@em_add R F RR CR RF CF EM EL a b). Qed.
Lemma w_mul a b : size a <= top -> size b <= top -> size a * size b <= top -> rmul (emb a) (emb b) = emb (rmul a b). Proof. exact (@em_mul R F RR CR RF CF EM EL a b). Qed.
Lemma w_eqb a b : size a <= top -> size b <= top -> reqb (emb a) (emb b) = reqb a b. Proof. exact (@em_eqb R F RR CR RF CF EM EL a b). Qed.

Lemma e_zero a : size a <= top -> emb a = r0 -> a = r0.
Proof.
  intros Ha E. assert (G : reqb (emb a) (emb r0) = reqb a r0).
  { apply w_eqb; auto. rewrite z_0. pose proof (z_pos a). lia. }
  apply reqb_spec. rewrite <- G, E, w_0. rewrite <- w_0, w_eqb; [apply reqb_spec; reflexivity| |]; rewrite z_0; pose proof (z_pos a); lia.
Qed.
Lemma top_pos : 0 <= top.
Proof. pose proof (z_1 ). pose proof (z_pos r1). lia. Qed.
Lemma s_sub a b : size (rsub a b) <= size a + size b.
Proof. rewrite sub_def. rewrite <- (z_neg b). apply z_add. Qed.
Lemma e_sub a b : size a <= top -> size b <= top -> size (rsub a b) <= top -> rsub (emb a) (emb b) = emb (rsub a b).
Proof.
  intros Ha Hb Hs. rewrite n_sub_def, w_neg, w_add; [rewrite sub_def; reflexivity|auto|rewrite z_neg; auto|rewrite <- sub_def; auto].
Qed.
Lemma s_sum {X} (f : X -> R) l : size (suml f l) <= suml (fun i => size (f i)) l.
Proof.
  induction l as [|a l IH]; cbn [suml]; [rewrite z_0; cbn; lia|]. change (@radd Z ZOps) with Z.add. pose proof (z_add (f a) (suml f l)). lia.
Qed.
Lemma s_zact s (a : R) : size (zact s a) <= size a.
Proof. unfold zact. destruct (s =? 1); [lia|]. destruct (s =? -1); [rewrite z_neg; lia|]. rewrite z_0. apply z_pos. Qed.
Lemma s_act s (a : R) : size (act s a) <= size a.
Proof. destruct s; cbn [act]; rewrite ?z_neg, ?z_0; try lia; apply z_pos. Qed.
Lemma s_sgb b (a : R) : size (sgb b a) = size a.
Proof. destruct b; cbn [sgb]; auto using z_neg. Qed.
Lemma e_sgb b (a : R) : sgb b (emb a) = emb (sgb b a).
Proof. destruct b; cbn [sgb]; auto using w_neg. Qed.
Lemma gp_size n Q P (x y : N -> R) k : size (gp n Q P x y k) <= sumI n (fun j => size (x j) * size (y (N.lxor j k))).
Proof.
  unfold gp. eapply Z.le_trans; [apply s_sum|]. apply zsum_le. intros j Hj. eapply Z.le_trans; [apply s_act|]. apply z_mul.
Qed.

(** The terms of a product, one after the other. *)
Lemma terms_exact ord (used : N -> bool) (s : N -> Z) (X Z' : N -> F) (x z : N -> R) c S M :
  (forall i, In i ord -> X i = emb (x i) /\ Z' i = emb (z i) /\ size (x i) <= top /\ size (z i) <= top) ->
  (forall i, used i = false -> In i ord -> z i = r0) ->
  c = emb S -> size S <= M -> M + suml (fun i => size (x i) * size (z i)) ord <= top ->
  fold_left (fun c i => if used i then add_term (s i) c (rmul (X i) (Z' i)) else c) ord c
  = emb (radd S (suml (fun i => zact (s i) (rmul (x i) (z i))) ord)).
Proof.
  revert c S M. induction ord as [|i ord IH]; intros c S M Hxz Hz Hc HS HM; cbn [fold_left suml] in *.
  - rewrite add_0_r. exact Hc.
  - change (@radd Z ZOps) with Z.add in HM. rewrite add_assoc.
    destruct (Hxz i (or_introl eq_refl)) as (EX & EZ & Sx & Sz). pose proof (z_pos (x i)). pose proof (z_pos (z i)).
    assert (0 <= suml (fun i => size (x i) * size (z i)) ord) by (apply zsum_pos; intros j Hj; pose proof (z_pos (x j)); pose proof (z_pos (z j)); nia).
    pose proof (z_pos S). pose proof (z_mul (x i) (z i)). 
    assert (HT : size (zact (s i) (rmul (x i) (z i))) <= size (x i) * size (z i)) by (eapply Z.le_trans; [apply s_zact|assumption]).
    apply (IH _ _ (M + size (x i) * size (z i))).
    + intros; apply Hxz; cbn; auto.
    + intros; apply Hz; cbn; auto.
    + destruct (used i) eqn:Eu.
      * rewrite EX, EZ, w_mul by (auto; lia). unfold add_term, zact in *. subst c. destruct (s i =? 1) eqn:E1; [|destruct (s i =? -1) eqn:E2].
        -- apply w_add; try lia. pose proof (z_add S (rmul (x i) (z i))). lia.
        -- rewrite e_sub; try lia; [rewrite sub_def; reflexivity|]. pose proof (s_sub S (rmul (x i) (z i))). lia.
        -- rewrite add_0_r. reflexivity.
      * rewrite (Hz i Eu) by (cbn; auto). rewrite mul_0_r. replace (zact (s i) r0) with (@r0 R _); [rewrite add_0_r; exact Hc|].
        unfold zact. destruct (_ =? 1); [reflexivity|]. destruct (_ =? -1); [|reflexivity]. symmetry. apply n_neg_0.
    + pose proof (z_add S (zact (s i) (rmul (x i) (z i)))). lia.
    + lia.
Qed.

Section Kind.
Context {S : Type} {St : Storage F S} {SL : StorageLaws F S}.
Lemma enum_exact n (x y : S) (f g : N -> R) (p : N -> N) (s : N -> Z) : st_wf n x -> st_wf n y -> (forall i, (i < pow2 n)%N -> (p i < pow2 n)%N) ->
  (forall i, (i < pow2 n)%N -> rd x i = emb (f i) /\ size (f i) <= top) -> (forall i, (i < pow2 n)%N -> rd y i = emb (g i) /\ size (g i) <= top) ->
  sumI n (fun i => size (f i) * size (g (p i))) <= top ->
  fold_left (fun c i => if existsb (N.eqb (p i)) (map fst (mv_coeff_enumerate y)) then add_term (s i) c (rmul (rd x i) (rd y (p i))) else c)
    (map fst (mv_coeff_enumerate x)) r0
  = emb (sumI n (fun i => zact (s i) (rmul (f i) (g (p i))))).
Proof.
  intros Hx Hy Hp Hf Hg HT. pose proof (st_enum_ok n x Hx) as Ex. pose proof (st_enum_ok n y Hy) as (_ & _ & Ey).
  assert (Ex' : enum_of n (rd x) (fun _ => true) (st_enum x)).
  { destruct Ex as (H1 & H2 & H3). split; [exact H1|]. split.
    - intros i b Hi. rewrite (rd_coef n) by (auto; apply (H2 i b Hi)). apply H2; auto.
    - intros i Hi _. rewrite (rd_coef n) by auto. apply H3; auto. }
  assert (H0 : forall i, (i < pow2 n)%N -> rd x i = r0 -> f i = r0).
  { intros i Hi E. destruct (Hf i Hi) as [E1 E2]. apply e_zero; congruence. }
  assert (Hin : forall i, In i (map fst (st_enum x)) -> (i < pow2 n)%N).
  { intros i Hi. apply in_map_iff in Hi. destruct Hi as ([j b] & <- & Hi). apply Ex in Hi. apply Hi. }
  unfold mv_coeff_enumerate. erewrite (terms_exact _ _ _ _ _ f (fun i => g (p i)) r0 r0 0).
  - rewrite add_0_l. f_equal. apply (enum_sum_tr n (rd x) (st_enum x) f (fun i v => zact (s i) (rmul v (g (p i)))) Ex' H0).
    intros i. rewrite mul_0_l. unfold zact. destruct (_ =? 1); [reflexivity|]. destruct (_ =? -1); [|reflexivity]. apply n_neg_0.
  - intros i Hi. apply Hin in Hi. destruct (Hf i Hi). destruct (Hg (p i) (Hp i Hi)). auto.
  - intros i Hj Hi. apply Hin in Hi. pose proof (Hp i Hi) as Hl. destruct (Hg (p i) Hl) as [E1 E2]. apply e_zero; [exact E2|]. rewrite <- E1.
    destruct (ris0 (rd y (p i))) eqn:E0; [apply n_is0_spec in E0; exact E0|].
    exfalso. apply not_true_iff_false in Hj. apply Hj. apply existsb_exists. exists (p i). split; [|apply N.eqb_refl].
    apply in_map_iff. exists (p i, st_coef y (p i)). split; [reflexivity|]. apply Ey; auto.
    rewrite <- (rd_coef n) by auto. intros E. apply n_is0_spec in E. congruence.
  - symmetry. apply w_0.
  - rewrite z_0. lia.
  - rewrite (enum_sum_tr n (rd x) (st_enum x) (fun i => size (f i)) (fun i v => v * size (g (p i))) Ex'); [lia| |].
    + intros i Hi E. rewrite (H0 i Hi E). apply z_0.
    + intros i. apply Z.mul_0_l.
Qed.
End Kind.

(** The recursion. *)
Local Notation psum n f g k := (sumI n (fun j => size (f j) * size (g (N.lxor j k)))).
Theorem fwp_exact n : forall (x y : N -> F) (f g : N -> R) k, (k < pow2 n)%N ->
  (forall i, (i < pow2 n)%N -> x i = emb (f i) /\ size (f i) <= top) -> (forall i, (i < pow2 n)%N -> y i = emb (g i) /\ size (g i) <= top) ->
  psum n f g k <= top -> fwp n x y k = emb (gp n 0 (ones n) f g k).
Proof.
  induction n as [|n IH]; intros x y f g k Hk Hx Hy HT.
  - unfold pow2 in Hk. assert (k = 0%N) as -> by (cbn in Hk; lia). cbn [fwp]. destruct (Hx 0%N) as [-> Sx]; [cbn; lia|]. destruct (Hy 0%N) as [-> Sy]; [cbn; lia|].
    unfold gp. rewrite (sumI_O (T := R)). rewrite (sumI_O (T := Z)) in HT. change (N.lxor 0 0) with 0%N in *.
    change (act (gsign 0 0 (ones 0) 0 0) (rmul (f 0%N) (g 0%N))) with (rmul (f 0%N) (g 0%N)). apply w_mul; auto.
  - assert (HL : forall i, (i < pow2 n)%N -> (i < pow2 (S n))%N) by (intros i Hi; rewrite pow2_S; lia).
    assert (HH : forall i, (i < pow2 n)%N -> (pow2 n + i < pow2 (S n))%N) by (intros i Hi; rewrite pow2_S; lia).
    rewrite (sumI_S (T := Z)) in HT. change (@radd Z ZOps) with Z.add in HT.
    match type of HT with ?a + ?b <= _ => assert (0 <= a /\ 0 <= b) as [Pa Pb] end.
    { split; apply zI_pos; intros j Hj; apply Z.mul_nonneg_nonneg; apply z_pos. }
    destruct (index_split n k Hk) as [Hk'|(k' & Hk' & ->)].
    + rewrite fwp_low, wp_low by auto. apply IH; auto. lia.
    + rewrite fwp_high, wp_high by auto.
      assert (Ta : psum n (up n f) g k' = sumI n (fun j => size (f (pow2 n + j)%N) * size (g (N.lxor (pow2 n + j) (pow2 n + k'))))).
      { apply sumI_ext. intros j Hj. rewrite lxor_top_top by auto. reflexivity. }
      assert (Tb : psum n (alpha f) (up n g) k' = sumI n (fun j => size (f j) * size (g (N.lxor j (pow2 n + k'))))).
      { apply sumI_ext. intros j Hj. rewrite lxor_top_r by auto. unfold alpha. rewrite s_sgb. reflexivity. }
      rewrite (IH _ _ (up n f) g k'), (IH _ _ (alpha f) (up n g) k'); auto; try lia.
      * apply w_add.
        -- eapply Z.le_trans; [apply gp_size|]. lia.
        -- eapply Z.le_trans; [apply gp_size|]. lia.
        -- eapply Z.le_trans; [apply z_add|]. pose proof (gp_size n 0 (ones n) (up n f) g k'). pose proof (gp_size n 0 (ones n) (alpha f) (up n g) k'). lia.
      * intros i Hi. unfold alpha. destruct (Hx i (HL i Hi)) as [-> Hs]. rewrite e_sgb, s_sgb. auto.
      * intros i Hi. unfold up. auto.
      * intros i Hi. unfold up. auto.
Qed.
End Sums.
