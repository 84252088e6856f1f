(** Error bounds for the operations of multivectors. *)
From Verif Require Export Spec_Round P_Float.
From Coq Require Import QArith Lqa Lia.
Local Open Scope Qc_scope.

(** To rational arithmetic. *)
Ltac qn := unfold Qcle, Qclt, Qcminus, Qcplus, Qcmult, Qcopp, Q2Qc in *; cbn [this] in *; rewrite ?Qred_correct in *.
Ltac absn := repeat match goal with |- context [Qcabs ?x] => let a := fresh "a" in let E := fresh in remember (Qcabs x) as a eqn:E; clear E
  | H : context [Qcabs ?x] |- _ => let a := fresh "a" in let E := fresh in remember (Qcabs x) as a eqn:E; clear E end.
Ltac qlra := absn; qn; lra.

Lemma qmul_le (a b c : Qc) : 0 <= c -> a <= b -> c * a <= c * b.
Proof. intros Hc H. rewrite !(Qcmult_comm c). apply Qcmult_le_compat_r; auto. Qed.
Lemma qmul_pos (a b : Qc) : 0 <= a -> 0 <= b -> 0 <= a * b.
Proof. intros Ha Hb. replace 0 with (a * 0) by ring. apply qmul_le; auto. Qed.
Lemma qpow_ge (u : Qc) t : 0 <= u -> 1 <= (1 + u) ^ t.
Proof.
  intros Hu. induction t as [|t IH]; [apply Qcle_refl|]. cbn [Qcpower]. pose proof (qmul_pos u ((1 + u) ^ t) Hu).
  assert (0 <= (1 + u) ^ t) by (eapply Qcle_trans; [|exact IH]; discriminate). specialize (H H0).
  replace ((1 + u) * (1 + u) ^ t) with ((1 + u) ^ t + u * (1 + u) ^ t) by ring. clear H0. set (X := (1 + u) ^ t) in *. set (Y := u * X) in *. qlra.
Qed.
Lemma qabs0 : Qcabs 0 = 0.
Proof. apply Qcabs_pos, Qcle_refl. Qed.
Lemma qabs_le (a b : Qc) : Qcabs a <= b -> - b <= a /\ a <= b.
Proof. apply Qcabs_Qcle_condition. Qed.
Lemma qabs_ge (a b : Qc) : - b <= a -> a <= b -> Qcabs a <= b.
Proof. intros H1 H2. apply Qcabs_Qcle_condition. split; assumption. Qed.

(** One more rounded term. *)
Lemma acc_step (u e G B c S M p q c' : Qc) : 0 <= u -> 0 <= e -> 1 + u <= G -> 0 <= B -> 
  Qcabs (c - S) <= (G - 1) * M + B * e -> Qcabs S <= M -> Qcabs (p - q) <= u * Qcabs q + e ->
  Qcabs (c' - (c + p)) <= u * Qcabs (c + p) + e ->
  Qcabs (c' - (S + q)) <= ((1 + u) * G - 1) * (M + Qcabs q) + ((1 + u) * (B + 1) + 1) * e.
Proof.
  intros Hu He HG HB H1 H2 H3 H4.
  assert (A1 : Qcabs (c + p) <= M + Qcabs q + ((G - 1) * M + B * e) + (u * Qcabs q + e)).
  { replace (c + p) with ((S + q) + ((c - S) + (p - q))) by ring.
    eapply Qcle_trans; [apply Qcabs_triangle|]. pose proof (Qcabs_triangle S q) as T1. pose proof (Qcabs_triangle (c - S) (p - q)) as T2. qlra. }
  assert (A2 := qmul_le _ _ u Hu A1).
  assert (A3 : Qcabs (c' - (S + q)) <= Qcabs (c' - (c + p)) + (Qcabs (c - S) + Qcabs (p - q))).
  { replace (c' - (S + q)) with ((c' - (c + p)) + ((c - S) + (p - q))) by ring.
    eapply Qcle_trans; [apply Qcabs_triangle|]. pose proof (Qcabs_triangle (c - S) (p - q)) as T2. qlra. }
  assert (A4 : 0 <= (1 + u) * ((G - (1 + u)) * Qcabs q)).
  { apply qmul_pos; [qlra|]. apply qmul_pos; [qlra|apply Qcabs_nonneg]. }
  set (aq := Qcabs q) in *. set (X := Qcabs (c + p)) in *. set (Y1 := Qcabs (c' - (c + p))) in *. set (Y2 := Qcabs (c - S)) in *. set (Y3 := Qcabs (p - q)) in *.
  set (Y4 := Qcabs (c' - (S + q))) in *. clearbody aq X Y1 Y2 Y3 Y4. clear A1 H2 HG HB. qlra.
Qed.

Section Sums.
Context {F : Type} {RF : RingOps F} {DF : DivOps F} {V : RoundOps F} {RL : RoundLaws F} {W : NumLaws F}.

Lemma ro_sub a b : finite (rsub a b) = true -> finite a = true /\ finite b = true /\ rounds (val (rsub a b)) (val a - val b).
Proof.
  rewrite n_sub_def. intros H. destruct (ro_add _ _ H) as (H1 & H2 & H3). destruct (ro_neg b) as [E1 E2]. rewrite E2 in H2. rewrite E1 in H3.
  split; [exact H1|]. split; [exact H2|exact H3].
Qed.

(** c is S up to t rounded additions of rounded products of total size M. *)
Definition near (t : nat) (c : F) (S M : Qc) : Prop :=
  Qcabs S <= M /\ (finite c = true -> Qcabs (val c - S) <= product_error t M).

Lemma nat_pos t : 0 <= Q2Qc (inject_Z (2 * Z.of_nat t)).
Proof. unfold Qcle, Q2Qc. cbn [this]. rewrite !Qred_correct. change (inject_Z 0 <= inject_Z (2 * Z.of_nat t))%Q. rewrite <- Zle_Qle. lia. Qed.
Lemma nat_step t : Q2Qc (inject_Z (2 * Z.of_nat (Datatypes.S t))) = Q2Qc (inject_Z (2 * Z.of_nat t)) + (1 + 1).
Proof.
  apply Qc_is_canon. unfold Qcplus. cbn [this Q2Qc]. rewrite !Qred_correct. replace (2 * Z.of_nat (Datatypes.S t))%Z with (2 * Z.of_nat t + 2)%Z by lia.
  rewrite inject_Z_plus. reflexivity.
Qed.

Lemma near_grow t c S M M' : M <= M' -> near t c S M -> near (Datatypes.S t) c S M'.
Proof.
  unfold near, product_error.   intros HM [H1 H2]. pose proof ro_u as Hu. pose proof ro_eta as He. split; [eapply Qcle_trans; eauto|]. intros Hf. specialize (H2 Hf).
  eapply Qcle_trans; [exact H2|]. pose proof (Qcabs_nonneg S) as HS.
  rewrite nat_step. cbn [Qcpower]. pose proof (qpow_ge ulp t Hu) as HG. set (G := (1 + ulp) ^ t) in *. clearbody G.
  pose proof (nat_pos t) as HB. set (B := Q2Qc (inject_Z (2 * Z.of_nat t))) in *. clearbody B.
  assert (G0 : 0 <= G) by qlra.
  assert (A0 : 0 <= ulp * G) by (apply qmul_pos; auto).
  assert (A1 : 0 <= ((1 + ulp) * G - 1) * (M' - M)) by (apply qmul_pos; qlra).
  assert (A2 : 0 <= ulp * ((1 + ulp) * G) * M') by (apply qmul_pos; [apply qmul_pos; qlra|qlra]).
  assert (A3 : 0 <= B * (ulp * G) * eta) by (apply qmul_pos; auto; apply qmul_pos; auto).
  assert (A4 : 0 <= (1 + 1) * ((1 + ulp) * G) * eta) by (apply qmul_pos; auto; apply qmul_pos; [qlra|qlra]).
  clear H1 H2 HB HG. qlra.
Qed.

Lemma near_add t c S M p q : near t c S M -> (finite p = true -> rounds (val p) q) -> near (Datatypes.S t) (radd c p) (S + q) (M + Qcabs q).
Proof.
  unfold near, product_error.   intros [H1 H2] Hp. pose proof ro_u as Hu. pose proof ro_eta as He. split.
  { eapply Qcle_trans; [apply Qcabs_triangle|]. qlra. }
  intros Hf. destruct (ro_add _ _ Hf) as (F1 & F2 & F3). specialize (H2 F1). specialize (Hp F2).
  pose proof (qpow_ge ulp t Hu) as HG. pose proof (nat_pos t) as HB.
  assert (G0 : 0 <= (1 + ulp) ^ t) by (eapply Qcle_trans; [|exact HG]; qlra).
  assert (A0 : 0 <= ulp * ((1 + ulp) ^ t - 1)) by (apply qmul_pos; auto; set (G := (1 + ulp) ^ t) in *; clearbody G; clear - HG; qlra).
  eapply Qcle_trans; [refine (acc_step ulp eta ((1 + ulp) ^ (Datatypes.S t)) (Q2Qc (inject_Z (2 * Z.of_nat t)) * (1 + ulp) ^ t) (val c) S M (val p) q _ Hu He _ _ H2 H1 Hp F3)|].
  - cbn [Qcpower]. set (G := (1 + ulp) ^ t) in *; clearbody G; clear - HG A0 Hu; qlra.
  - apply qmul_pos; auto.
  - rewrite nat_step. cbn [Qcpower]. set (G := (1 + ulp) ^ t) in *. clearbody G. set (B := Q2Qc (inject_Z (2 * Z.of_nat t))) in *. clearbody B.
    assert (A1 : 0 <= (1 + ulp) * (G - 1) * eta) by (apply qmul_pos; auto; apply qmul_pos; qlra).
    assert (A2 : 0 <= ((1 + ulp) * G - 1) * eta) by (apply qmul_pos; auto; qlra).
    clear H2 Hp F3. qlra.
Qed.

Lemma rounds_neg a b : rounds a b -> rounds (- a) (- b).
Proof.
  unfold rounds. rewrite Qcabs_opp. replace (- a - - b) with (- (a - b)) by ring. rewrite Qcabs_opp. auto.
Qed.

Lemma near_0 : near 0 r0 0 0.
Proof.
  unfold near, product_error.   split; [rewrite qabs0; apply Qcle_refl|]. intros _. destruct ro_0 as [-> _]. replace (0 - 0) with 0 by ring. rewrite qabs0.
  replace (_ + _) with 0; [apply Qcle_refl|]. change (Q2Qc (inject_Z (2 * Z.of_nat 0))) with 0. ring.
Qed.

(** The terms of a product. *)
Lemma terms_near ord (used : N -> bool) (s : N -> Z) (x z : N -> F) t c S M :
  (forall i, used i = false -> In i ord -> val (z i) = 0) ->
  near t c S M ->
  near (t + length ord) (fold_left (fun c i => if used i then add_term (s i) c (rmul (x i) (z i)) else c) ord c)
    (S + suml (fun i => zact (s i) (val (x i) * val (z i))) ord)
    (M + suml (fun i => Qcabs (val (x i)) * Qcabs (val (z i))) ord).
Proof.
  revert t c S M. induction ord as [|i ord IH]; intros t c S M Hz Hn.
  - cbn [suml length fold_left]. change (@r0 Qc QcOps) with 0. rewrite Nat.add_0_r, !Qcplus_0_r. exact Hn.
  - cbn [fold_left length suml]. rewrite Nat.add_succ_r. rewrite <- Nat.add_succ_l.
    change (@radd Qc QcOps) with Qcplus. rewrite !Qcplus_assoc.
    assert (Hm : finite (rmul (x i) (z i)) = true -> rounds (val (rmul (x i) (z i))) (val (x i) * val (z i))) by (intros Hf; apply ro_mul; auto).
    assert (HA : 0 <= Qcabs (val (x i)) * Qcabs (val (z i))) by (apply qmul_pos; apply Qcabs_nonneg).
    apply IH; [intros; apply Hz; cbn; auto|].
    rewrite <- !Qcabs_Qcmult. 
    destruct (used i) eqn:Eu.
    + unfold add_term, zact. rewrite <- Qcabs_Qcmult in HA.
      destruct (s i =? 1)%Z eqn:E1; [|destruct (s i =? -1)%Z eqn:E2].
      * apply near_add; auto.
      * rewrite n_sub_def. change (@rneg Qc QcOps) with Qcopp. rewrite <- (Qcabs_opp (val (x i) * val (z i))). apply near_add; auto.
        intros Hf. destruct (ro_neg (rmul (x i) (z i))) as [E3 E4]. rewrite E3. apply rounds_neg. apply Hm. congruence.
      * change (@r0 Qc QcOps) with 0. rewrite Qcplus_0_r. apply (near_grow _ _ _ M); auto. qlra.
    + assert (E0 : val (z i) = 0) by (apply Hz; cbn; auto). rewrite E0, Qcmult_0_r.
      replace (zact (s i) 0) with 0 by (unfold zact; destruct (_ =? 1)%Z; [reflexivity|]; destruct (_ =? -1)%Z; reflexivity).
      rewrite qabs0.  rewrite !Qcplus_0_r. apply (near_grow _ _ _ M); auto. apply Qcle_refl.
Qed.

Lemma enum_val d (f : N -> F) l : enum_of d f (fun _ => true) l ->
  enum_of d (fun i => val (f i)) (fun _ => true) (map (fun ic => (fst ic, val (snd ic))) l).
Proof.
  intros (H1 & H2 & H3). split; [|split].
  - rewrite map_map. cbn. exact H1.
  - intros i c Hi. apply in_map_iff in Hi. destruct Hi as ([i' c'] & E & Hi). inversion E; subst. apply H2 in Hi. destruct Hi as (? & ? & ->). auto.
  - intros i Hi Hp Hn. apply in_map_iff. exists (i, f i). split; [reflexivity|]. apply H3; auto. intros E. apply Hn. rewrite E. apply ro_0.
Qed.
Lemma enum_sumQ d (f : N -> F) l (g : N -> Qc -> Qc) : enum_of d f (fun _ => true) l -> (forall i, g i 0 = 0) ->
  suml (fun i => g i (val (f i))) (map fst l) = sumI d (fun i => g i (val (f i))).
Proof.
  intros He Hg. pose proof (enum_val _ _ _ He) as He'. rewrite <- (enum_sum_all d _ _ g He' Hg). rewrite suml_map. rewrite (suml_map _ _ l).
  apply suml_ext. intros [i c] Hi. cbn [fst snd]. destruct He as (_ & H2 & _). apply H2 in Hi. destruct Hi as (_ & _ & ->). reflexivity.
Qed.

Lemma spec_mul_single {T} {RO : RingOps T} {L : RingLaws T} q n (x y : N -> T) k : (k < pow2 n)%N ->
  spec_mul q n x y k = sumI n (fun i => zact (csign q n i (N.lxor i k)) (rmul (x i) (y (N.lxor i k)))).
Proof.
  intros Hk. unfold spec_mul. apply sumI_ext. intros i Hi. rewrite (sumI_single n _ (N.lxor i k)).
  - rewrite lxor_cancel, N.eqb_refl. reflexivity.
  - apply lxor_lt; auto.
  - intros j Hj Hne. destruct (N.lxor i j =? k)%N eqn:E; auto. apply N.eqb_eq in E. exfalso. apply Hne. subst k. symmetry. apply lxor_cancel.
Qed.

Section Kind.
Context {S : Type} {St : Storage F S} {SL : StorageLaws F S}.
(** A sum over what x enumerates, with the partner index [p i] in y and the sign [s i]. *)
Lemma enum_near n (x y : S) (p : N -> N) (s : N -> Z) : st_wf n x -> st_wf n y -> (forall i, (i < pow2 n)%N -> (p i < pow2 n)%N) ->
  let c := fold_left (fun c i => if existsb (N.eqb (p i)) (map fst (mv_coeff_enumerate y)) then add_term (s i) c (rmul (rd x i) (rd y (p i))) else c)
    (map fst (mv_coeff_enumerate x)) r0 in
  finite c = true ->
  Qcabs (val c - sumI n (fun i => zact (s i) (val (rd x i) * val (rd y (p i)))))
  <= product_error (length (mv_coeff_enumerate x)) (sumI n (fun i => Qcabs (val (rd x i)) * Qcabs (val (rd y (p i))))).
Proof.
  intros Hx Hy Hp c Hf. pose proof (st_enum_ok n x Hx) as Ex. pose proof (st_enum_ok n y Hy) as (_ & _ & Ey).
  assert (Ex' : enum_of n (rd x) (fun _ => true) (st_enum x)).
  { destruct Ex as (H1 & H2 & H3). split; [exact H1|]. split.
    - intros i b Hi. rewrite (rd_coef n) by (auto; apply (H2 i b Hi)). apply H2; auto.
    - intros i Hi _. rewrite (rd_coef n) by auto. apply H3; auto. }
  pose proof (terms_near (map fst (st_enum x)) (fun i => existsb (N.eqb (p i)) (map fst (st_enum y))) s (rd x) (fun i => rd y (p i)) 0 r0 0 0) as [_ HP].
  { intros j Hj Hi. apply in_map_iff in Hi. destruct Hi as ([j' b] & <- & Hi). apply Ex in Hi. cbn [fst] in *. destruct Hi as (Hi & _).
    assert (Hl : (p j' < pow2 n)%N) by (apply Hp; auto).
    destruct (ris0 (rd y (p j'))) eqn:E0; [apply n_is0_spec in E0; rewrite E0; apply ro_0|].
    exfalso. apply not_true_iff_false in Hj. apply Hj. apply existsb_exists. exists (p j'). split; [|apply N.eqb_refl].
    apply in_map_iff. exists (p j', st_coef y (p j')). split; [reflexivity|]. apply Ey; auto.
    rewrite <- (rd_coef n) by auto. intros E. apply n_is0_spec in E. congruence. }
  { exact near_0. }
  specialize (HP Hf). rewrite map_length in HP. rewrite !Qcplus_0_l in HP.
  rewrite (enum_sumQ n (rd x) (st_enum x) (fun i v => zact (s i) (v * val (rd y (p i)))) Ex') in HP.
  2:{ intros i. rewrite Qcmult_0_l. unfold zact. destruct (_ =? 1)%Z; [reflexivity|]. destruct (_ =? -1)%Z; reflexivity. }
  rewrite (enum_sumQ n (rd x) (st_enum x) (fun i v => Qcabs v * Qcabs (val (rd y (p i)))) Ex') in HP.
  2:{ intros i. rewrite qabs0. apply Qcmult_0_l. }
  exact HP.
Qed.
Lemma ordered_near q n (x y : S) k : st_wf n x -> st_wf n y -> (k < pow2 n)%N ->
  finite (ordered_product q n (map fst (mv_coeff_enumerate x)) (fun j => existsb (N.eqb j) (map fst (mv_coeff_enumerate y))) (rd x) (rd y) k) = true ->
  Qcabs (val (ordered_product q n (map fst (mv_coeff_enumerate x)) (fun j => existsb (N.eqb j) (map fst (mv_coeff_enumerate y))) (rd x) (rd y) k)
    - spec_mul q n (fun i => val (rd x i)) (fun i => val (rd y i)) k)
  <= product_error (length (mv_coeff_enumerate x)) (sumI n (fun i => Qcabs (val (rd x i)) * Qcabs (val (rd y (N.lxor i k))))).
Proof.
  intros Hx Hy Hk Hf. rewrite spec_mul_single by auto.
  exact (enum_near n x y (fun i => N.lxor i k) (fun i => csign q n i (N.lxor i k)) Hx Hy (fun i Hi => lxor_lt i k n Hi Hk) Hf).
Qed.
End Kind.
End Sums.

(** ** The API *)
Section Api.
Context {F : Type} {RF : RingOps F} {DF : DivOps F} {V : RoundOps F} {RL : RoundLaws F} {W : NumLaws F} {m : Mode} {H : HashOrder}.
Variable sg : list tok.
Variable A : algebra.
Hypothesis D : declared sg A.
Variable k : kind.
Variables x y : store k F.
Hypothesis (Hx : valid A x) (Hy : valid A y).
Local Notation d := (a_dim A).
Local Notation AOK := (declared_ok sg A D).

Theorem mul_error : exists z : store k F, mv_mul A x y = Ok z /\ valid A z /\
  forall i, (i < 2 ^ N.of_nat d)%N -> finite (rd z i) = true ->
  Qcabs (val (rd z i) - spec_mul (sq sg) d (fun j => val (rd x j)) (fun j => val (rd y j)) i)
   <= product_error (length (mv_coeff_enumerate x)) (sumI d (fun j => Qcabs (val (rd x j)) * Qcabs (val (rd y (N.lxor j i))))).
Proof.
  destruct (mul_seq A sg D x y Hx Hy) as (z & E & Hz & Hc). exists z. split; [exact E|]. split; [exact Hz|]. intros i Hi Hf.
  assert (Er : rd z i = ordered_product (sq sg) d (map fst (mv_coeff_enumerate x)) (fun j => existsb (N.eqb j) (map fst (mv_coeff_enumerate y))) (rd x) (rd y) i)
    by (unfold rd at 1; rewrite Hc by exact Hi; reflexivity).
  rewrite Er in *. apply ordered_near; auto.
Qed.
Theorem wedge_error : exists z : store k F, naive_wedge A x y = Ok z /\ valid A z /\
  forall i, (i < 2 ^ N.of_nat d)%N -> finite (rd z i) = true ->
  Qcabs (val (rd z i) - spec_mul q0 d (fun j => val (rd x j)) (fun j => val (rd y j)) i)
   <= product_error (length (mv_coeff_enumerate x)) (sumI d (fun j => Qcabs (val (rd x j)) * Qcabs (val (rd y (N.lxor j i))))).
Proof.
  destruct (wedge_seq A sg D x y Hx Hy) as (z & E & Hz & Hc). exists z. split; [exact E|]. split; [exact Hz|]. intros i Hi Hf.
  assert (Er : rd z i = ordered_product q0 d (map fst (mv_coeff_enumerate x)) (fun j => existsb (N.eqb j) (map fst (mv_coeff_enumerate y))) (rd x) (rd y) i)
    by (unfold rd at 1; rewrite Hc by exact Hi; reflexivity).
  rewrite Er in *. apply ordered_near; auto.
Qed.
End Api.
