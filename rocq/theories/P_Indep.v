(** The wedge product and linear dependence: lemmas behind C85. *)
From Verif Require Export P_Sandwich5 Spec_PGA.
Local Open Scope nat_scope.

Section Fun.
Context {T : Type} {RO : RingOps T} {L : RingLaws T} {CL : CommLaws T} {DV : DivOps T} {FL : FieldLaws T}.
Add Ring TrI : comm_ring_theory.
Variable A : algebra.
Local Notation d := (a_dim A).
Local Notation wp := (gp d 0 (ones d)).
Local Notation dot := (dotv d 0 0).
Local Open Scope rg_scope.
Hypothesis two : (1 + 1 : T) <> 0.
Implicit Types x y u a r : N -> T.

Lemma nz_mul (a b : T) : a * b = 0 -> b <> 0 -> a = 0.
Proof. intros E Hb. transitivity (a * b * (1 / b)); [|rewrite E; ring]. transitivity (a * (1 / b * b)); [rewrite div_mul by auto; ring|ring]. Qed.

(** ** A repeated factor *)
Lemma wp_scalar a u : homog d 1 a -> homog d 1 u -> dotv d 0 (ones d) a u = 0.
Proof. intros Ha Hu. unfold dotv. apply (homog_wp d 1 1 a u Ha Hu); [apply pow2_pos|]. cbn. lia. Qed.
Lemma wedge_rep a us : homog d 1 a -> vecs d us -> In a us -> feq d (wp a (fwedge d us)) (fun _ => 0).
Proof.
  intros Ha. induction us as [|u us IH]; intros Hv Hin; [contradiction|]. cbn [fwedge]. pose proof (Forall_inv Hv) as Hu. pose proof (Forall_inv_tail Hv) as Hus.
  intros k Hk. rewrite <- gp_assoc by auto. destruct Hin as [->|Hin].
  - rewrite (gp_ext d 0 (ones d) _ (del 0 0) _ (fwedge d us)); auto using feq_refl; [rewrite gp_scalar_l; ring|].
    intros i Hi. rewrite (vec_sq d 0 (ones d) a Ha i Hi), wp_scalar by auto. reflexivity.
  - rewrite (gp_ext d 0 (ones d) _ (fneg (wp u a)) _ (fwedge d us)); auto using feq_refl.
    + rewrite gp_neg_l, gp_assoc by auto. rewrite (gp_ext d 0 (ones d) u u _ (fun _ => 0) k Hk (feq_refl _ _) (IH Hus Hin)). rewrite gp_0_r. ring.
    + apply vec_anti; auto. apply wp_scalar; auto.
Qed.

(** ** Linear combinations *)
Fixpoint flin (cs : list T) (us : list (N -> T)) (k : N) : T :=
  match cs, us with c :: cs', u :: us' => c * u k + flin cs' us' k | _, _ => 0 end.
Lemma flin_wedge cs us y k : gp d 0 (ones d) (flin cs us) y k = flin cs (map (fun u => gp d 0 (ones d) u y) us) k.
Proof.
  revert us. induction cs as [|c cs IH]; intros [|u us]; cbn [flin map]; try apply gp_0_l.
  rewrite <- IH. change (fun k => c * u k + flin cs us k) with (fadd (fun k => c * u k) (flin cs us)). rewrite gp_add_l, gp_scale_l. reflexivity.
Qed.
Lemma flin_0 cs us k : Forall (fun u => u k = 0) us -> flin cs us k = 0.
Proof. intros H. revert cs. induction H as [|u us Hu _ IH]; intros [|c cs]; cbn [flin]; auto. rewrite Hu, IH. ring. Qed.
Lemma flin_zeros m us k : flin (repeat 0 m) us k = 0.
Proof. revert us. induction m as [|m IH]; intros [|u us]; cbn [flin repeat]; auto. rewrite IH. ring. Qed.
Lemma flin_add us : forall cs cs' (k : N), length cs = length us -> length cs' = length us -> exists es, length es = length us /\ forall k, flin es us k = flin cs us k + flin cs' us k.
Proof.
  induction us as [|u us IH]; intros [|c cs] [|c' cs'] k H H'; try discriminate; [exists []; split; auto; intros; cbn; ring|].
  injection H as H. injection H' as H'. destruct (IH cs cs' k H H') as (es & Hl & E). exists ((c + c') :: es). cbn [length flin]. split; [auto|]. intros j. rewrite E. ring.
Qed.
Lemma flin_scale us t : forall cs, length cs = length us -> exists es, length es = length us /\ forall k, flin es us k = t * flin cs us k.
Proof.
  induction us as [|u us IH]; intros [|c cs] H; try discriminate; [exists []; split; auto; intros; cbn; ring|].
  injection H as H. destruct (IH cs H) as (es & Hl & E). exists (t * c :: es). cbn [length flin]. split; [auto|]. intros j. rewrite E. ring.
Qed.
Lemma flin_in us u : In u us -> exists es, length es = length us /\ forall k, flin es us k = u k.
Proof.
  induction us as [|w us IH]; intros Hin; [contradiction|]. destruct Hin as [->|Hin].
  - exists (1 :: repeat 0 (length us)). cbn [length flin]. rewrite repeat_length. split; auto. intros k. rewrite flin_zeros. ring.
  - destruct (IH Hin) as (es & Hl & E). exists (0 :: es). cbn [length flin]. split; auto. intros k. rewrite E. ring.
Qed.

(** The linear combinations of wedges of s of the vectors. *)
Inductive comb (us : list (N -> T)) : nat -> (N -> T) -> Prop :=
| cb_one c : comb us 0 (del 0 c)
| cb_zero s : comb us s (fun _ => 0)
| cb_wedge s u y : In u us -> comb us s y -> comb us (S s) (wp u y)
| cb_add s x y : comb us s x -> comb us s y -> comb us s (fadd x y)
| cb_scale s c x : comb us s x -> comb us s (fun k => c * x k)
| cb_feq s x y : feq d x y -> comb us s x -> comb us s y.

Lemma comb0 us x : comb us 0 x -> exists c, feq d x (del 0 c).
Proof.
  remember 0%nat as s eqn:Es. induction 1 as [c|s|s u y Hu Hy IH|s x y Hx IHx Hy IHy|s c x Hx IH|s x y E Hx IH]; try discriminate; subst.
  - exists c. apply feq_refl.
  - exists 0. intros k Hk. unfold del. destruct (k =? 0)%N; reflexivity.
  - destruct (IHx eq_refl) as (c & E). destruct (IHy eq_refl) as (c' & E'). exists (c + c'). intros k Hk. unfold fadd. rewrite E, E' by auto. unfold del. destruct (k =? 0)%N; [reflexivity|ring].
  - destruct (IH eq_refl) as (c' & E). exists (c * c'). intros k Hk. rewrite E by auto. unfold del. destruct (k =? 0)%N; [reflexivity|ring].
  - destruct (IH eq_refl) as (c & E'). exists c. intros k Hk. rewrite <- E by auto. apply E'. auto.
Qed.
Lemma comb1 us x : comb us 1 x -> exists cs, length cs = length us /\ feq d x (flin cs us).
Proof.
  remember 1%nat as s eqn:Es. induction 1 as [c|s|s u y Hu Hy IH|s x y Hx IHx Hy IHy|s c x Hx IH|s x y E Hx IH]; try discriminate.
  - exists (repeat 0 (length us)). rewrite repeat_length. split; auto. intros k Hk. symmetry. apply flin_zeros.
  - injection Es as ->. destruct (comb0 us y Hy) as (c & E). destruct (flin_in us u Hu) as (es & Hl & Ee). destruct (flin_scale us c es Hl) as (cs & Hl' & Ec).
    exists cs. split; auto. intros k Hk. rewrite Ec, Ee. rewrite (gp_ext d 0 (ones d) u u _ _ k Hk (feq_refl _ _) E). rewrite gp_scalar_r by auto. ring.
  - destruct (IHx Es) as (c & Hl & E). destruct (IHy Es) as (c' & Hl' & E'). destruct (flin_add us c c' 0%N Hl Hl') as (es & Hle & Ee). exists es. split; auto. intros k Hk. rewrite Ee. unfold fadd. rewrite E, E' by auto. reflexivity.
  - destruct (IH Es) as (c' & Hl & E). destruct (flin_scale us c c' Hl) as (es & Hle & Ee). exists es. split; auto. intros k Hk. rewrite Ee, E by auto. reflexivity.
  - destruct (IH Es) as (c & Hl & E'). exists c. split; auto. intros k Hk. rewrite <- E by auto. apply E'. auto.
Qed.
Lemma comb_fwedge us vs : incl vs us -> comb us (length vs) (fwedge d vs).
Proof. induction vs as [|v vs IH]; intros Hi; cbn [fwedge length]; constructor; [apply Hi; left; reflexivity|apply IH; intros w Hw; apply Hi; right; auto]. Qed.

(** ** Contractions *)
Lemma lc_scale a c x : feq d (lc A a (fun k => c * x k)) (fun k => c * lc A a x k).
Proof.
  intros k Hk. unfold lc, fsub.
  rewrite (gp_ext d 0 0 a a (fun i => c * x i) (fun i => x i * c) k) by (auto using feq_refl; intros i Hi; ring). rewrite gp_scale_r.
  rewrite (gp_ext d 0 0 (alpha (fun k => c * x k)) (fun k => c * alpha x k) a a k) by (auto using feq_refl; intros i Hi; unfold alpha; apply eq_sym, sgb_mul_r).
  rewrite gp_scale_l. ring.
Qed.
Lemma lc_zero a : feq d (lc A a (fun _ => 0)) (fun _ => 0).
Proof.
  intros k Hk. rewrite (lc_feq A a a (fun _ => 0) (fun k => 0 * 0) (feq_refl _ _)) by (auto; intros i Hi; ring). rewrite (lc_scale a 0 (fun _ => 0) k Hk). ring.
Qed.
Lemma lc_comb us a s x : homog d 1 a -> vecs d us -> comb us s x -> match s with 0%nat => feq d (lc A a x) (fun _ => 0) | S r => comb us r (lc A a x) end.
Proof.
  intros Ha Hus. induction 1 as [c|s|s u y Hu Hy IH|s x y Hx IHx Hy IHy|s c x Hx IH|s x y E Hx IH].
  - apply lc_one; auto.
  - destruct s; [apply lc_zero|]. eapply cb_feq; [apply feq_sym, lc_zero|constructor].
  - assert (Hu' : homog d 1 u) by (eapply Forall_forall in Hus; eauto).
    eapply cb_feq; [apply feq_sym, lc_wedge; auto|]. destruct s as [|r].
    + eapply cb_feq; [|apply (cb_scale us 0 (dot a u + dot a u) y Hy)]. intros k Hk. rewrite (gp_ext d 0 (ones d) u u _ _ k Hk (feq_refl _ _) IH), gp_0_r. ring.
    + eapply cb_feq; [|apply cb_add; [apply (cb_scale us (S r) (dot a u + dot a u) y Hy)|apply (cb_scale us (S r) (- (1)) (wp u (lc A a y))); constructor; auto]].
      intros k Hk. unfold fadd. ring.
  - destruct s as [|r].
    + intros k Hk. rewrite lc_add by auto. unfold fadd. rewrite IHx, IHy by auto. ring.
    + eapply cb_feq; [apply feq_sym, lc_add|]. constructor; auto.
  - destruct s as [|r].
    + intros k Hk. rewrite lc_scale by auto. rewrite IH by auto. ring.
    + eapply cb_feq; [apply feq_sym, lc_scale|]. constructor; auto.
  - pose proof (lc_feq A a a x y (feq_refl _ _) E) as E'. destruct s as [|r].
    + intros k Hk. rewrite <- E' by auto. auto.
    + eapply cb_feq; [exact E'|exact IH].
Qed.
Fixpoint iter (al : list (N -> T)) x : N -> T := match al with [] => x | a :: al' => iter al' (lc A a x) end.
Lemma iter_feq al : forall x y, feq d x y -> feq d (iter al x) (iter al y).
Proof. induction al as [|a al IH]; intros x y E; cbn [iter]; auto. apply IH. apply lc_feq; auto using feq_refl. Qed.
Lemma iter_add al : forall x y, feq d (iter al (fadd x y)) (fadd (iter al x) (iter al y)).
Proof. induction al as [|a al IH]; intros x y; cbn [iter]; [apply feq_refl|]. intros k Hk. rewrite (iter_feq al _ _ (lc_add A a x y) k Hk). apply IH. auto. Qed.
Lemma iter_scale al : forall c x, feq d (iter al (fun k => c * x k)) (fun k => c * iter al x k).
Proof. induction al as [|a al IH]; intros c x; cbn [iter]; [apply feq_refl|]. intros k Hk. rewrite (iter_feq al _ _ (lc_scale a c x) k Hk). apply IH. auto. Qed.
Lemma iter_comb us al : vecs d al -> vecs d us -> forall s x, comb us (length al + s) x -> comb us s (iter al x).
Proof.
  intros Hal Hus. induction al as [|a al IH]; intros s x Hx; cbn [iter length Nat.add] in *; auto. apply IH; [exact (Forall_inv_tail Hal)|].
  pose proof (lc_comb us a _ x (Forall_inv Hal) Hus Hx) as X. exact X.
Qed.
Lemma iter_wedge us u al : homog d 1 u -> vecs d us -> vecs d al -> forall B, comb us (length al) B ->
  exists b r, comb us 1 r /\ feq d (iter al (wp u B)) (fun k => sgb b (iter al B 0%N) * u k + r k).
Proof.
  intros Hu Hus. induction al as [|a al IH]; intros Hal B HB; cbn [iter length] in *.
  - destruct (comb0 us B HB) as (c & E). exists false, (fun _ => 0). split; [constructor|]. intros k Hk. cbn [sgb].
    rewrite (gp_ext d 0 (ones d) u u _ _ k Hk (feq_refl _ _) E). rewrite gp_scalar_r by auto. rewrite E by apply pow2_pos. rewrite del_eq. ring.
  - pose proof (Forall_inv Hal) as Ha. pose proof (Forall_inv_tail Hal) as Hal'. pose proof (lc_comb us a _ B Ha Hus HB) as HB'. cbv iota beta in HB'.
    destruct (IH Hal' (lc A a B) HB') as (b & r & Hr & E). set (t := dot a u + dot a u).
    exists (negb b), (fadd (iter al (fun k => t * B k)) (fun k => - (1) * r k)). split.
    + constructor; [|constructor; auto]. apply iter_comb; auto. rewrite Nat.add_1_r. constructor; auto.
    + intros k Hk. rewrite (iter_feq al _ (fadd (fun k => t * B k) (fun k => - (1) * wp u (lc A a B) k))) by (auto; intros i Hi; rewrite (lc_wedge A two a u B Ha Hu i Hi); unfold fadd, t; ring).
      rewrite iter_add by auto. unfold fadd. rewrite (iter_scale al (- (1)) (wp u (lc A a B)) k Hk), E by auto. destruct b; cbn [sgb negb]; ring.
Qed.

(** The contraction by a generator. *)
Lemma lc_gen b x k : (b < d)%nat -> (k < pow2 d)%N ->
  lc A (del (pow2 b) 1) x k = if N.testbit k (N.of_nat b) then 0 else sgb (beta d (pow2 b) (N.lxor k (pow2 b))) (x (N.lxor k (pow2 b)) + x (N.lxor k (pow2 b))).
Proof.
  intros Hb Hk. unfold lc, fsub. assert (Ha : (pow2 b < pow2 d)%N) by (apply pow2_lt; auto). rewrite gp_del_l, gp_del_r by auto.
  rewrite (N.lxor_comm (pow2 b) k). set (j := N.lxor k (pow2 b)). assert (Hj : (j < pow2 d)%N) by (apply lxor_lt; auto).
  unfold gsign. rewrite !N.land_0_r. cbn [N.eqb negb]. unfold alpha.
  assert (Bj : N.testbit j (N.of_nat b) = negb (N.testbit k (N.of_nat b))). { unfold j. rewrite N.lxor_spec. unfold pow2. rewrite N.pow2_bits_true. apply xorb_true_r. }
  assert (Pl : par (N.land (pow2 b) j) = N.testbit j (N.of_nat b)).
  { assert (E : N.land (pow2 b) j = if N.testbit j (N.of_nat b) then pow2 b else 0%N).
    { apply N.bits_inj. intros i. rewrite N.land_spec. unfold pow2. destruct (N.eqb_spec i (N.of_nat b)) as [->|Hi].
      - rewrite N.pow2_bits_true. destruct (N.testbit j (N.of_nat b)); [rewrite N.pow2_bits_true; reflexivity|rewrite N.bits_0; reflexivity].
      - rewrite N.pow2_bits_false by auto. destruct (N.testbit j (N.of_nat b)); [rewrite N.pow2_bits_false by auto; reflexivity|rewrite N.bits_0; reflexivity]. }
    rewrite E. unfold par. destruct (N.testbit j (N.of_nat b)); [rewrite popcount_pow2; reflexivity|reflexivity]. }
  rewrite (beta_comm d (pow2 b) j Ha Hj), Pl, Bj. assert (Pp : par (pow2 b) = true) by (unfold par; rewrite popcount_pow2; reflexivity). rewrite Pp.
  destruct (beta d (pow2 b) j), (par j), (N.testbit k (N.of_nat b)); cbn; ring.
Qed.
Lemma contract_nz s : forall x i, homog d s x -> (i < pow2 d)%N -> x i <> 0 -> exists al, vecs d al /\ length al = s /\ iter al x 0%N <> 0.
Proof.
  induction s as [|s IH]; intros x i Hx Hi Hz.
  - exists []. split; [constructor|]. split; auto. cbn [iter]. destruct (Nat.eq_dec (popcount i) 0) as [E|E]; [|exfalso; apply Hz; apply Hx; auto].
    apply popcount_eq0 in E. subst i. exact Hz.
  - assert (Hp : popcount i = S s) by (destruct (Nat.eq_dec (popcount i) (S s)) as [E|E]; auto; exfalso; apply Hz; apply Hx; auto).
    assert (Hi0 : i <> 0%N) by (intros ->; discriminate Hp). set (b := N.to_nat (N.log2 i)). assert (Hb : N.testbit i (N.of_nat b) = true) by (unfold b; rewrite N2Nat.id; apply N.bit_log2; auto).
    assert (Hbd : (b < d)%nat). { unfold b. assert (N.log2 i < N.of_nat d)%N by (apply N.log2_lt_pow2; [lia|exact Hi]). lia. }
    set (a := del (pow2 b) (1 : T)). assert (Ha : homog d 1 a) by (intros j Hj Hne; unfold a, del; destruct (N.eqb_spec j (pow2 b)) as [->|]; [rewrite popcount_pow2 in Hne; congruence|reflexivity]).
    assert (Hk : (N.lxor i (pow2 b) < pow2 d)%N) by (apply lxor_lt; auto; apply pow2_lt; auto).
    assert (Bit : forall j, N.testbit (N.lxor j (pow2 b)) (N.of_nat b) = negb (N.testbit j (N.of_nat b))) by (intros j; rewrite N.lxor_spec; unfold pow2; rewrite N.pow2_bits_true; apply xorb_true_r).
    destruct (IH (lc A a x) (N.lxor i (pow2 b))) as (al & Hal & Hl & Hn); auto.
    + intros j Hj Hne. unfold a. rewrite lc_gen by auto. destruct (N.testbit j (N.of_nat b)) eqn:Ej; auto. rewrite Hx; [|apply lxor_lt; auto; apply pow2_lt; auto|]; [rewrite add_0_l; apply sgb_0|].
      pose proof (popcount_lxor j (pow2 b)) as Hx2. rewrite popcount_pow2 in Hx2. assert (E0 : N.land j (pow2 b) = 0%N).
      { apply N.bits_inj. intros i'. rewrite N.land_spec, N.bits_0. unfold pow2. destruct (N.eqb_spec i' (N.of_nat b)) as [->|]; [rewrite Ej; reflexivity|rewrite N.pow2_bits_false by auto; apply andb_false_r]. }
      rewrite E0, popcount_0 in Hx2. lia.
    + unfold a. rewrite lc_gen by auto. rewrite Bit, Hb. cbn [negb]. rewrite lxor_cancel_r. intros E. apply sgb_eq0 in E. apply Hz. apply (nz_mul _ (1 + 1)); auto. rewrite <- E. ring.
    + exists (a :: al). split; [constructor; auto|]. split; [cbn; auto|]. exact Hn.
Qed.

(** ** The wedge vanishes exactly if the vectors are dependent *)
Lemma dec_zero x : {feq d x (fun _ => 0)} + {exists i, (i < pow2 d)%N /\ x i <> 0}.
Proof.
  destruct (existsb (fun i => negb (ris0 (x (N.of_nat i)))) (seq 0 (N.to_nat (pow2 d)))) eqn:E.
  - right. apply existsb_exists in E as (i & Hi & Hn). apply in_seq in Hi. exists (N.of_nat i). split; [lia|]. intros X. apply is0_spec in X. rewrite X in Hn. discriminate.
  - left. intros i Hi. apply is0_spec. destruct (ris0 (x i)) eqn:Ei; auto. rewrite <- not_true_iff_false in E. exfalso. apply E. apply existsb_exists. exists (N.to_nat i).
    rewrite N2Nat.id, Ei. split; [apply in_seq; lia|reflexivity].
Qed.
Lemma wedge_span u us : homog d 1 u -> vecs d us -> feq d (wp u (fwedge d us)) (fun _ => 0) -> (exists i, (i < pow2 d)%N /\ fwedge d us i <> 0) ->
  exists cs, length cs = length us /\ feq d u (flin cs us).
Proof.
  intros Hu Hus Hz (i & Hi & Hn). destruct (contract_nz (length us) (fwedge d us) i (homog_fwedge d us Hus) Hi Hn) as (al & Hal & Hl & Hc).
  assert (HB : comb us (length al) (fwedge d us)) by (rewrite Hl; apply comb_fwedge, incl_refl).
  destruct (iter_wedge us u al Hu Hus Hal _ HB) as (b & r & Hr & E). destruct (comb1 us r Hr) as (cs & Hlc & Ec).
  set (c := sgb b (iter al (fwedge d us) 0%N)) in *. assert (Hc' : c <> 0) by (intros X; apply sgb_eq0 in X; auto).
  destruct (flin_scale us (- (1 / c)) cs Hlc) as (es & Hle & Ee). exists es. split; auto. intros k Hk. rewrite Ee, <- Ec by auto.
  assert (Z : 0 = c * u k + r k). { rewrite <- E by auto. rewrite (iter_feq al _ (fun k => 0 * 0)) by (auto; intros j Hj; rewrite Hz by auto; ring). rewrite (iter_scale al 0 (fun _ => 0) k Hk). ring. }
  transitivity (1 / c * c * u k); [rewrite div_mul by auto; ring|]. transitivity (1 / c * (c * u k + r k) + - (1 / c) * r k); [ring|]. rewrite <- Z. ring.
Qed.
Lemma span_wedge u us cs : homog d 1 u -> vecs d us -> feq d u (flin cs us) -> feq d (wp u (fwedge d us)) (fun _ => 0).
Proof.
  intros Hu Hus E k Hk. rewrite (gp_ext d 0 (ones d) _ _ _ _ k Hk E (feq_refl _ _)). rewrite flin_wedge. apply flin_0. apply Forall_map. apply Forall_forall. intros w Hw.
  apply wedge_rep; auto. eapply Forall_forall in Hus; eauto.
Qed.
Lemma wedge_dep us : vecs d us -> (feq d (fwedge d us) (fun _ => 0) <-> exists cs, length cs = length us /\ nonzero cs /\ feq d (flin cs us) (fun _ => 0)).
Proof.
  induction us as [|u us IH]; intros Hus.
  - split.
    + intros E. exfalso. apply one_neq_zero. rewrite <- (E 0%N (pow2_pos _)). cbn [fwedge]. rewrite del_eq. reflexivity.
    + intros ([|c cs] & Hl & Hn & _); [inversion Hn|discriminate].
  - pose proof (Forall_inv Hus) as Hu. pose proof (Forall_inv_tail Hus) as Hus'. cbn [fwedge]. split.
    + intros Hz. destruct (dec_zero (fwedge d us)) as [Z|Z].
      * apply IH in Z as (cs & Hl & Hn & E); auto. exists (0 :: cs). cbn [length]. split; [auto|]. split; [right; exact Hn|]. intros k Hk. cbn [flin]. rewrite E by auto. ring.
      * destruct (wedge_span u us Hu Hus' Hz Z) as (cs & Hl & E). destruct (flin_scale us (- (1)) cs Hl) as (es & Hle & Ee). exists (1 :: es). cbn [length]. split; auto.
        split; [left; apply one_neq_zero|]. intros k Hk. cbn [flin]. rewrite Ee, <- E by auto. ring.
    + intros ([|c cs] & Hl & Hn & E); [discriminate|]. injection Hl as Hl. destruct (ris0 c) eqn:Ec.
      * apply is0_spec in Ec. subst c. assert (Z : feq d (fwedge d us) (fun _ => 0)).
        { apply IH; auto. exists cs. split; auto. split; [inversion Hn; subst; auto; congruence|]. intros k Hk. rewrite <- (E k Hk). cbn [flin]. ring. }
        intros k Hk. rewrite (gp_ext d 0 (ones d) u u _ _ k Hk (feq_refl _ _) Z). apply gp_0_r.
      * assert (Hc : c <> 0) by (intros X; apply is0_spec in X; congruence). destruct (flin_scale us (- (1 / c)) cs Hl) as (es & Hle & Ee).
        apply (span_wedge u us es); auto. intros k Hk. rewrite Ee. specialize (E k Hk). cbn [flin] in E.
        transitivity (1 / c * c * u k); [rewrite div_mul by auto; ring|]. transitivity (1 / c * (c * u k + flin cs us k) + - (1 / c) * flin cs us k); [ring|]. rewrite E. ring.
Qed.
End Fun.
