(** Every operation of src/lib.rs and src/ops.rs in terms of coefficients, for any
    storage satisfying [StorageLaws]. *)
From Verif Require Export M_Multivector P_Storage P_Product.
Local Open Scope nat_scope.

Record alg_ok (A : algebra) : Prop := {
  ok_dim : a_dim A < 64;
  ok_cover : N.lor (N.lor (a_real A) (a_imag A)) (a_proj A) = ones (a_dim A);
  ok_ri : N.land (a_real A) (a_imag A) = 0%N;
  ok_rp : N.land (a_real A) (a_proj A) = 0%N;
  ok_ip : N.land (a_imag A) (a_proj A) = 0%N
}.

Section MV.
Context {T : Type} {RO : RingOps T} {W : NumLaws T} {L : RingLaws T} {m : Mode}.

(** Lookup in an enumeration. *)
Lemma enum_get d f p l (g : N -> T -> T) i :
  enum_of d f p l -> (forall i, g i r0 = r0) -> (i < pow2 d)%N ->
  match hm_get l i with Some c => g i c | None => r0 end = (if p i then g i (f i) else r0).
Proof.
  intros (HN & Hin & Hall) Hg Hi. destruct (hm_get l i) as [c|] eqn:E.
  - apply hm_get_in in E; auto. destruct (Hin i c E) as (_ & -> & ->). reflexivity.
  - destruct (p i) eqn:Ep; auto. destruct (is0_dec (f i)) as [->|Hnz]; [symmetry; apply Hg|].
    exfalso. apply hm_get_none in E. apply E. apply in_map_iff. exists (i, f i). split; auto.
Qed.

Lemma sumI_xor_target d s (x y : N -> T) k : (k < pow2 d)%N ->
  sumI d (fun i => sumI d (fun j => if (N.lxor i j =? k)%N then act (s i j) (rmul (x i) (y j)) else r0))
  = sumI d (fun i => act (s i (N.lxor i k)) (rmul (x i) (y (N.lxor i k)))).
Proof.
  intros Hk. apply sumI_ext. intros i Hi.
  rewrite (sumI_single d _ (N.lxor i k)).
  - rewrite lxor_cancel, N.eqb_refl. reflexivity.
  - apply lxor_lt; auto.
  - intros j _ Hne. destruct (N.eqb_spec (N.lxor i j) k) as [E|]; auto.
    apply lxor_eq_iff in E. contradiction.
Qed.

Definition wp (d : nat) (x y : N -> T) (k : N) : T :=
  sumI d (fun i => act (wsign d i (N.lxor i k)) (rmul (x i) (y (N.lxor i k)))).

Lemma wp_gp d x y k : wp d x y k = gp d 0 (ones d) x y k.
Proof. apply sumI_ext. intros i Hi. rewrite (wsign_gsign d 0) by auto. reflexivity. Qed.

Lemma gp_scalar d Q P (x y : N -> T) : gp d Q P x y 0%N = sumI d (fun i => act (gsign d Q P i i) (rmul (x i) (y i))).
Proof. apply sumI_ext. intros. rewrite N.lxor_0_r. reflexivity. Qed.

(** *** Power *)
Section OneStorage.
Context {S : Type} {St : Storage T S} {SL : StorageLaws T S}.

(** Writing the entries g(c) at the positions t(i), for distinct positions. *)
Lemma build_list d t (g : N -> T -> T) l : forall ret,
  st_wf d ret -> NoDup (map fst l) ->
  (forall i c, In (i, c) l -> (i < pow2 d)%N) ->
  (forall i, (i < pow2 d)%N -> (t i < pow2 d)%N /\ t (t i) = i) ->
  let r := fold_left (fun r ic => st_set r (t (fst ic)) (g (fst ic) (snd ic))) l ret in
  st_wf d r /\ forall k, (k < pow2 d)%N ->
    st_coef r k = match hm_get l (t k) with Some c => g (t k) c | None => st_coef ret k end.
Proof.
  induction l as [|[i c] l IH]; intros ret Hr HN Hin Ht; simpl; [auto|].
  inversion HN; subst.
  assert (Hi : (i < pow2 d)%N) by (eapply Hin; simpl; eauto).
  destruct (Ht i Hi) as [Hti Htt].
  destruct (st_set_ok d ret (t i) (g i c) Hr) as [Hr1 Hc1].
  destruct (IH (st_set ret (t i) (g i c)) Hr1 H2) as [Hr2 Hc2]; auto.
  { intros j c' Hj. eapply Hin. simpl. eauto. }
  split; [exact Hr2|]. intros k Hk. rewrite Hc2 by auto. rewrite Hc1.
  destruct (Ht k Hk) as [Htk Httk].
  apply N.ltb_lt in Hti. rewrite Hti, andb_true_r.
  destruct (N.eqb_spec i (t k)) as [E|E].
  - subst i. rewrite Httk, N.eqb_refl. apply hm_get_none in H1. rewrite H1. reflexivity.
  - destruct (N.eqb_spec (t i) k) as [E'|E']; [|reflexivity].
    exfalso. apply E. rewrite <- E'. auto.
Qed.

Lemma build_ok d t (g : N -> T -> T) f p l ret :
  st_wf d ret -> (forall i, st_coef ret i = r0) -> enum_of d f p l ->
  (forall i, g i r0 = r0) ->
  (forall i, (i < pow2 d)%N -> (t i < pow2 d)%N /\ t (t i) = i) ->
  let r := fold_left (fun r ic => st_set r (t (fst ic)) (g (fst ic) (snd ic))) l ret in
  st_wf d r /\ forall k, (k < pow2 d)%N ->
    st_coef r k = if p (t k) then g (t k) (f (t k)) else r0.
Proof.
  intros Hr H0 He Hg Ht. pose proof He as (HN & Hin & _).
  destruct (build_list d t g l ret Hr HN) as [H1 H2]; auto.
  { intros i c Hi. eapply Hin; eauto. }
  split; auto. intros k Hk. rewrite H2, H0 by auto. apply (enum_get d f p l); auto. apply Ht; auto.
Qed.

Lemma build_id d (g : N -> T -> T) f p l ret :
  st_wf d ret -> (forall i, st_coef ret i = r0) -> enum_of d f p l ->
  (forall i, g i r0 = r0) ->
  let r := fold_left (fun r ic => st_set r (fst ic) (g (fst ic) (snd ic))) l ret in
  st_wf d r /\ forall k, (k < pow2 d)%N -> st_coef r k = if p k then g k (f k) else r0.
Proof. intros Hr H0 He Hg. apply (build_ok d (fun i => i)); auto. Qed.

Variable A : algebra.
Hypothesis AOK : alg_ok A.
Let d := a_dim A.
Hypothesis DOK : st_dim_ok d.
Let Q := a_imag A.
Let P := a_proj A.

Lemma d64 : d < 64.
Proof. apply AOK. Qed.

Lemma default_ok : exists z, mv_default A = Ok z /\ st_wf d z /\ forall i, st_coef z i = r0.
Proof. apply st_new_ok. exact DOK. Qed.

Lemma from_scalar_ok s : exists z, mv_from_scalar A s = Ok z /\ st_wf d z /\
  forall i, st_coef z i = del 0 s i.
Proof.
  destruct default_ok as (z & E & Hz & H0). unfold mv_from_scalar. rewrite E. simpl.
  destruct (st_set_ok d z 0%N s Hz) as [H1 H2].
  eexists. split; [reflexivity|]. split; [exact H1|]. intros i. rewrite H2, H0.
  replace (0 <? pow2 d)%N with true by (symmetry; apply N.ltb_lt, pow2_pos).
  rewrite andb_true_r. unfold del. rewrite N.eqb_sym. reflexivity.
Qed.

Lemma one_ok : exists z, mv_one A = Ok z /\ st_wf d z /\ forall i, st_coef z i = del 0 r1 i.
Proof. apply from_scalar_ok. Qed.

Lemma zero_ok : exists z, mv_zero A = Ok z /\ st_wf d z /\ forall i, st_coef z i = r0.
Proof. apply default_ok. Qed.

(** *** from_indexed_iter *)
Lemma from_indexed_fold l : forall ret, st_wf d ret ->
  (forall i c, In (i, c) l -> (i < pow2 d)%N) ->
  foldM (fun ret ic => n <- shl 1 (a_dim A) ;;
      if (n <=? fst ic)%N then Err IndexOutOfBounds else Ok (st_set ret (fst ic) (snd ic))) l ret
  = Ok (fold_left (fun r ic => st_set r (fst ic) (snd ic)) l ret).
Proof.
  rewrite shl_1 by apply d64. simpl.
  induction l as [|[i c] l IH]; intros ret Hr Hin; simpl; auto.
  assert (Hi : (i < pow2 d)%N) by (eapply Hin; simpl; eauto).
  fold d. destruct (N.leb_spec (pow2 d) i); [lia|]. simpl.
  apply IH; [apply st_set_ok; auto|]. intros; eapply Hin; simpl; eauto.
Qed.

Lemma from_indexed_ok l : (forall i c, In (i, c) l -> (i < pow2 d)%N) ->
  exists z, mv_from_indexed_iter A l = Ok z /\ st_wf d z /\
    forall k, st_coef z k = match hm_get (rev l) k with Some c => c | None => r0 end.
Proof.
  intros Hin. destruct default_ok as (z & E & Hz & H0). unfold mv_from_indexed_iter. rewrite E. simpl.
  rewrite from_indexed_fold by auto. eexists. split; [reflexivity|].
  assert (G : forall l ret, st_wf d ret -> (forall i c, In (i, c) l -> (i < pow2 d)%N) ->
    let r := fold_left (fun r ic => st_set r (fst ic) (snd ic)) l ret in
    st_wf d r /\ forall k, st_coef r k = match hm_get (rev l) k with Some c => c | None => st_coef ret k end).
  { clear l Hin z E Hz H0. induction l as [|[i c] l IH]; intros ret Hr Hin; simpl; auto.
    destruct (st_set_ok d ret i c Hr) as [H1 H2].
    destruct (IH (st_set ret i c) H1) as [H3 H4]; [intros; eapply Hin; simpl; eauto|].
    split; auto. intros k. rewrite H4, H2.
    assert (Hi : (i < pow2 d)%N) by (eapply Hin; simpl; eauto). apply N.ltb_lt in Hi. rewrite Hi, andb_true_r.
    assert (G : forall u v : list (N * T), hm_get (u ++ v) k = match hm_get u k with Some c => Some c | None => hm_get v k end).
    { induction u as [|[a b] u IHu]; intros v; simpl; auto. destruct (a =? k)%N; auto. }
    rewrite G. simpl. destruct (hm_get (rev l) k); auto. destruct (i =? k)%N; auto. }
  destruct (G l z Hz Hin) as [H1 H2]. split; auto. intros k. rewrite H2, H0. reflexivity.
Qed.

Lemma from_indexed_err l i c : In (i, c) l -> (pow2 d <= i)%N ->
  mv_from_indexed_iter A l = Err IndexOutOfBounds.
Proof.
  intros Hi Hge. destruct default_ok as (z & E & Hz & H0). unfold mv_from_indexed_iter. rewrite E. simpl.
  clear E H0. rewrite shl_1 by apply d64. simpl. fold d.
  revert z Hz. induction l as [|[j c'] l IH]; intros z Hz; simpl in *; [contradiction|].
  destruct (N.leb_spec (pow2 d) j); auto. simpl.
  destruct Hi as [E|Hi]; [inversion E; subst; lia|].
  apply IH; auto. apply st_set_ok; auto.
Qed.

Lemma from_indexed_enum (g : N -> T -> T) f p l : enum_of d f p l -> (forall i, g i r0 = r0) ->
  exists z, mv_from_indexed_iter A (map (fun ic => (fst ic, g (fst ic) (snd ic))) l) = Ok z /\ st_wf d z /\
    forall k, (k < pow2 d)%N -> st_coef z k = if p k then g k (f k) else r0.
Proof.
  intros He Hg. destruct default_ok as (z & E & Hz & H0). unfold mv_from_indexed_iter. rewrite E. simpl.
  pose proof He as (HN & Hin & _). rewrite from_indexed_fold; auto.
  - eexists. split; [reflexivity|].
    assert (G : forall l ret, fold_left (fun r ic => st_set r (fst ic) (snd ic))
         (map (fun ic : N * T => (fst ic, g (fst ic) (snd ic))) l) ret =
         fold_left (fun r ic => st_set r (fst ic) (g (fst ic) (snd ic))) l ret).
    { clear. induction l as [|x l IH]; intros ret; simpl; auto. }
    rewrite G. apply build_id; auto.
  - intros i c Hi. apply in_map_iff in Hi. destruct Hi as ([j c'] & E' & Hi). inversion E'; subst.
    simpl. eapply Hin; eauto.
Qed.

(** *** Linear operations *)
Lemma add_ok x y : st_wf d x -> st_wf d y ->
  exists z, mv_add x y = Ok z /\ st_wf d z /\ forall i, st_coef z i = radd (st_coef x i) (st_coef y i).
Proof. apply st_add_ok. Qed.
Lemma sub_ok x y : st_wf d x -> st_wf d y ->
  exists z, mv_sub x y = Ok z /\ st_wf d z /\ forall i, st_coef z i = rsub (st_coef x i) (st_coef y i).
Proof. apply st_sub_ok. Qed.

Lemma neg_ok x : st_wf d x ->
  exists z, mv_neg A x = Ok z /\ st_wf d z /\ forall i, (i < pow2 d)%N -> st_coef z i = rneg (st_coef x i).
Proof.
  intros Hx. unfold mv_neg.
  destruct (from_indexed_enum (fun _ c => rneg c) _ _ _ (st_enum_ok d x Hx)) as (z & E & Hz & Hc).
  { intros; apply neg_0. }
  rewrite E. simpl. eauto.
Qed.

Lemma pointwise_ok (g : N -> T -> T) x : st_wf d x -> (forall i, g i r0 = r0) ->
  exists z, (ret <- mv_default A ;; Ok (fold_left (fun r ic => st_set r (fst ic) (g (fst ic) (snd ic))) (st_enum x) ret)) = Ok z
   /\ st_wf d z /\ forall i, (i < pow2 d)%N -> st_coef z i = g i (st_coef x i).
Proof.
  intros Hx Hg. destruct default_ok as (z & E & Hz & H0). rewrite E. simpl.
  eexists. split; [reflexivity|].
  destruct (build_id d g _ _ _ z Hz H0 (st_enum_ok d x Hx) Hg) as [H1 H2]. auto.
Qed.

Lemma scale_ok x t : st_wf d x ->
  exists z, mv_scale A x t = Ok z /\ st_wf d z /\
    forall i, (i < pow2 d)%N -> st_coef z i = rmul (st_coef x i) t.
Proof.
  intros Hx. apply (pointwise_ok (fun _ c => rmul c t)); auto. intros; apply mul_0_l.
Qed.

Lemma divs_ok {D : DivOps T} x t : st_wf d x -> rdiv r0 t = r0 ->
  exists z, mv_divs A x t = Ok z /\ st_wf d z /\
    forall i, (i < pow2 d)%N -> st_coef z i = rdiv (st_coef x i) t.
Proof.
  intros Hx H0. apply (pointwise_ok (fun _ c => rdiv c t)); auto.
Qed.

Lemma flip_ok x : st_wf d x ->
  exists z, mv_flip A x = Ok z /\ st_wf d z /\
    forall i, (i < pow2 d)%N -> st_coef z i = sgb (par i) (st_coef x i).
Proof.
  intros Hx. destruct (pointwise_ok (fun i c => if Nat.even (popcount i) then c else rneg c) x Hx)
    as (z & E & Hz & Hc).
  { intros. destruct (Nat.even (popcount i)); auto. apply neg_0. }
  exists z. split; [exact E|]. split; auto. intros i Hi. rewrite Hc by auto. unfold par.
  rewrite <- Nat.negb_odd. destruct (Nat.odd (popcount i)); reflexivity.
Qed.

Lemma flip_subspace_ok x mask : st_wf d x ->
  exists z, mv_flip_subspace A x mask = Ok z /\ st_wf d z /\
    forall i, (i < pow2 d)%N -> st_coef z i = sgb (par (N.land i mask)) (st_coef x i).
Proof.
  intros Hx. destruct (pointwise_ok (fun i c => if Nat.even (popcount (N.land i mask)) then c else rneg c) x Hx)
    as (z & E & Hz & Hc).
  { intros. destruct (Nat.even (popcount (N.land i mask))); auto. apply neg_0. }
  exists z. split; [exact E|]. split; auto. intros i Hi. rewrite Hc by auto. unfold par.
  rewrite <- Nat.negb_odd. destruct (Nat.odd (popcount (N.land i mask))); reflexivity.
Qed.

(** Sign of the reversal on a grade. *)
Definition rbit (k : nat) : bool := match Nat.modulo k 4 with 0 | 1 => false | _ => true end.

Lemma rev_c_sgb i (c : T) : rev_c i c = sgb (rbit (popcount i)) c.
Proof.
  unfold rev_c, rbit. destruct (Nat.modulo (popcount i) 4) as [|[|[|[|n]]]]; reflexivity.
Qed.

Lemma rev_ok x : st_wf d x ->
  exists z, mv_rev A x = Ok z /\ st_wf d z /\
    forall i, (i < pow2 d)%N -> st_coef z i = sgb (rbit (popcount i)) (st_coef x i).
Proof.
  intros Hx. destruct (pointwise_ok (fun i c => rev_c i c) x Hx) as (z & E & Hz & Hc).
  { intros. rewrite rev_c_sgb. apply sgb_0. }
  exists z. split; [exact E|]. split; auto. intros i Hi. rewrite Hc by auto. apply rev_c_sgb.
Qed.

Lemma revc_ok {C : ConjOps T} x : rconj r0 = r0 -> st_wf d x ->
  exists z, mv_revc A x = Ok z /\ st_wf d z /\
    forall i, (i < pow2 d)%N -> st_coef z i = sgb (rbit (popcount i)) (rconj (st_coef x i)).
Proof.
  intros H0 Hx. unfold mv_revc.
  destruct (from_indexed_enum (fun i c => rev_c i (rconj c)) _ _ _ (st_enum_ok d x Hx)) as (z & E & Hz & Hc).
  { intros. rewrite rev_c_sgb, H0. apply sgb_0. }
  rewrite E. simpl. exists z. split; auto. split; auto. intros i Hi. rewrite Hc by auto. apply rev_c_sgb.
Qed.

(** *** Duals *)
Lemma mask_eq : N.lor (N.lor (a_proj A) (a_imag A)) (a_real A) = ones d.
Proof.
  unfold d. rewrite <- (ok_cover A AOK). apply N.bits_inj. intros k. rewrite !N.lor_spec.
  destruct (N.testbit (a_real A) k), (N.testbit (a_imag A) k), (N.testbit (a_proj A) k); reflexivity.
Qed.

Lemma cmpl_lt i : (N.ldiff (ones d) i < pow2 d)%N.
Proof. apply ldiff_lt. apply ones_lt. Qed.
Lemma cmpl_invol i : (i < pow2 d)%N -> N.ldiff (ones d) (N.ldiff (ones d) i) = i.
Proof.
  intros Hi. apply N.bits_inj. intros k. rewrite !N.ldiff_spec, testbit_ones.
  destruct (N.ltb_spec k (N.of_nat d)); simpl.
  - apply negb_involutive.
  - rewrite (testbit_high i d); auto.
Qed.
Lemma cmpl_disj i : N.land (N.ldiff (ones d) i) i = 0%N.
Proof.
  apply N.bits_inj_0. intros k. rewrite N.land_spec, N.ldiff_spec.
  destruct (N.testbit i k); simpl; rewrite ?andb_false_r, ?andb_true_r; auto. 
Qed.
Lemma cmpl_lxor i : (i < pow2 d)%N -> N.lxor (N.ldiff (ones d) i) i = ones d.
Proof.
  intros Hi. apply N.bits_inj. intros k. rewrite N.lxor_spec, N.ldiff_spec, testbit_ones.
  destruct (N.ltb_spec k (N.of_nat d)); simpl.
  - destruct (N.testbit i k); reflexivity.
  - rewrite (testbit_high i d); auto.
Qed.

Lemma wsign_disj a b : N.land a b = 0%N -> wsign d a b = of_bool (beta d a b).
Proof. intros H. unfold wsign. rewrite H. reflexivity. Qed.

Lemma dual_gen (sgnf : N -> N -> res sign) (h : N -> bool) x :
  st_wf d x ->
  (forall i, (i < pow2 d)%N -> sgnf (N.ldiff (ones d) i) i = Ok (of_bool (h i))) ->
  exists z, (ret <- mv_default A ;;
    foldM (fun ret ic =>
      let dual_idx := N.ldiff (ones d) (fst ic) in
      s <- sgnf dual_idx (fst ic) ;;
      match s with
      | Null => Panic
      | Plus => Ok (st_set ret dual_idx (snd ic))
      | Minus => Ok (st_set ret dual_idx (rneg (snd ic)))
      end) (st_enum x) ret) = Ok z /\ st_wf d z /\
   forall k, (k < pow2 d)%N -> st_coef z k = sgb (h (N.ldiff (ones d) k)) (st_coef x (N.ldiff (ones d) k)).
Proof.
  intros Hx Hs. destruct default_ok as (z & E & Hz & H0). rewrite E. simpl.
  pose proof (st_enum_ok d x Hx) as He. pose proof He as (_ & Hin & _).
  rewrite (foldM_ext _ (fun ret ic => Ok (st_set ret (N.ldiff (ones d) (fst ic)) (sgb (h (fst ic)) (snd ic))))).
  - rewrite foldM_pure. eexists. split; [reflexivity|].
    destruct (build_ok d (fun i => N.ldiff (ones d) i) (fun i c => sgb (h i) c) _ _ _ z Hz H0 He) as [H1 H2].
    + intros; apply sgb_0.
    + intros i Hi. split; [apply cmpl_lt|apply cmpl_invol; auto].
    + split; [exact H1|]. intros k Hk. rewrite H2 by auto. reflexivity.
  - intros r [i c] Hi. cbn [fst snd]. rewrite Hs by (eapply Hin; eauto). simpl.
    destruct (h i); reflexivity.
Qed.

Lemma dual_ok x : st_wf d x ->
  exists z, mv_dual A x = Ok z /\ st_wf d z /\
    forall k, (k < pow2 d)%N -> st_coef z k =
      sgb (beta d k (N.ldiff (ones d) k)) (st_coef x (N.ldiff (ones d) k)).
Proof.
  intros Hx. unfold mv_dual. rewrite mask_eq.
  destruct (dual_gen (blade_wedge_product_sign A) (fun i => beta d (N.ldiff (ones d) i) i) x Hx)
    as (z & E & Hz & Hc).
  { intros i Hi. rewrite wedge_sign_ok; fold d; auto using cmpl_lt; [|pose proof d64; lia].
    rewrite wsign_disj; auto. apply cmpl_disj. }
  exists z. split; [exact E|]. split; auto. intros k Hk. rewrite Hc by auto. rewrite cmpl_invol by auto. reflexivity.
Qed.

Lemma undual_ok x : st_wf d x ->
  exists z, mv_undual A x = Ok z /\ st_wf d z /\
    forall k, (k < pow2 d)%N -> st_coef z k =
      sgb (beta d (N.ldiff (ones d) k) k) (st_coef x (N.ldiff (ones d) k)).
Proof.
  intros Hx. unfold mv_undual. rewrite mask_eq.
  destruct (dual_gen (fun a b => blade_wedge_product_sign A b a) (fun i => beta d i (N.ldiff (ones d) i)) x Hx)
    as (z & E & Hz & Hc).
  { intros i Hi. rewrite wedge_sign_ok; fold d; auto using cmpl_lt; [|pose proof d64; lia].
    rewrite wsign_disj; auto. rewrite N.land_comm. apply cmpl_disj. }
  exists z. split; [exact E|]. split; auto. intros k Hk. rewrite Hc by auto. rewrite cmpl_invol by auto. reflexivity.
Qed.

(** *** Products *)
Lemma accum_ok s ret idx p : st_wf d ret -> (idx < pow2 d)%N ->
  st_wf d (accum s ret idx (st_coef ret idx) p) /\
  forall k, st_coef (accum s ret idx (st_coef ret idx) p) k =
    radd (st_coef ret k) (if (idx =? k)%N then act s p else r0).
Proof.
  intros Hr Hi. pose proof Hi as Hi'. apply N.ltb_lt in Hi'.
  destruct s; simpl.
  - split; auto. intros k. destruct (idx =? k)%N; rewrite add_0_r; reflexivity.
  - destruct (st_set_ok d ret idx (radd (st_coef ret idx) p) Hr) as [H1 H2].
    split; auto. intros k. rewrite H2, Hi', andb_true_r.
    destruct (N.eqb_spec idx k) as [->|]; [reflexivity|rewrite add_0_r; reflexivity].
  - destruct (st_set_ok d ret idx (rsub (st_coef ret idx) p) Hr) as [H1 H2].
    split; auto. intros k. rewrite H2, Hi', andb_true_r.
    destruct (N.eqb_spec idx k) as [->|]; [apply sub_def|rewrite add_0_r; reflexivity].
Qed.

Lemma loop_ok {E} (body : S -> E -> res S) (s : E -> sign) (t : E -> N) (p : E -> T) l :
  (forall ret e, st_wf d ret -> In e l ->
     (t e < pow2 d)%N /\ body ret e = Ok (accum (s e) ret (t e) (st_coef ret (t e)) (p e))) ->
  forall ret, st_wf d ret ->
  exists r, foldM body l ret = Ok r /\ st_wf d r /\
    forall k, st_coef r k = radd (st_coef ret k) (suml (fun e => if (t e =? k)%N then act (s e) (p e) else r0) l).
Proof.
  induction l as [|e l IH]; intros Hb ret Hr; simpl.
  - exists ret. split; auto. split; auto. intros k. symmetry. apply add_0_r.
  - destruct (Hb ret e Hr) as [Ht E1]; [simpl; auto|]. rewrite E1. simpl.
    destruct (accum_ok (s e) ret (t e) (p e) Hr Ht) as [H1 H2].
    destruct (IH (fun ret' e' Hr' He' => Hb ret' e' Hr' (or_intror He')) _ H1) as (r & Er & Hr2 & Hc).
    exists r. split; auto. split; auto. intros k. rewrite Hc, H2, <- add_assoc. reflexivity.
Qed.

Lemma loop2_ok (body : N * T -> S -> N * T -> res S) (s : N -> N -> sign) (t : N -> N -> N) lx ly :
  (forall ia ret jb, st_wf d ret -> In ia lx -> In jb ly ->
     (t (fst ia) (fst jb) < pow2 d)%N /\
     body ia ret jb = Ok (accum (s (fst ia) (fst jb)) ret (t (fst ia) (fst jb))
        (st_coef ret (t (fst ia) (fst jb))) (rmul (snd ia) (snd jb)))) ->
  forall ret, st_wf d ret ->
  exists r, foldM (fun ret ia => foldM (body ia) ly ret) lx ret = Ok r /\ st_wf d r /\
    forall k, st_coef r k = radd (st_coef ret k) (suml (fun ia => suml (fun jb =>
      if (t (fst ia) (fst jb) =? k)%N then act (s (fst ia) (fst jb)) (rmul (snd ia) (snd jb)) else r0) ly) lx).
Proof.
  induction lx as [|ia lx IH]; intros Hb ret Hr; simpl.
  - exists ret. split; auto. split; auto. intros k. symmetry. apply add_0_r.
  - destruct (loop_ok (body ia) (fun jb => s (fst ia) (fst jb)) (fun jb => t (fst ia) (fst jb))
                (fun jb => rmul (snd ia) (snd jb)) ly) with (ret := ret) as (r1 & E1 & Hr1 & Hc1); auto.
    { intros ret' jb Hr' Hjb. apply Hb; simpl; auto. }
    rewrite E1. simpl.
    destruct (IH (fun ia' ret' jb Hr' Hia Hjb => Hb ia' ret' jb Hr' (or_intror Hia) Hjb) r1 Hr1)
      as (r & E & Hr2 & Hc).
    exists r. split; auto. split; auto. intros k. rewrite Hc, Hc1, <- add_assoc. reflexivity.
Qed.

Lemma product_ok (body : N * T -> S -> N * T -> res S) (s : N -> N -> sign) (t : N -> N -> N) x y :
  st_wf d x -> st_wf d y ->
  (forall ia ret jb, st_wf d ret -> (fst ia < pow2 d)%N -> (fst jb < pow2 d)%N ->
     (t (fst ia) (fst jb) < pow2 d)%N /\
     body ia ret jb = Ok (accum (s (fst ia) (fst jb)) ret (t (fst ia) (fst jb))
        (st_coef ret (t (fst ia) (fst jb))) (rmul (snd ia) (snd jb)))) ->
  exists r, (ret <- mv_default A ;; foldM (fun ret ia => foldM (body ia) (st_enum y) ret) (st_enum x) ret) = Ok r
    /\ st_wf d r /\ forall k, st_coef r k =
       sumI d (fun i => sumI d (fun j => if (t i j =? k)%N then act (s i j) (rmul (st_coef x i) (st_coef y j)) else r0)).
Proof.
  intros Hx Hy Hb. destruct default_ok as (z & E & Hz & H0). rewrite E. simpl.
  pose proof (st_enum_ok d x Hx) as Hex. pose proof (st_enum_ok d y Hy) as Hey.
  pose proof Hex as (_ & Hinx & _). pose proof Hey as (_ & Hiny & _).
  destruct (loop2_ok body s t (st_enum x) (st_enum y)) with (ret := z) as (r & Er & Hr & Hc); auto.
  { intros [i a] ret [j b] Hr Hi Hj. apply Hb; auto; simpl; [eapply Hinx|eapply Hiny]; eauto. }
  exists r. split; auto. split; auto. intros k. rewrite Hc, H0, add_0_l.
  rewrite <- (enum_sum_all d (st_coef x) (st_enum x) (fun i a => sumI d (fun j => if (t i j =? k)%N then act (s i j) (rmul a (st_coef y j)) else r0))); auto.
  - apply suml_ext. intros [i a] Hi. simpl.
    apply (enum_sum_all d (st_coef y) (st_enum y) (fun j b => if (t i j =? k)%N then act (s i j) (rmul a b) else r0)); auto.
    intros j. rewrite mul_0_r, act_0. destruct (t i j =? k)%N; reflexivity.
  - intros i. apply sumI_0. intros j _. rewrite mul_0_l, act_0. destruct (t i j =? k)%N; reflexivity.
Qed.

Lemma mul_ok x y : st_wf d x -> st_wf d y ->
  exists z, mv_mul A x y = Ok z /\ st_wf d z /\
    forall k, (k < pow2 d)%N -> st_coef z k = gp d Q P (st_coef x) (st_coef y) k.
Proof.
  intros Hx Hy. unfold mv_mul.
  destruct (product_ok (fun ia ret jb =>
      let idx := N.lxor (fst ia) (fst jb) in
      c <- st_get ret idx ;;
      s <- blade_geo_product_sign A (fst ia) (fst jb) ;;
      Ok (accum s ret idx c (rmul (snd ia) (snd jb)))) (gsign d Q P) N.lxor x y Hx Hy)
    as (z & E & Hz & Hc).
  { intros ia ret jb Hr Hi Hj. split; [apply lxor_lt; auto|]. cbv zeta.
    rewrite (st_get_ok d) by (auto using lxor_lt). simpl.
    rewrite geo_sign_ok by (auto; pose proof d64; fold d; lia). reflexivity. }
  exists z. split; [exact E|]. split; auto. intros k Hk. rewrite Hc.
  apply (sumI_xor_target d (gsign d Q P)); auto.
Qed.

Lemma wedge_ok x y : st_wf d x -> st_wf d y ->
  exists z, naive_wedge A x y = Ok z /\ st_wf d z /\
    forall k, (k < pow2 d)%N -> st_coef z k = wp d (st_coef x) (st_coef y) k.
Proof.
  intros Hx Hy. unfold naive_wedge.
  destruct (product_ok (fun ia ret jb =>
      let idx := N.lxor (fst ia) (fst jb) in
      c <- st_get ret idx ;;
      s <- blade_wedge_product_sign A (fst ia) (fst jb) ;;
      Ok (accum s ret idx c (rmul (snd ia) (snd jb)))) (wsign d) N.lxor x y Hx Hy)
    as (z & E & Hz & Hc).
  { intros ia ret jb Hr Hi Hj. split; [apply lxor_lt; auto|]. cbv zeta.
    rewrite (st_get_ok d) by (auto using lxor_lt). simpl.
    rewrite wedge_sign_ok by (auto; pose proof d64; fold d; lia). reflexivity. }
  exists z. split; [exact E|]. split; auto. intros k Hk. rewrite Hc.
  apply (sumI_xor_target d (wsign d)); auto.
Qed.

(** Sign of one term of the meet. *)
Definition msign (i j : N) : sign :=
  let c := N.ldiff (ones d) in
  sign_mul (sign_mul (sign_mul (wsign d (c i) (c j)) (wsign d (c i) i)) (wsign d (c j) j))
           (wsign d (N.lxor i j) (c (N.lxor i j))).

Lemma meet_ok x y : st_wf d x -> st_wf d y ->
  exists z, naive_meet A x y = Ok z /\ st_wf d z /\
    forall k, st_coef z k = sumI d (fun i => sumI d (fun j =>
      if (N.ldiff (ones d) (N.lxor i j) =? k)%N then act (msign i j) (rmul (st_coef x i) (st_coef y j)) else r0)).
Proof.
  intros Hx Hy. unfold naive_meet. rewrite (ok_cover A AOK). fold d.
  destruct (product_ok (fun ia ret jb =>
      let self_dual_idx := N.ldiff (ones d) (fst ia) in
      let rhs_dual_idx := N.ldiff (ones d) (fst jb) in
      let dual_idx := N.ldiff (ones d) (N.lxor (fst ia) (fst jb)) in
      s1 <- blade_wedge_product_sign A self_dual_idx rhs_dual_idx ;;
      s2 <- blade_wedge_product_sign A self_dual_idx (fst ia) ;;
      s3 <- blade_wedge_product_sign A rhs_dual_idx (fst jb) ;;
      s4 <- blade_wedge_product_sign A (N.lxor (fst ia) (fst jb)) dual_idx ;;
      let s := sign_mul (sign_mul (sign_mul s1 s2) s3) s4 in
      c <- st_get ret dual_idx ;;
      Ok (accum s ret dual_idx c (rmul (snd ia) (snd jb)))) msign
      (fun i j => N.ldiff (ones d) (N.lxor i j)) x y Hx Hy) as (z & E & Hz & Hc).
  { intros ia ret jb Hr Hi Hj. split; [apply cmpl_lt|]. cbv zeta.
    rewrite !wedge_sign_ok by (fold d; auto using cmpl_lt, lxor_lt; pose proof d64; lia). simpl.
    rewrite (st_get_ok d) by (auto using cmpl_lt). reflexivity. }
  exists z. auto.
Qed.

(** *** Scalars *)
Lemma scalar_loop (s : N -> sign) (h : N -> T -> T) x :
  st_wf d x -> (forall i, h i r0 = r0) ->
  forall (body : T -> N * T -> res T),
  (forall r i c, (i < pow2 d)%N -> body r (i, c) = Ok (radd r (act (s i) (h i c)))) ->
  foldM body (st_enum x) r0 = Ok (sumI d (fun i => act (s i) (h i (st_coef x i)))).
Proof.
  intros Hx Hh body Hb.
  pose proof (st_enum_ok d x Hx) as He. pose proof He as (_ & Hin & _).
  rewrite (foldM_ext body (fun r ic => Ok (radd r (act (s (fst ic)) (h (fst ic) (snd ic)))))).
  - rewrite foldM_pure. f_equal.
    rewrite <- (enum_sum_all d (st_coef x) (st_enum x) (fun i c => act (s i) (h i c))); auto.
    + assert (G : forall l r, fold_left (fun r ic => radd r (act (s (fst ic)) (h (fst ic) (snd ic)))) l r
          = radd r (suml (fun ic : N * T => act (s (fst ic)) (h (fst ic) (snd ic))) l)).
      { induction l as [|e l IH]; intros r; simpl; [symmetry; apply add_0_r|].
        rewrite IH, add_assoc. reflexivity. }
      rewrite G. apply add_0_l.
    + intros i. rewrite Hh, act_0. reflexivity.
  - intros r [i c] Hi. apply Hb. eapply Hin; eauto.
Qed.

Lemma vsdot_ok x y : st_wf d x -> st_wf d y ->
  mv_vsdot x y = Ok (sumI d (fun i => rmul (st_coef x i) (st_coef y i))).
Proof.
  intros Hx Hy. unfold mv_vsdot.
  apply (scalar_loop (fun _ => Plus) (fun i c => rmul c (st_coef y i))); auto.
  - intros; apply mul_0_l.
  - intros r i c Hi. cbn [fst snd]. unfold mv_get_by_idx. rewrite (st_get_ok d) by auto. reflexivity.
Qed.

Lemma vdot_ok x y : st_wf d x -> st_wf d y ->
  mv_vdot A x y = Ok (sumI d (fun i => act (gsign d Q P i i) (rmul (st_coef x i) (st_coef y i)))).
Proof.
  intros Hx Hy. unfold mv_vdot.
  apply (scalar_loop (fun i => gsign d Q P i i) (fun i c => rmul c (st_coef y i))); auto.
  - intros; apply mul_0_l.
  - intros r i c Hi. cbn [fst snd]. rewrite geo_sign_ok by (auto; pose proof d64; fold d; lia). simpl.
    fold d Q P. destruct (gsign d Q P i i); simpl; unfold mv_get_by_idx; rewrite ?(st_get_ok d) by auto; simpl.
    + rewrite add_0_r. reflexivity.
    + reflexivity.
    + rewrite sub_def. reflexivity.
Qed.

Lemma mag2_ok x : st_wf d x ->
  mv_mag2 A x = Ok (sumI d (fun i => act (gsign d Q P i i)
     (rmul (sgb (rbit (popcount i)) (st_coef x i)) (st_coef x i)))).
Proof.
  intros Hx. unfold mv_mag2.
  rewrite (scalar_loop (fun i => gsign d Q P i i) (fun i c => rmul (rev_c i c) (st_coef x i)) x Hx).
  - f_equal. apply sumI_ext. intros. rewrite rev_c_sgb. reflexivity.
  - intros. rewrite rev_c_sgb, sgb_0. apply mul_0_l.
  - intros r i c Hi. cbn [fst snd]. rewrite geo_sign_ok by (auto; pose proof d64; fold d; lia). simpl.
    fold d Q P. destruct (gsign d Q P i i); simpl; unfold mv_get_by_idx; rewrite ?(st_get_ok d) by auto; simpl.
    + rewrite add_0_r. reflexivity.
    + reflexivity.
    + rewrite sub_def. reflexivity.
Qed.

(** The scalar part of a geometric product. *)
Fixpoint fpow (x : N -> T) (n : nat) : N -> T :=
  match n with O => del 0 r1 | Datatypes.S n => gp d Q P (fpow x n) x end.

Lemma fpow_add x a b : feq d (fpow x (a + b)) (gp d Q P (fpow x a) (fpow x b)).
Proof.
  induction b as [|b IH].
  - rewrite Nat.add_0_r. simpl. intros k Hk. symmetry. apply gp_1_r; auto.
  - rewrite Nat.add_succ_r. simpl. intros k Hk.
    rewrite (gp_ext _ _ _ _ (gp d Q P (fpow x a) (fpow x b)) x x); auto using feq_refl.
    apply gp_assoc; auto.
Qed.

Lemma pow_fuel_ok x fuel : st_wf d x -> forall n, n < fuel ->
  exists z, mv_pow_fuel A fuel x n = Ok z /\ st_wf d z /\ feq d (st_coef z) (fpow (st_coef x) n).
Proof.
  intros Hx. induction fuel as [|fuel IH]; intros n Hn; [lia|]. simpl.
  destruct n as [|[|n]].
  - destruct one_ok as (z & E & Hz & Hc). exists z. split; auto. split; auto. intros k _. apply Hc.
  - exists x. split; auto. split; auto. intros k Hk. simpl. symmetry. apply gp_1_l.
  - set (n2 := Datatypes.S (Datatypes.S n)) in *.
    destruct (IH (Nat.div2 n2)) as (h & Eh & Hh & Hch).
    { pose proof (Nat.lt_div2 n2). unfold n2 in *. lia. }
    rewrite Eh. simpl. destruct (mul_ok h h Hh Hh) as (hh & Ehh & Hhh & Hchh). rewrite Ehh. simpl.
    assert (Hsq : feq d (st_coef hh) (fpow (st_coef x) (Nat.div2 n2 + Nat.div2 n2))).
    { intros k Hk. rewrite Hchh by auto. rewrite fpow_add by auto. apply gp_ext; auto. }
    change (Nat.even n) with (Nat.even n2). destruct (Nat.even n2) eqn:Ev.
    + exists hh. split; auto. split; auto.
      apply Nat.even_spec in Ev. change (feq d (st_coef hh) (fpow (st_coef x) n2)).
      rewrite (Nat.Even_double n2 Ev). exact Hsq.
    + destruct (mul_ok hh x Hhh Hx) as (z & Ez & Hz & Hcz). exists z. split; auto. split; auto.
      intros k Hk. rewrite Hcz by auto. change (gp d Q P (st_coef hh) (st_coef x) k = fpow (st_coef x) n2 k).
      replace (fpow (st_coef x) n2) with (fpow (st_coef x) (Datatypes.S (Nat.div2 n2 + Nat.div2 n2))).
      * simpl. apply gp_ext; auto using feq_refl.
      * f_equal. assert (Od : Nat.odd n2 = true) by (rewrite <- Nat.negb_even, Ev; reflexivity).
        apply Nat.odd_spec in Od. symmetry. exact (Nat.Odd_double n2 Od).
Qed.

Lemma pow_ok x n : st_wf d x ->
  exists z, mv_pow A x n = Ok z /\ st_wf d z /\ feq d (st_coef z) (fpow (st_coef x) n).
Proof. intros Hx. apply pow_fuel_ok; auto. Qed.

(** *** from_vector, extract_vector, basis *)
Lemma from_vector_fold cs : forall ret n, st_wf d ret -> n + length cs <= d ->
  exists z, foldM (fun rn c =>
      let '(ret, n) := rn in
      if Nat.leb (a_dim A) n then Err InvalidShape
      else i <- shl 1 n ;; Ok (st_set ret i c, Datatypes.S n)) cs (ret, n) = Ok (z, n + length cs)
    /\ st_wf d z
    /\ (forall i, i < length cs -> st_coef z (pow2 (n + i)) = nth i cs r0)
    /\ (forall k, (forall i, i < length cs -> k <> pow2 (n + i)) -> st_coef z k = st_coef ret k).
Proof.
  induction cs as [|c cs IH]; intros ret n Hr Hn; simpl.
  - exists ret. rewrite Nat.add_0_r. split; auto. split; auto. split; auto. intros; lia.
  - simpl in Hn. destruct (Nat.leb_spec (a_dim A) n) as [Hle|Hlt]; [fold d in Hle; lia|].
    rewrite shl_1 by (pose proof d64; fold d in Hlt; lia). simpl.
    destruct (st_set_ok d ret (pow2 n) c Hr) as [H1 H2].
    assert (Hlt2 : (pow2 n <? pow2 d)%N = true) by (apply N.ltb_lt, pow2_lt; lia).
    destruct (IH (st_set ret (pow2 n) c) (Datatypes.S n) H1) as (z & E & Hz & Hc & Ho); [lia|].
    exists z. split; [rewrite E; do 2 f_equal; lia|]. split; auto. split.
    + intros [|i] Hi.
      * rewrite Nat.add_0_r, Ho, H2, Hlt2, N.eqb_refl; auto.
        intros i Hi' E'. apply pow2_inj in E'. lia.
      * rewrite Nat.add_succ_r. apply (Hc i). lia.
    + intros k Hk. rewrite Ho, H2.
      * destruct (N.eqb_spec (pow2 n) k) as [E'|E']; auto. exfalso.
        apply (Hk 0); [lia|]. rewrite Nat.add_0_r. auto.
      * intros i Hi. specialize (Hk (Datatypes.S i)). rewrite Nat.add_succ_r in Hk. apply Hk. lia.
Qed.

Lemma from_vector_ok cs : length cs = d ->
  exists z, mv_from_vector A cs = Ok z /\ st_wf d z
    /\ (forall i, i < d -> st_coef z (pow2 i) = nth i cs r0)
    /\ (forall k, (forall i, i < d -> k <> pow2 i) -> st_coef z k = r0).
Proof.
  intros Hl. destruct default_ok as (z0 & E0 & Hz0 & H0). unfold mv_from_vector. rewrite E0.
  cbn [bind]. destruct (from_vector_fold cs z0 0 Hz0) as (z & E & Hz & Hc & Ho); [lia|].
  rewrite E. cbn [bind]. rewrite Nat.add_0_l, Hl in *. fold d. rewrite Nat.eqb_refl. simpl.
  exists z. split; auto. split; auto. split; auto. intros k Hk. rewrite Ho, H0; auto.
Qed.

Lemma from_vector_err cs : length cs <> d -> mv_from_vector A cs = Err InvalidShape.
Proof.
  intros Hl. destruct default_ok as (z0 & E0 & Hz0 & H0). unfold mv_from_vector. rewrite E0.
  cbn [bind]. destruct (Nat.le_gt_cases (length cs) d) as [Hle|Hgt].
  - destruct (from_vector_fold cs z0 0 Hz0) as (z & E & _); [lia|].
    rewrite E. cbn [bind]. fold d. destruct (Nat.eqb_spec (0 + length cs) d); [lia|]. reflexivity.
  - rewrite <- (firstn_skipn d cs), foldM_app.
    destruct (from_vector_fold (firstn d cs) z0 0 Hz0) as (z & E & _).
    { rewrite firstn_length. lia. }
    rewrite E. cbn [bind]. rewrite firstn_length.
    destruct (skipn d cs) as [|c cs'] eqn:Es.
    + apply (f_equal (@length T)) in Es. rewrite skipn_length in Es. simpl in Es. lia.
    + simpl. fold d. rewrite Nat.min_l by lia. rewrite Nat.leb_refl. reflexivity.
Qed.

Lemma extract_vector_ok x : st_wf d x ->
  mv_extract_vector A x = Ok (map (fun i => st_coef x (pow2 i)) (seq 0 d)).
Proof.
  intros Hx. unfold mv_extract_vector. fold d. apply mapM_Ok. intros i Hi. apply in_seq in Hi.
  rewrite shl_1 by (pose proof d64; lia). simpl. unfold mv_get_by_idx. apply (st_get_ok d); auto.
  apply pow2_lt. lia.
Qed.

Lemma basis_ok : exists l, mv_basis A = Ok l /\ length l = d /\
  forall n, n < d -> exists z, nth_error l n = Some z /\ st_wf d z /\ forall k, st_coef z k = del (pow2 n) r1 k.
Proof.
  unfold mv_basis. fold d. destruct default_ok as (z & E & Hz & H0). unfold mv_zero. rewrite E.
  rewrite (mapM_Ok _ (fun n => st_set z (pow2 n) r1)).
  - eexists. split; [reflexivity|]. rewrite map_length, seq_length. split; auto.
    intros n Hn. exists (st_set z (pow2 n) r1). split.
    + rewrite nth_error_map. rewrite (nth_error_nth' (seq 0 d) 0) by (rewrite seq_length; auto).
      rewrite seq_nth by auto. reflexivity.
    + destruct (st_set_ok d z (pow2 n) r1 Hz) as [H1 H2]. split; auto. intros k. rewrite H2, H0.
      replace (pow2 n <? pow2 d)%N with true by (symmetry; apply N.ltb_lt, pow2_lt; lia).
      rewrite andb_true_r. unfold del. rewrite N.eqb_sym. reflexivity.
  - intros n Hn. apply in_seq in Hn. simpl. rewrite shl_1 by (pose proof d64; lia). reflexivity.
Qed.

(** *** Predicates *)
Lemma is_zero_ok x : st_wf d x -> (mv_is_zero x = true <-> forall i, (i < pow2 d)%N -> st_coef x i = r0).
Proof.
  intros Hx. pose proof (st_enum_ok d x Hx) as (_ & Hin & Hall). unfold mv_is_zero. rewrite forallb_forall. split.
  - intros H i Hi. destruct (is0_dec (st_coef x i)) as [E|E]; auto.
    apply n_is0_spec. apply (H (i, st_coef x i)). apply Hall; auto.
  - intros H [i c] Hi. destruct (Hin i c Hi) as (Hlt & _ & ->). apply n_is0_spec. simpl. auto.
Qed.

Lemma eqb_num_ok x y : st_wf d x -> st_wf d y ->
  (mv_eqb x y = true <-> forall i, (i < pow2 d)%N -> reqb (st_coef x i) (st_coef y i) = true).
Proof.
  intros Hx Hy. unfold mv_eqb. rewrite (st_eqb_ok d x y Hx Hy). split; auto.
  intros H i. destruct (N.lt_ge_cases i (pow2 d)) as [Hi|Hi]; auto.
  rewrite !(st_coef_out d) by auto. apply n_reqb_0.
Qed.
Lemma eqb_ok x y : st_wf d x -> st_wf d y ->
  (mv_eqb x y = true <-> forall i, (i < pow2 d)%N -> st_coef x i = st_coef y i).
Proof.
  intros Hx Hy. rewrite (eqb_num_ok x y Hx Hy). split; intros H i Hi; [apply reqb_spec|apply reqb_spec]; auto.
Qed.

Lemma approx_eq_ok {R} {NL : NormLt T R} x y (e : R) : st_wf d x -> st_wf d y -> norm_lt r0 e = true ->
  exists b, mv_approx_eq x y e = Ok b /\
   (b = true <-> forall i, (i < pow2 d)%N -> norm_lt (rsub (st_coef x i) (st_coef y i)) e = true).
Proof.
  intros Hx Hy He. unfold mv_approx_eq. destruct (sub_ok x y Hx Hy) as (z & E & Hz & Hc). rewrite E. simpl.
  eexists. split; [reflexivity|]. rewrite forallb_forall.
  pose proof (st_enum_ok d z Hz) as (_ & Hin & Hall). split.
  - intros H i Hi. rewrite <- Hc. destruct (is0_dec (st_coef z i)) as [->|E']; auto.
    apply (H (i, st_coef z i)). apply Hall; auto.
  - intros H [i c] Hi. destruct (Hin i c Hi) as (Hlt & _ & ->). simpl. rewrite Hc. auto.
Qed.

(** *** Normalised reversals and division *)
Lemma cmag2_ok {C : ConjOps T} x : rconj r0 = r0 -> st_wf d x ->
  mv_cmag2 A x = Ok (sumI d (fun i => act (gsign d Q P i i)
     (rmul (sgb (rbit (popcount i)) (rconj (st_coef x i))) (st_coef x i)))).
Proof.
  intros H0 Hx. destruct (revc_ok x H0 Hx) as (z & E & Hz & Hc). unfold mv_revc in E. unfold mv_cmag2.
  rewrite E. simpl. rewrite vdot_ok by auto. f_equal. apply sumI_ext. intros i Hi. rewrite Hc by auto. reflexivity.
Qed.

Lemma enum_mut_ok (f : N -> T -> T) x : st_wf d x -> (forall i, f i r0 = r0) ->
  st_wf d (st_enum_mut f x) /\ forall i, (i < pow2 d)%N -> st_coef (st_enum_mut f x) i = f i (st_coef x i).
Proof. intros Hx Hf. apply st_enum_mut_ok; auto. Qed.

End OneStorage.

(** *** Between storages *)
Section Two.
Context {S : Type} {St : Storage T S} {SL : StorageLaws T S}.
Context {S' : Type} {St' : Storage T S'} {SL' : StorageLaws T S'}.
Variable A : algebra.
Hypothesis AOK : alg_ok A.
Let d := a_dim A.
Hypothesis DOK' : @st_dim_ok _ _ _ _ SL' d.

Lemma grade_extract_as_ok (x : S) g : st_wf d x ->
  exists z : S', mv_grade_extract_as A x g = Ok z /\ st_wf d z /\
    forall k, (k < pow2 d)%N -> st_coef z k = if Nat.eqb (popcount k) g then st_coef x k else r0.
Proof.
  intros Hx. unfold mv_grade_extract_as. destruct (default_ok (S := S') A DOK') as (z & E & Hz & H0).
  fold d in Hz. rewrite E. simpl. unfold mv_grade_enumerate.
  destruct (st_grade_ok d x g Hx) as (l & El & He). rewrite El. simpl.
  eexists. split; [reflexivity|].
  destruct (build_id d (fun _ c => c) _ _ _ z Hz H0 He) as [H1 H2]; auto.
Qed.

Lemma to_storage_ok (x : S) : st_wf d x ->
  exists z : S', mv_to_storage A x = Ok z /\ st_wf d z /\ forall k, (k < pow2 d)%N -> st_coef z k = st_coef x k.
Proof.
  intros Hx. unfold mv_to_storage. destruct (default_ok (S := S') A DOK') as (z & E & Hz & H0).
  fold d in Hz. rewrite E. simpl. eexists. split; [reflexivity|].
  pose proof (st_enum_ok d x Hx) as He.
  set (l' := filter (fun ic : N * T => negb (ris0 (snd ic))) (st_enum x)).
  assert (He' : enum_of d (st_coef x) (fun _ => true) l').
  { destruct He as (HN & Hin & Hall). split; [|split].
    - apply NoDup_map_filter. auto.
    - intros i c Hi. apply filter_In in Hi. apply Hin. tauto.
    - intros i Hi _ Hnz. apply filter_In. split; [apply Hall; auto|]. simpl.
      apply is0_false in Hnz. rewrite Hnz. reflexivity. }
  assert (G : forall l ret, fold_left (fun (r : S') (ic : N * T) => if ris0 (snd ic) then r else st_set r (fst ic) (snd ic)) l ret
     = fold_left (fun r ic => st_set r (fst ic) (snd ic)) (filter (fun ic : N * T => negb (ris0 (snd ic))) l) ret).
  { induction l as [|[i c] l IH]; intros ret; simpl; auto. destruct (ris0 c); simpl; auto. }
  rewrite G. destruct (build_id d (fun _ c => c) _ _ _ z Hz H0 He') as [H1 H2]; auto.
Qed.
End Two.

End MV.
