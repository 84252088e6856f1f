(** Programs and products over coefficient types with rounded arithmetic. *)
From Verif Require Export P_Agree P_Fmt.
Local Open Scope nat_scope.

(** ** Programs never panic *)
Section EvalTotal.
Context {T : Type} {RO : RingOps T} {W : NumLaws T} {DV : DivOps T} {CJ : ConjOps T} {m : Mode} {H : HashOrder}.
Variable A : algebra.
Variable sg : list tok.
Hypothesis D : declared sg A.
Local Notation d := (a_dim A).
Local Notation AOK := (declared_ok sg A D).

Definition good {S} {St : Storage T S} {SL : StorageLaws T S} (ok : Prop) (r : res S) : Prop :=
  match r with Ok z => valid A z | Err _ => ~ ok | Panic => False end.

Lemma good_bind {S S'} {St : Storage T S} {SL : StorageLaws T S} {St' : Storage T S'} {SL' : StorageLaws T S'}
  (ok ok' : Prop) (r : res S) (k : S -> res S') : (ok' -> ok) ->
  good ok r -> (forall x, valid A x -> good ok' (k x)) -> good ok' (bind r k).
Proof. intros Hi Hr Hk. destruct r; cbn in *; auto. Qed.
Lemma good_s {S} {St : Storage T S} {SL : StorageLaws T S} ok (r : res S) : succeeds A r -> good ok r.
Proof. intros (z & -> & Hz). exact Hz. Qed.

Lemma enum_mut_wf k (x : store k T) f : valid A x -> valid A (st_enum_mut f x).
Proof.
  intros Hx. destruct k; cbn in *.
  - destruct Hx as (H1 & H2 & H3). split; auto. split; auto. unfold arr_enum_mut. cbn [arr_data]. rewrite map_length, length_enumerate. auto.
  - destruct Hx as (H1 & H2 & H3 & HN & Hin). split; auto. split; auto. split; auto. unfold sps_enum_mut. cbn [sps_map]. split.
    + rewrite map_map. exact HN.
    + intros i c Hi. apply in_map_iff in Hi. destruct Hi as ([j b] & E & Hi). cbn [fst snd] in E. injection E as <- _. apply (Hin j b Hi).
  - exact Hx.
Qed.

Lemma s_div k (x y : store k T) : valid A x -> valid A y -> succeeds A (mv_div A x y).
Proof.
  intros Hx Hy. unfold mv_div. destruct (s_rev A y Hy) as (rv & -> & Hrv). cbn [bind].
  destruct (s_flip A rv Hrv) as (cj & -> & Hcj). cbn [bind].
  destruct (s_mul A AOK y cj Hy Hcj) as (p & -> & Hp). cbn [bind].
  rewrite (s_get A p 0 Hp) by apply pow2_pos. cbn [bind]. apply (s_mul A AOK); auto. apply enum_mut_wf; auto.
Qed.

Lemma from_indexed_good k l : supports k A -> good (args_ok A (EIdx l)) (mv_from_indexed_iter A l : res (store k T)).
Proof.
  intros Hs. pose proof (supports_dim (T := T) sg A k D Hs) as HD.
  destruct (existsb (fun ic => (pow2 d <=? fst ic)%N) l) eqn:Ex.
  - apply existsb_exists in Ex. destruct Ex as ([i c] & Hi & Hb). apply N.leb_le in Hb. cbn [fst] in Hb.
    rewrite (from_indexed_err A AOK HD l i c Hi Hb). cbn. intros Hall. specialize (Hall i c Hi). fold (pow2 d) in Hall. lia.
  - apply good_s. destruct (from_indexed_ok A AOK HD l) as (z & E & Hz & _); [|exists z; auto].
    intros i c Hi. apply N.lt_nge. intros Hle.
    assert (existsb (fun ic => (pow2 d <=? fst ic)%N) l = true); [|congruence].
    apply existsb_exists. exists (i, c). split; auto. apply N.leb_le. exact Hle.
Qed.

Theorem eval_total (e : expr T) : forall k, supports k A -> offers k A e -> good (args_ok A e) (eval k A e).
Proof.
  induction e; intros K Hs Hw; cbn [eval offers args_ok] in *;
    try (assert (HD := supports_dim (T := T) sg A K D Hs));
    try (apply (good_bind (args_ok A e)); [tauto|apply IHe; tauto|intros x Hx]; apply good_s).
  - apply good_s. eapply gives_succeeds, g_default; auto.
  - apply good_s. eapply gives_succeeds, g_one; auto.
  - apply good_s. eapply gives_succeeds, g_from_scalar; auto.
  - destruct (Nat.eq_dec (length cs) d) as [Hl|Hl].
    + apply good_s. destruct (from_vector_ok A AOK HD cs Hl) as (z & E & Hz & _). exists z. auto.
    + rewrite (from_vector_err A AOK HD cs Hl). exact Hl.
  - apply from_indexed_good; auto.
  - apply good_s. destruct (basis_ok A AOK HD) as (l & E & Hl & Hb). rewrite E. cbn [bind].
    destruct (Hb n Hw) as (z & En & Hz & Hc). unfold nthr. rewrite En. exists z. auto.
  - eexists. split; [reflexivity|]. apply st_set_ok; auto.
  - apply (good_bind (args_ok A e1)); [tauto|apply IHe1; tauto|intros x Hx].
    apply (good_bind (args_ok A e2)); [tauto|apply IHe2; tauto|intros y Hy].
    apply good_s. eapply gives_succeeds, g_add; auto.
  - apply (good_bind (args_ok A e1)); [tauto|apply IHe1; tauto|intros x Hx].
    apply (good_bind (args_ok A e2)); [tauto|apply IHe2; tauto|intros y Hy].
    apply good_s. eapply gives_succeeds, g_sub; auto.
  - eapply gives_succeeds, (g_neg A sg D); auto.
  - apply (good_bind (args_ok A e1)); [tauto|apply IHe1; tauto|intros x Hx].
    apply (good_bind (args_ok A e2)); [tauto|apply IHe2; tauto|intros y Hy].
    apply good_s. apply (s_mul A AOK); auto.
  - apply (good_bind (args_ok A e1)); [tauto|apply IHe1; tauto|intros x Hx].
    apply (good_bind (args_ok A e2)); [tauto|apply IHe2; tauto|intros y Hy].
    apply good_s. destruct Hw as (HK & _). destruct K; [apply (s_dense_wedge A sg D); auto|apply (s_wedge A AOK x y); auto|congruence].
  - apply (good_bind (args_ok A e1)); [tauto|apply IHe1; tauto|intros x Hx].
    apply (good_bind (args_ok A e2)); [tauto|apply IHe2; tauto|intros y Hy].
    apply good_s. destruct Hw as (HK & _). destruct K; [apply (s_dense_meet A sg D); auto|apply (s_meet A AOK x y); auto|congruence].
  - apply s_scale; auto.
  - apply s_divs; auto.
  - apply s_flip; auto.
  - apply s_flip_subspace; auto.
  - apply s_rev; auto.
  - apply (s_revc A AOK); auto.
  - eapply gives_succeeds, (g_dual A sg D); auto.
  - eapply gives_succeeds, (g_undual A sg D); auto.
  - apply (s_pow A AOK); auto.
  - eapply gives_succeeds, g_grade_extract; auto.
  - destruct (grade_extract_as_ok (S' := store K T) A HD x g Hx) as (z & E & Hz & _). exists z. auto.
  - destruct (to_storage_ok (S' := store K T) A HD x Hx) as (z & E & Hz & _). exists z. auto.
  - destruct Hw as [HK _]. destruct K; [|eapply gives_succeeds, (g_sparse_filter A x f Hx)|congruence].
    eapply gives_succeeds, (from_indexed_filter A sg D x f Hx).
  - destruct Hw as [-> _]. eapply gives_succeeds. apply (from_indexed_filter A sg D x (fun i _ => existsb (Nat.eqb (popcount i)) gs) Hx).
  - destruct Hw as [-> _]. eapply gives_succeeds. apply (g_sparse_filter A x (fun i _ => existsb (Nat.eqb (popcount i)) gs) Hx).
  - apply (s_revm A AOK); auto.
  - apply (s_revcm A AOK); auto.
  - apply (good_bind (args_ok A e1)); [tauto|apply IHe1; tauto|intros x Hx].
    apply (good_bind (args_ok A e2)); [tauto|apply IHe2; tauto|intros y Hy].
    apply good_s. apply s_div; auto.
Qed.
End EvalTotal.

(** ** Products as ordered sums *)
Definition sacc {T} {RO : RingOps T} (s : sign) (c p : T) : T :=
  match s with Null => c | Plus => radd c p | Minus => rsub c p end.
Lemma add_term_sacc {T} {RO : RingOps T} s (c p : T) : add_term (sign_i8 s) c p = sacc s c p.
Proof. destruct s; reflexivity. Qed.

Lemma fold_left_ext_in {X B} (f g : B -> X -> B) l b :
  (forall b x, In x l -> f b x = g b x) -> fold_left f l b = fold_left g l b.
Proof.
  revert b. induction l as [|x l IH]; intros b Hf; cbn [fold_left]; auto. rewrite Hf by (left; auto).
  apply IH. intros. apply Hf. right. auto.
Qed.

Section Ordered.
Context {T : Type} {RO : RingOps T} {W : NumLaws T} {m : Mode}.
Context {S : Type} {St : Storage T S} {SL : StorageLaws T S}.
Variable A : algebra.
Variable sg : list tok.
Hypothesis D : declared sg A.
Local Notation d := (a_dim A).
Local Notation AOK := (declared_ok sg A D).

Lemma accum_seq s (ret : S) idx p k : valid A ret -> (idx < pow2 d)%N ->
  st_coef (accum s ret idx (st_coef ret idx) p) k = if (idx =? k)%N then sacc s (st_coef ret k) p else st_coef ret k.
Proof.
  intros Hr Hi. pose proof Hi as Hi'. apply N.ltb_lt in Hi'.
  destruct s; cbn [accum sacc]; [destruct (idx =? k)%N; reflexivity| |];
  (edestruct (st_set_ok d ret idx) as [_ H2]; [exact Hr|]; rewrite H2, Hi', andb_true_r;
   destruct (N.eqb_spec idx k) as [->|]; reflexivity).
Qed.

Lemma loop_seq {E} (body : S -> E -> res S) (s : E -> sign) (t : E -> N) (p : E -> T) l :
  (forall ret e, valid A ret -> In e l ->
     (t e < pow2 d)%N /\ body ret e = Ok (accum (s e) ret (t e) (st_coef ret (t e)) (p e))) ->
  forall ret, valid A ret ->
  exists r, foldM body l ret = Ok r /\ valid A r /\
    forall k, st_coef r k = fold_left (fun c e => if (t e =? k)%N then sacc (s e) c (p e) else c) l (st_coef ret k).
Proof.
  induction l as [|e l IH]; intros Hb ret Hr; cbn [foldM fold_left].
  - exists ret. auto.
  - destruct (Hb ret e Hr) as [Ht E1]; [left; auto|]. rewrite E1. cbn [bind].
    destruct (IH (fun ret' e' Hr' He' => Hb ret' e' Hr' (or_intror He')) _ (accum_wf A (s e) ret (t e) (st_coef ret (t e)) (p e) Hr)) as (r & Er & Hr2 & Hc).
    exists r. split; [exact Er|]. split; [exact Hr2|]. intros k. rewrite Hc, accum_seq by auto. reflexivity.
Qed.

Lemma loop2_seq (body : N * T -> S -> N * T -> res S) (s : N -> N -> sign) (t : N -> N -> N) lx ly :
  (forall ia ret jb, valid A ret -> In ia lx -> In jb ly ->
     (t (fst ia) (fst jb) < pow2 d)%N /\
     body ia ret jb = Ok (accum (s (fst ia) (fst jb)) ret (t (fst ia) (fst jb))
        (st_coef ret (t (fst ia) (fst jb))) (rmul (snd ia) (snd jb)))) ->
  forall ret, valid A ret ->
  exists r, foldM (fun ret ia => foldM (body ia) ly ret) lx ret = Ok r /\ valid A r /\
    forall k, st_coef r k = fold_left (fun c ia => fold_left (fun c jb =>
      if (t (fst ia) (fst jb) =? k)%N then sacc (s (fst ia) (fst jb)) c (rmul (snd ia) (snd jb)) else c) ly c) lx (st_coef ret k).
Proof.
  induction lx as [|ia lx IH]; intros Hb ret Hr; cbn [foldM fold_left].
  - exists ret. auto.
  - destruct (loop_seq (body ia) (fun jb => s (fst ia) (fst jb)) (fun jb => t (fst ia) (fst jb))
                (fun jb => rmul (snd ia) (snd jb)) ly) with (ret := ret) as (r1 & E1 & Hr1 & Hc1); auto.
    { intros ret' jb Hr' Hjb. apply Hb; auto. left. auto. }
    rewrite E1. cbn [bind].
    destruct (IH (fun ia' ret' jb Hr' Hia Hjb => Hb ia' ret' jb Hr' (or_intror Hia) Hjb) r1 Hr1)
      as (r & E & Hr2 & Hc).
    exists r. split; [exact E|]. split; [exact Hr2|]. intros k. rewrite Hc, Hc1. reflexivity.
Qed.

Lemma inner_seq (s : N -> N -> sign) i (a : T) k ly c : NoDup (map fst ly) ->
  fold_left (fun c jb => if (N.lxor i (fst jb) =? k)%N then sacc (s i (fst jb)) c (rmul a (snd jb)) else c) ly c
  = match hm_get ly (N.lxor i k) with Some b => sacc (s i (N.lxor i k)) c (rmul a b) | None => c end.
Proof.
  intros HN. revert c. induction ly as [|[j b] ly IH]; intros c; cbn [fold_left hm_get fst snd]; [reflexivity|].
  inversion HN as [|x l Hx Hl]; subst. destruct (N.eqb_spec (N.lxor i j) k) as [E|E].
  - assert (j = N.lxor i k) as Ej by (apply lxor_eq_iff; exact E). rewrite <- Ej, N.eqb_refl.
    rewrite (IH Hl). replace (hm_get ly (N.lxor i k)) with (@None T); [reflexivity|].
    symmetry. apply hm_get_none. rewrite <- Ej. exact Hx.
  - destruct (N.eqb_spec j (N.lxor i k)) as [Ej|_]; [|apply IH; auto].
    exfalso. apply E. rewrite Ej. rewrite <- N.lxor_assoc, N.lxor_nilpotent, N.lxor_0_l. reflexivity.
Qed.

Lemma product_seq q (body : N * T -> S -> N * T -> res S) (s : N -> N -> sign) x y :
  valid A x -> valid A y ->
  (forall i j, (i < pow2 d)%N -> (j < pow2 d)%N -> csign q d i j = sign_i8 (s i j)) ->
  (forall ia ret jb, valid A ret -> (fst ia < pow2 d)%N -> (fst jb < pow2 d)%N ->
     body ia ret jb = Ok (accum (s (fst ia) (fst jb)) ret (N.lxor (fst ia) (fst jb))
        (st_coef ret (N.lxor (fst ia) (fst jb))) (rmul (snd ia) (snd jb)))) ->
  gives A (ret <- mv_default A ;; foldM (fun ret ia => foldM (body ia) (st_enum y) ret) (st_enum x) ret)
   (ordered_product q d (map fst (mv_coeff_enumerate x))
      (fun j => existsb (N.eqb j) (map fst (mv_coeff_enumerate y))) (rd x) (rd y)).
Proof.
  intros Hx Hy Hs Hb. destruct (default_ok A (valid_dim A x Hx)) as (z & E & Hz & H0). rewrite E. cbn [bind].
  pose proof (st_enum_ok d x Hx) as (HNx & Hinx & Hallx). pose proof (st_enum_ok d y Hy) as (HNy & Hiny & Hally).
  destruct (loop2_seq body s N.lxor (st_enum x) (st_enum y)) with (ret := z) as (r & Er & Hr & Hc); auto.
  { intros [i a] ret [j b] Hr Hi Hj. apply Hinx in Hi. apply Hiny in Hj. split; [apply lxor_lt; cbn; tauto|]. apply Hb; auto; cbn; tauto. }
  apply gives_iff. exists r. split; [exact Er|]. split; [exact Hr|]. intros k Hk. rewrite Hc, H0.
  unfold ordered_product, mv_coeff_enumerate. 
  assert (FM : forall (X Y B : Type) (h : X -> Y) (f : B -> Y -> B) l b, fold_left f (map h l) b = fold_left (fun b x => f b (h x)) l b).
  { intros X Y B h f l. induction l as [|w l IH]; intros b; cbn; auto. }
  rewrite FM. apply fold_left_ext_in. intros c [i a] Hi. destruct (Hinx i a Hi) as (Hi' & _ & ->). cbn [fst snd].
  rewrite inner_seq by auto. cbv zeta. set (j := N.lxor i k). assert (Hj : (j < pow2 d)%N) by (apply lxor_lt; auto).
  destruct (hm_get (st_enum y) j) as [b|] eqn:Eg.
  - apply hm_get_in in Eg; auto. destruct (Hiny j b Eg) as (_ & _ & ->).
    replace (existsb (N.eqb j) (map fst (st_enum y))) with true.
    + rewrite Hs, add_term_sacc, !(rd_coef d) by auto. reflexivity.
    + symmetry. apply existsb_exists. exists j. split; [|apply N.eqb_refl]. apply in_map_iff. exists (j, st_coef y j). auto.
  - replace (existsb (N.eqb j) (map fst (st_enum y))) with false; [reflexivity|].
    symmetry. apply not_true_is_false. intros Ex. apply existsb_exists in Ex. destruct Ex as (j' & Hj' & Ej).
    apply N.eqb_eq in Ej. subst j'. apply hm_get_none in Eg. contradiction.
Qed.

Lemma mul_seq x y : valid A x -> valid A y ->
  gives A (mv_mul A x y) (ordered_product (sq sg) d (map fst (mv_coeff_enumerate x))
      (fun j => existsb (N.eqb j) (map fst (mv_coeff_enumerate y))) (rd x) (rd y)).
Proof.
  intros Hx Hy. unfold mv_mul. apply (product_seq (sq sg) _ (gsign d (a_imag A) (a_proj A))); auto.
  - intros i j Hi Hj. apply (csign_ok (sq sg) d (a_imag A) (a_proj A)); auto. apply declared_metric; auto.
  - intros ia ret jb Hr Hi Hj. cbv zeta. rewrite (st_get_ok d) by (auto using lxor_lt). cbn [bind].
    rewrite geo_sign_ok by (auto; pose proof (ok_dim A AOK); lia). reflexivity.
Qed.
Lemma wedge_seq x y : valid A x -> valid A y ->
  gives A (naive_wedge A x y) (ordered_product q0 d (map fst (mv_coeff_enumerate x))
      (fun j => existsb (N.eqb j) (map fst (mv_coeff_enumerate y))) (rd x) (rd y)).
Proof.
  intros Hx Hy. unfold naive_wedge. apply (product_seq q0 _ (wsign d)); auto.
  - intros i j Hi Hj. rewrite (wsign_gsign d 0) by auto. apply (csign_ok q0 d 0 (ones d)); auto. apply metric_q0.
  - intros ia ret jb Hr Hi Hj. cbv zeta. rewrite (st_get_ok d) by (auto using lxor_lt). cbn [bind].
    rewrite wedge_sign_ok by (auto; pose proof (ok_dim A AOK); lia). reflexivity.
Qed.
End Ordered.

(** ** Observers, linear operations and orders, for the three storages *)
Section Kinds.
Context {T : Type} {RO : RingOps T} {W : NumLaws T} {m : Mode} {H : HashOrder}.
Variable sg : list tok.
Variable A : algebra.
Hypothesis D : declared sg A.
Local Notation d := (a_dim A).
Local Notation AOK := (declared_ok sg A D).

Theorem observers_total {CJ : ConjOps T} {FO : FmtOps T} {R} {NL : NormLt T R} k (x y : store k T) (nm : nat -> String.string) fl (eps : R) i :
  (forall i, i < d -> a_name A i = Ok (nm i)) -> valid A x -> valid A y -> (i < 2 ^ N.of_nat d)%N ->
  (exists v, mv_get_by_idx x i = Ok v) /\ (exists v, mv_scalar_part x = Ok v) /\
  (exists l, mv_extract_vector A x = Ok l) /\ (forall g, exists l, mv_grade_enumerate x g = Ok l) /\
  (exists v, mv_vsdot x y = Ok v) /\ (exists v, mv_vdot A x y = Ok v) /\
  (exists v, mv_mag2 A x = Ok v) /\ (exists v, mv_cmag2 A x = Ok v) /\
  (exists b, mv_approx_eq x y eps = Ok b) /\ (exists s, mv_fmt A fl x = Ok s).
Proof.
  intros Hn Hx Hy Hi. split; [exists (st_coef x i); apply (s_get A); auto|].
  split; [exists (st_coef x 0); apply (s_get A); auto; apply pow2_pos|].
  split; [eexists; apply (extract_vector_ok A AOK x Hx)|].
  split; [intros g; destruct (st_grade_ok d x g Hx) as (l & E & _); eauto|].
  split; [eapply (t_vsdot A); auto|]. split; [apply (t_vdot A AOK); auto|]. split; [apply (t_mag2 A AOK); auto|].
  split; [apply (t_cmag2 A AOK); auto|]. split; [apply (t_approx A); auto|].
  eexists. unfold mv_fmt. apply (fmt_fold_true sg A D nm Hn fl).
  intros j c Hj. apply (st_enum_ok d x Hx) in Hj. tauto.
Qed.

Lemma dense_enum (x : arr T) : valid A x ->
  map fst (mv_coeff_enumerate x) = filter (fun i => negb (ris0 (rd x i))) (idxs d).
Proof.
  intros Hx. pose proof Hx as (_ & _ & Hl). unfold mv_coeff_enumerate, idxs. cbn [st_enum ArrStorage].
  unfold arr_enum. rewrite <- Hl, <- map_fst_enumerate.
  assert (G : forall l, (forall i c, In (i, c) l -> c = rd x i) ->
    map fst (filter (fun ic => negb (ris0 (snd ic))) l) = filter (fun i => negb (ris0 (rd x i))) (map fst l)).
  { induction l as [|[i c] l IH]; intros Hc; [reflexivity|]. cbn [filter map fst snd].
    rewrite <- (Hc i c) by (left; auto). destruct (ris0 c); cbn [negb map fst]; [|f_equal]; apply IH; intros; apply Hc; right; auto. }
  apply G. intros i c Hi. apply (in_enumerate (arr_data x) i c r0) in Hi. destruct Hi as [Hi ->].
  rewrite (rd_coef d) by (auto; apply to_nat_lt_pow2; rewrite <- Hl; auto). reflexivity.
Qed.

Lemma existsb_idxs p j : (j < pow2 d)%N -> existsb (N.eqb j) (filter p (idxs d)) = p j.
Proof.
  intros Hj. destruct (p j) eqn:E.
  - apply existsb_exists. exists j. split; [|apply N.eqb_refl]. apply filter_In. split; auto. apply in_idxs. auto.
  - apply not_true_is_false. intros Hx. apply existsb_exists in Hx. destruct Hx as (i & Hi & Ei). apply N.eqb_eq in Ei. subst i.
    apply filter_In in Hi. destruct Hi. congruence.
Qed.

Lemma ordered_ext q ord u u' (x x' y y' : N -> T) k : (k < pow2 d)%N -> (forall i, In i ord -> (i < pow2 d)%N) ->
  (forall j, (j < pow2 d)%N -> u j = u' j) -> feq d x x' -> feq d y y' ->
  ordered_product q d ord u x y k = ordered_product q d ord u' x' y' k.
Proof.
  intros Hk Ho Hu Hx Hy. apply fold_left_ext_in. intros c i Hi. cbv zeta. specialize (Ho i Hi).
  assert (N.lxor i k < pow2 d)%N by (apply lxor_lt; auto). rewrite Hu, Hx, Hy; auto.
Qed.

Theorem dense_order (x y : arr T) : valid A x -> valid A y ->
  gives A (mv_mul A x y) (fun k => fold_left (fun c i =>
    let j := N.lxor i k in
    if (ris0 (rd x i) || ris0 (rd y j))%bool then c
    else add_term (csign (sq sg) d i j) c (rmul (rd x i) (rd y j))) (idxs d) r0).
Proof.
  intros Hx Hy. eapply gives_ext; [apply (mul_seq A sg D x y Hx Hy)|]. intros k Hk.
  rewrite !dense_enum by auto. rewrite (ordered_ext _ _ _ (fun j => negb (ris0 (rd y j))) (rd x) (rd x) (rd y) (rd y)); auto using feq_refl.
  - unfold ordered_product.
    assert (G : forall (p : N -> bool) (f : T -> N -> T) l c, fold_left f (filter p l) c = fold_left (fun c i => if p i then f c i else c) l c).
    { intros p f l. induction l as [|i l IH]; intros c; cbn [filter fold_left]; auto. destruct (p i); cbn [fold_left]; auto. }
    rewrite G. apply fold_left_ext_in. intros c i Hi. cbv zeta.
    destruct (ris0 (rd x i)), (ris0 (rd y (N.lxor i k))); reflexivity.
  - intros i Hi. apply filter_In in Hi. apply in_idxs. tauto.
  - intros j Hj. apply existsb_idxs; auto.
Qed.

Theorem quat_order (x y : qst T) : a_dim A = 2 ->
  gives A (mv_mul A x y) (fun k => fold_left (fun c i =>
    let j := N.lxor i k in add_term (csign (sq sg) d i j) c (rmul (rd x i) (rd y j))) (idxs d) r0).
Proof.
  intros E. assert (Hv : forall z : qst T, valid A z) by (intros z; exact E).
  eapply gives_ext; [apply (mul_seq A sg D x y (Hv x) (Hv y))|]. intros k Hk.
  assert (EI : forall z : qst T, map fst (mv_coeff_enumerate z) = idxs d) by (intros z; rewrite E; reflexivity).
  rewrite !EI. rewrite (ordered_ext _ _ _ (fun j => true) (rd x) (rd x) (rd y) (rd y)); auto using feq_refl.
  - intros i Hi. apply in_idxs. auto.
  - intros j Hj. rewrite E in *. apply lt4 in Hj. destruct Hj as [-> | [-> | [-> | -> ]]]; reflexivity.
Qed.

Theorem same_order_thm k k' (x y : store k T) (x' y' : store k' T) :
  valid A x -> valid A y -> valid A x' -> valid A y' ->
  (forall i, (i < 2 ^ N.of_nat d)%N -> rd x i = rd x' i) -> (forall i, (i < 2 ^ N.of_nat d)%N -> rd y i = rd y' i) ->
  map fst (mv_coeff_enumerate x) = map fst (mv_coeff_enumerate x') ->
  (forall j, In j (map fst (mv_coeff_enumerate y)) <-> In j (map fst (mv_coeff_enumerate y'))) ->
  same A (mv_mul A x y) (mv_mul A x' y').
Proof.
  intros Hx Hy Hx' Hy' Ex Ey Eo Eu.
  destruct (mul_seq A sg D x y Hx Hy) as (z & E & Hz & Hc). destruct (mul_seq A sg D x' y' Hx' Hy') as (z' & E' & Hz' & Hc').
  exists z, z'. split; [exact E|]. split; [exact E'|]. split; [exact Hz|]. split; [exact Hz'|]. intros i Hi.
  rewrite Hc, Hc' by exact Hi. f_equal. rewrite <- Eo. apply ordered_ext; auto.
  - intros j Hj. apply in_map_iff in Hj. destruct Hj as ([j' c] & <- & Hj). apply (st_enum_ok d x Hx) in Hj. cbn. tauto.
  - intros j Hj. apply eq_true_iff_eq. rewrite !existsb_exists. split; intros (u & Hu & Eu'); exists u; split; auto; apply Eu; auto.
Qed.

Theorem dense_quat_thm (x y : arr T) (x' y' : qst T) : a_dim A = 2 ->
  valid A x -> valid A y ->
  (forall i, (i < 4)%N -> rd x i = rd x' i /\ rd y i = rd y' i) ->
  (forall i, (i < 4)%N -> rmul r0 (rd y i) = r0 /\ rmul (rd x i) r0 = r0) ->
  same A (mv_mul A x y) (mv_mul A x' y').
Proof.
  intros E Hx Hy Exy Hz.
  destruct (dense_order x y Hx Hy) as (z & E1 & Vz & Hc). destruct (quat_order x' y' E) as (z' & E2 & Vz' & Hc').
  exists z, z'. split; [exact E1|]. split; [exact E2|]. split; [exact Vz|]. split; [exact Vz'|]. intros k Hk.
  rewrite Hc, Hc' by exact Hk. f_equal. apply fold_left_ext_in. intros c i Hi. cbv zeta. apply in_idxs in Hi.
  set (j := N.lxor i k). assert (Hj : (j < pow2 d)%N) by (apply lxor_lt; auto).
  assert (P4 : pow2 d = 4%N) by (rewrite E; reflexivity).
  rewrite P4 in Hi, Hj. destruct (Exy i Hi) as [Exi _]. destruct (Exy j Hj) as [_ Eyj].
  rewrite <- Exi, <- Eyj.
  destruct (Hz i Hi) as [_ Hz1]. destruct (Hz j Hj) as [Hz2 _].
  assert (AT : forall s (c : T), add_term s c r0 = c).
  { intros s c0. unfold add_term. destruct (s =? 1)%Z; [apply add_0_r|]. destruct (s =? -1)%Z; [apply sub_0_r|reflexivity]. }
  destruct (ris0 (rd x i)) eqn:E3; cbn [orb].
  - apply n_is0_spec in E3. rewrite E3, Hz2. symmetry. apply AT.
  - destruct (ris0 (rd y j)) eqn:E4; [|reflexivity]. apply n_is0_spec in E4. rewrite E4, Hz1. symmetry. apply AT.
Qed.

(** Moving and negating coefficients is exact. *)
Theorem linear_ops k (x y : store k T) : valid A x -> valid A y ->
  gives A (mv_add x y) (fun i => radd (rd x i) (rd y i)) /\
  gives A (mv_sub x y) (fun i => rsub (rd x i) (rd y i)) /\
  gives A (mv_neg A x) (fun i => rneg (rd x i)) /\
  same A (n <- mv_neg A x ;; mv_neg A n) (Ok x) /\
  same A (mv_add x y) (mv_add y x) /\
  same A (r <- mv_rev A x ;; mv_rev A r) (Ok x) /\
  same A (r <- mv_flip A x ;; mv_flip A r) (Ok x) /\
  same A (s <- mv_add x y ;; mv_rev A s) (u <- mv_rev A x ;; v <- mv_rev A y ;; mv_add u v) /\
  same A (s <- mv_add x y ;; mv_flip A s) (u <- mv_flip A x ;; v <- mv_flip A y ;; mv_add u v) /\
  same A (u <- mv_dual A x ;; mv_undual A u) (Ok x) /\
  same A (u <- mv_undual A x ;; mv_dual A u) (Ok x) /\
  same A (mv_sub x y) (n <- mv_neg A y ;; mv_add x n).
Proof.
  intros Hx Hy.
  assert (SI : forall (r s : res (store k T)) f g, gives A r f -> gives A s g -> feq d f g -> same A r s).
  { intros r s f g (z & -> & Hz & Hc) (z' & -> & Hz' & Hc') E. exists z, z'. do 2 (split; [reflexivity|]). split; [exact Hz|].
    split; [exact Hz'|]. intros i Hi. rewrite Hc, Hc' by exact Hi. f_equal. apply E. exact Hi. }
  split; [apply g_add; auto|]. split; [apply g_sub; auto|]. split; [apply (g_neg A sg D); auto|].
  split. { eapply SI; [gv D|gv D|]. intros i Hi. unfold fneg. apply neg_neg. }
  split. { eapply SI; [gv D|gv D|]. intros i Hi. unfold fadd. apply n_add_comm. }
  split. { eapply SI; [gv D|gv D|]. intros i Hi. unfold frev. apply sgb_invol. }
  split. { eapply SI; [gv D|gv D|]. intros i Hi. unfold alpha. apply sgb_invol. }
  split. { eapply SI; [gv D|gv D|]. intros i Hi. unfold frev, fadd. apply sgb_add. }
  split. { eapply SI; [gv D|gv D|]. intros i Hi. unfold alpha, fadd. apply sgb_add. }
  split. { eapply SI; [gv D|gv D|]. intros i Hi. unfold fundual, fdual. rewrite cpl_invol by auto. apply sgb_invol. }
  split. { eapply SI; [gv D|gv D|]. intros i Hi. unfold fundual, fdual. rewrite cpl_invol by auto. apply sgb_invol. }
  eapply SI; [gv D|gv D|]. intros i Hi. unfold fsub, fneg, fadd. apply n_sub_def.
Qed.
End Kinds.

(** Equality, with the coefficient type's own [==]. *)
Lemma eq_any {T} {RO : RingOps T} {W : NumLaws T} {m : Mode} {H : HashOrder} k A (x y : store k T) : valid A x -> valid A y ->
  (mv_eqb x y = true <-> forall i, (i < 2 ^ N.of_nat (a_dim A))%N ->
     exists a b, mv_get_by_idx x i = Ok a /\ mv_get_by_idx y i = Ok b /\ reqb a b = true).
Proof.
  intros Hx Hy. unfold mv_eqb. rewrite (st_eqb_ok (a_dim A) x y Hx Hy). unfold mv_get_by_idx. split.
  - intros E i Hi. exists (st_coef x i), (st_coef y i). rewrite !(st_get_ok (a_dim A)) by auto. auto.
  - intros E i. destruct (N.lt_ge_cases i (pow2 (a_dim A))) as [Hi|Hi].
    + destruct (E i Hi) as (a & b & E1 & E2 & E3). rewrite (st_get_ok (a_dim A)) in E1, E2 by auto. congruence.
    + rewrite !(st_coef_out (a_dim A)) by auto. apply n_reqb_0.
Qed.
(** Conversion, without the round trip through [==]. *)
Lemma convert_any {T} {RO : RingOps T} {W : NumLaws T} {m : Mode} {H : HashOrder} k k' sg A (x : store k T) :
  declared sg A -> supports k' A -> valid A x ->
  exists z : store k' T, mv_to_storage A x = Ok z /\ valid A z /\
    (forall i, (i < 2 ^ N.of_nat (a_dim A))%N -> mv_get_by_idx z i = mv_get_by_idx x i).
Proof.
  intros D Hs Hx. assert (HD := supports_dim (T := T) sg A k' D Hs).
  destruct (to_storage_ok (S' := store k' T) A HD x Hx) as (z & E & Hz & Hc). exists z. split; auto. split; auto.
  intros i Hi. unfold mv_get_by_idx. rewrite !(st_get_ok (a_dim A)) by auto. f_equal. auto.
Qed.
