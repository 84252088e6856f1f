(** Lemmas behind the storage properties (C07 - C15, C27, C52, C56). *)
From Verif Require Export P_Props1 P_Wedge.
Local Open Scope nat_scope.

Lemma supports_dim {T} {RO : RingOps T} {W : NumLaws T} {m : Mode} {H : HashOrder} sg A k :
  declared sg A -> supports k A -> st_dim_ok (StorageLaws := KLaws k) (a_dim A).
Proof.
  intros D Hs. pose proof (ok_dim A (declared_ok _ _ D)). destruct k; cbn in *; auto.
Qed.

Section Gen.
Context {T : Type} {RO : RingOps T} {W : NumLaws T} {L : RingLaws T} {m : Mode} {H : HashOrder}.

(** C07, for every index at all. *)
Lemma set_get_thm k A (x : store k T) i v : valid A x ->
  (forall j, (j < 2 ^ N.of_nat (a_dim A))%N -> exists c, mv_get_by_idx x j = Ok c) /\
  valid A (mv_set_by_idx x i v) /\
  ((i < 2 ^ N.of_nat (a_dim A))%N -> mv_get_by_idx (mv_set_by_idx x i v) i = Ok v) /\
  (forall j, j <> i -> mv_get_by_idx (mv_set_by_idx x i v) j = mv_get_by_idx x j) /\
  ((2 ^ N.of_nat (a_dim A) <= i)%N -> mv_set_by_idx x i v = x).
Proof.
  intros Hx. split.
  { intros j Hj. exists (st_coef x j). apply (st_get_ok (a_dim A)); auto. }
  destruct (st_set_ok (a_dim A) x i v Hx) as [H1 H2]. split; [exact H1|]. split.
  { intros Hi. unfold mv_get_by_idx, mv_set_by_idx. rewrite (st_get_ok (a_dim A)) by auto. rewrite H2, N.eqb_refl.
    apply N.ltb_lt in Hi. unfold pow2. rewrite Hi. reflexivity. }
  clear H1 H2. destruct k; unfold mv_get_by_idx, mv_set_by_idx; cbn in x, Hx |- *.
  - destruct Hx as (Hd & Dx & Lx). split.
    + intros j Hne. unfold arr_set. destruct (N.ltb_spec i (N.of_nat (length (arr_data x)))); [|reflexivity].
      unfold arr_get. cbn [arr_data]. rewrite length_upd. destruct (_ <? j)%N; [reflexivity|].
      unfold nthr. f_equal. destruct (Nat.lt_ge_cases (N.to_nat j) (length (arr_data x))) as [Hl|Hl].
      * rewrite !(nth_error_nth' _ r0) by (rewrite ?length_upd; auto). rewrite nth_upd.
        destruct (Nat.eqb_spec (N.to_nat i) (N.to_nat j)); [lia|reflexivity].
      * assert (G : forall X (l : list X) n, length l <= n -> nth_error l n = None) by (intros; apply nth_error_None; auto).
        rewrite !G by (rewrite ?length_upd; auto). reflexivity.
    + intros Hi. unfold arr_set. destruct (N.ltb_spec i (N.of_nat (length (arr_data x)))) as [Hl|]; [|reflexivity].
      rewrite Lx, of_nat_pow2 in Hl. unfold pow2 in Hl. lia.
  - destruct Hx as (Hd & Dx & Sx & _). split.
    + intros j Hne. unfold sps_set. destruct (N.ltb_spec i (sps_size x)); [|reflexivity].
      unfold sps_get. cbn [sps_map]. f_equal.
      assert (G : hm_get (hm_remove (sps_map x) i) j = hm_get (sps_map x) j).
      { induction (sps_map x) as [|[a c] l IH]; [reflexivity|]. unfold hm_remove in *. cbn [filter fst hm_get].
        destruct (N.eqb_spec a i) as [->|]; cbn [negb hm_get].
        - destruct (N.eqb_spec i j); [congruence|]. exact IH.
        - rewrite IH. reflexivity. }
      destruct (ris0 v); [rewrite G; reflexivity|]. cbn [hm_insert hm_get].
      unfold hm_insert. cbn [hm_get]. destruct (N.eqb_spec i j); [congruence|]. rewrite G. reflexivity.
    + intros Hi. unfold sps_set. destruct (N.ltb_spec i (sps_size x)) as [Hl|]; [|reflexivity].
      rewrite Sx in Hl. unfold pow2 in Hl. lia.
  - rewrite Hx. split.
    + intros j Hne. unfold qst_get, qst_set. f_equal.
      destruct i as [|[[p|p|]|[p|p|]|]], j as [|[[p'|p'|]|[p'|p'|]|]]; try reflexivity; congruence.
    + change (2 ^ N.of_nat 2)%N with 4%N. intros Hi. unfold qst_set.
      destruct i as [|[[p|p|]|[p|p|]|]]; auto; lia.
Qed.

Lemma fresh_thm k sg A : declared sg A -> supports k A ->
  exists z : store k T, mv_default A = Ok z /\ valid A z /\
    forall i, (i < 2 ^ N.of_nat (a_dim A))%N -> mv_get_by_idx z i = Ok r0.
Proof.
  intros D Hs. apply (g_default (S := store k T) A). apply (supports_dim sg); auto.
Qed.

(** C08 *)
Lemma get_out_thm k A (x : store k T) i : valid A x -> (2 ^ N.of_nat (a_dim A) <= i)%N ->
  mv_get_by_idx x i =
    match k with KDense => if (i =? 2 ^ N.of_nat (a_dim A))%N then Panic else Ok r0 | _ => Ok r0 end.
Proof.
  intros Hx Hi. destruct k; unfold mv_get_by_idx; cbn in x, Hx |- *.
  - destruct Hx as (Hd & Dx & Lx). unfold arr_get. rewrite Lx, of_nat_pow2. change (2 ^ N.of_nat (a_dim A))%N with (pow2 (a_dim A)) in *.
    destruct (N.eqb_spec i (pow2 (a_dim A))) as [->|Hne].
    + rewrite N.ltb_irrefl. apply nthr_out. rewrite Lx, pow2_nat. lia.
    + destruct (N.ltb_spec (pow2 (a_dim A)) i); [reflexivity|lia].
  - destruct Hx as (Hd & Dx & Sx & HN & Hin). unfold sps_get. destruct (hm_get (sps_map x) i) as [c|] eqn:E; [|reflexivity].
    apply hm_get_in in E; auto. apply Hin in E. unfold pow2 in E. lia.
  - rewrite Hx in Hi. unfold qst_get. f_equal. change (2 ^ N.of_nat 2)%N with 4%N in Hi.
    destruct i as [|[[p|p|]|[p|p|]|]]; auto; lia.
Qed.

Lemma past_end A (x : store KDense T) : valid A x ->
  exists i, (2 ^ N.of_nat (a_dim A) <= i)%N /\ mv_get_by_idx x i = Panic.
Proof.
  intros Hx. exists (2 ^ N.of_nat (a_dim A))%N. split; [lia|].
  rewrite (get_out_thm KDense A x) by (auto; lia). rewrite N.eqb_refl. reflexivity.
Qed.

(** C09 *)
Lemma eq_thm k A (x y : store k T) : valid A x -> valid A y ->
  (mv_eqb x y = true <-> forall i, (i < 2 ^ N.of_nat (a_dim A))%N -> mv_get_by_idx x i = mv_get_by_idx y i).
Proof.
  intros Hx Hy. rewrite (eqb_ok A) by auto. unfold mv_get_by_idx. split; intros E i Hi; specialize (E i Hi).
  - rewrite !(st_get_ok (a_dim A)) by auto. f_equal. auto.
  - rewrite !(st_get_ok (a_dim A)) in E by auto. congruence.
Qed.

(** C12 *)
Lemma enum_thm k A (x : store k T) : valid A x ->
  NoDup (map fst (mv_coeff_enumerate x)) /\
  (forall i c, In (i, c) (mv_coeff_enumerate x) -> (i < 2 ^ N.of_nat (a_dim A))%N /\ mv_get_by_idx x i = Ok c) /\
  (forall i, (i < 2 ^ N.of_nat (a_dim A))%N -> ~ In i (map fst (mv_coeff_enumerate x)) -> mv_get_by_idx x i = Ok r0).
Proof.
  intros Hx. destruct (st_enum_ok (a_dim A) x Hx) as (H1 & H2 & H3). split; [exact H1|].
  unfold mv_get_by_idx. split.
  - intros i c Hic. destruct (H2 i c Hic) as (Hlt & _ & ->). split; auto. apply (st_get_ok (a_dim A)); auto.
  - intros i Hi Hn. rewrite (st_get_ok (a_dim A)) by auto. f_equal.
    destruct (is0_dec (st_coef x i)) as [E|E]; auto. exfalso. apply Hn. apply in_map_iff.
    exists (i, st_coef x i). split; auto.
Qed.

Lemma grade_enum_thm k A (x : store k T) g : valid A x ->
  exists l, mv_grade_enumerate x g = Ok l /\ NoDup (map fst l) /\
  (forall i c, In (i, c) l -> (i < 2 ^ N.of_nat (a_dim A))%N /\ length (gens (a_dim A) i) = g /\ mv_get_by_idx x i = Ok c) /\
  (forall i, (i < 2 ^ N.of_nat (a_dim A))%N -> length (gens (a_dim A) i) = g -> ~ In i (map fst l) -> mv_get_by_idx x i = Ok r0).
Proof.
  intros Hx. destruct (st_grade_ok (a_dim A) x g Hx) as (l & E & H1 & H2 & H3). exists l. split; [exact E|].
  split; [exact H1|]. unfold mv_get_by_idx. split.
  - intros i c Hic. destruct (H2 i c Hic) as (Hlt & Hp & ->). split; auto. apply Nat.eqb_eq in Hp.
    rewrite length_gens, <- popcount_bitsum by auto. split; auto. apply (st_get_ok (a_dim A)); auto.
  - intros i Hi Hg Hn. rewrite (st_get_ok (a_dim A)) by auto. f_equal.
    destruct (is0_dec (st_coef x i)) as [Ez|Ez]; auto. exfalso. apply Hn. apply in_map_iff.
    exists (i, st_coef x i). split; auto. apply H3; auto. apply Nat.eqb_eq.
    rewrite <- Hg, length_gens. apply popcount_bitsum; auto.
Qed.

(** C13 *)
Lemma from_vector_thm k sg A (cs : list T) : declared sg A -> supports k A ->
  (length cs = a_dim A -> exists z : store k T, mv_from_vector A cs = Ok z /\ valid A z /\
     (forall n, n < a_dim A -> mv_get_by_idx z (2 ^ N.of_nat n) = Ok (nth n cs r0)) /\
     (forall i, (i < 2 ^ N.of_nat (a_dim A))%N -> length (gens (a_dim A) i) <> 1 -> mv_get_by_idx z i = Ok r0) /\
     mv_extract_vector A z = Ok cs) /\
  (length cs <> a_dim A -> mv_from_vector A cs = Err InvalidShape (A := store k T)).
Proof.
  intros D Hs. assert (HD := supports_dim (T := T) sg A k D Hs). assert (AOK := declared_ok _ _ D). split.
  - intros Hl. destruct (from_vector_ok A AOK HD cs Hl) as (z & E & Hz & H1 & H2).
    exists z. split; [exact E|]. split; [exact Hz|]. unfold mv_get_by_idx.
    split; [|split].
    + intros n Hn. fold (pow2 n). rewrite (st_get_ok (a_dim A)) by (auto; apply pow2_lt; auto). f_equal. auto.
    + intros i Hi Hg. rewrite (st_get_ok (a_dim A)) by auto. f_equal. apply H2. intros n Hn ->.
      apply Hg. rewrite length_gens, <- popcount_bitsum by auto. apply popcount_pow2.
    + rewrite (extract_vector_ok A AOK z Hz). f_equal. rewrite <- Hl in *.
      apply (list_ext r0); rewrite map_length, seq_length; auto. intros i Hi.
      rewrite (nth_map_lt _ _ _ 0) by (rewrite seq_length; auto). rewrite seq_nth by auto. apply H1. auto.
  - intros Hl. apply from_vector_err; auto.
Qed.

Lemma extract_thm k sg A (x : store k T) : declared sg A -> valid A x ->
  mv_extract_vector A x = Ok (map (fun n => rd x (2 ^ N.of_nat n)) (seq 0 (a_dim A))).
Proof.
  intros D Hx. rewrite (extract_vector_ok A (declared_ok _ _ D) x Hx). f_equal. apply map_ext_in. intros n Hn.
  apply in_seq in Hn. symmetry. apply (rd_coef (a_dim A)); auto. apply pow2_lt. lia.
Qed.

(** C14 *)
Lemma last_write_hm (l : list (N * T)) i :
  last_write l i = match hm_get (rev l) i with Some c => c | None => r0 end.
Proof.
  unfold last_write.
  assert (G : forall l acc, fold_left (fun v (ic : N * T) => if (fst ic =? i)%N then snd ic else v) l acc
    = match hm_get (rev l) i with Some c => c | None => acc end).
  { clear. induction l as [|[j c] l IH] using rev_ind; intros acc; [reflexivity|].
    rewrite fold_left_app, rev_app_distr. cbn [rev app fold_left fst snd hm_get].
    destruct (j =? i)%N; auto. }
  apply G.
Qed.

Lemma from_indexed_thm k sg A (l : list (N * T)) : declared sg A -> supports k A ->
  ((exists i c, In (i, c) l /\ (2 ^ N.of_nat (a_dim A) <= i)%N) ->
     mv_from_indexed_iter A l = Err IndexOutOfBounds (A := store k T)) /\
  ((forall i c, In (i, c) l -> (i < 2 ^ N.of_nat (a_dim A))%N) ->
     gives (S := store k T) A (mv_from_indexed_iter A l) (last_write l)).
Proof.
  intros D Hs. assert (HD := supports_dim (T := T) sg A k D Hs). assert (AOK := declared_ok _ _ D). split.
  - intros (i & c & Hi & Hb). apply (from_indexed_err A AOK HD l i c); auto.
  - intros Hin. destruct (from_indexed_ok A AOK HD l Hin) as (z & E & Hz & Hc). apply gives_iff.
    exists z. split; auto. split; auto. intros i _. rewrite Hc, last_write_hm. reflexivity.
Qed.

(** C56 *)
Lemma is_zero_thm k A (x : store k T) : valid A x ->
  (mv_is_zero x = true <-> forall i, (i < 2 ^ N.of_nat (a_dim A))%N -> mv_get_by_idx x i = Ok r0).
Proof.
  intros Hx. rewrite (is_zero_ok A) by auto. unfold mv_get_by_idx. split; intros E i Hi; specialize (E i Hi).
  - rewrite (st_get_ok (a_dim A)) by auto. f_equal. auto.
  - rewrite (st_get_ok (a_dim A)) in E by auto. congruence.
Qed.

Lemma approx_thm {R} {NL : NormLt T R} k A (x y : store k T) (e : R) : valid A x -> valid A y -> norm_lt r0 e = true ->
  exists b, mv_approx_eq x y e = Ok b /\
   (b = true <-> forall i, (i < 2 ^ N.of_nat (a_dim A))%N -> norm_lt (rsub (rd x i) (rd y i)) e = true).
Proof.
  intros Hx Hy He. destruct (approx_eq_ok A x y e Hx Hy He) as (b & E & Hb). exists b. split; auto.
  rewrite Hb. split; intros G i Hi; specialize (G i Hi); rewrite !(rd_coef (a_dim A)) in * by auto; auto.
Qed.

(** C11: conversions *)
Lemma convert_thm k k' sg A (x : store k T) : declared sg A -> supports k' A -> valid A x ->
  exists z : store k' T, mv_to_storage A x = Ok z /\ valid A z /\
    (forall i, (i < 2 ^ N.of_nat (a_dim A))%N -> mv_get_by_idx z i = mv_get_by_idx x i) /\
    exists x' : store k T, mv_to_storage A z = Ok x' /\ valid A x' /\ mv_eqb x' x = true.
Proof.
  intros D Hs Hx. assert (HD := supports_dim (T := T) sg A k' D Hs).
  destruct (to_storage_ok (S' := store k' T) A HD x Hx) as (z & E & Hz & Hc). exists z. split; auto. split; auto.
  assert (HD' := valid_dim A x Hx).
  destruct (to_storage_ok (S' := store k T) A HD' z Hz) as (x' & E' & Hx' & Hc').
  split.
  - intros i Hi. unfold mv_get_by_idx. rewrite !(st_get_ok (a_dim A)) by auto. f_equal. auto.
  - exists x'. split; auto. split; auto. apply (eqb_ok A); auto. intros i Hi. rewrite Hc', Hc; auto.
Qed.
End Gen.
