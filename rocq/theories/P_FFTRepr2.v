(** Operations of [FFTRepr] on the matrices of coefficient functions. *)
From Verif Require Export P_FFTRepr.
Local Open Scope nat_scope.

Section AOps.
Context {T : Type} {RO : RingOps T} {L : RingLaws T}.
Local Notation mx := (N -> N -> T).
Variables (m s : nat).

Lemma wrep_len l (X : N -> mx) : wrep m s l X -> length l = 2 ^ s.
Proof. intros H. apply H. Qed.
Lemma zip_mat f M M' (X Y : mx) : mrep m M X -> mrep m M' Y ->
  mrep m (mkMat (2 ^ m) (2 ^ m) (map2 f (m_data M) (m_data M'))) (fun i j => f (X i j) (Y i j)).
Proof.
  intros (R & C & K & E) (R' & C' & K' & E'). unfold m_ok in *. rewrite R, C in *. rewrite R', C' in *.
  split; [reflexivity|]. split; [reflexivity|]. split; [unfold m_ok; cbn [m_data m_nr m_nc]; rewrite length_map2; lia|].
  intros i j Hi Hj. specialize (E i j Hi Hj). specialize (E' i j Hi Hj). unfold m_at in *. cbn [m_data m_nc]. rewrite C in E. rewrite C' in E'.
  assert (i * 2 ^ m + j < 2 ^ m * 2 ^ m) by (apply rm_lt; auto). rewrite (nth_map2 _ _ _ _ r0 r0) by lia. unfold nn in *. rewrite E, E'. reflexivity.
Qed.
Lemma a3_zip_ok f a b X Y : arep m s a X -> arep m s b Y -> exists z, a3_zip f a b = Ok z /\ arep m s z (fun w i j => f (X w i j) (Y w i j)).
Proof.
  intros (R & C & La & Ha) (R' & C' & Lb & Hb). unfold a3_zip, same_dim. rewrite La, Lb, R, C, R', C', !Nat.eqb_refl. cbn [andb].
  eexists. split; [reflexivity|]. split; [reflexivity|]. split; [reflexivity|]. cbn [t_mats]. split; [rewrite length_map2; lia|].
  intros w Hw. rewrite (nth_map2 _ _ _ _ (m_zeros 0 0) (m_zeros 0 0)) by lia. apply zip_mat; auto.
Qed.
Lemma a3_map_ok f a X : arep m s a X -> arep m s (a3_map f a) (fun w i j => f (X w i j)).
Proof.
  intros (R & C & La & Ha). split; [exact R|]. split; [exact C|]. cbn [a3_map t_mats]. split; [rewrite map_length; auto|].
  intros w Hw. rewrite (nth_indep _ _ (m_map f (m_zeros 0 0))) by (rewrite map_length; lia). rewrite map_nth.
  apply (mis_map _ _ _ _ f (Ha w Hw)).
Qed.
Lemma a3_ok_arep a : a3_ok a -> a3_dim a = (2 ^ s, 2 ^ m, 2 ^ m) -> exists X, arep m s a X.
Proof.
  intros Ho E. injection E as E1 E2 E3. exists (fun w i j => m_at (nth (N.to_nat w) (t_mats a) (m_zeros 0 0)) (N.to_nat i) (N.to_nat j)).
  split; [auto|]. split; [auto|]. split; [auto|]. intros w Hw. unfold a3_ok in Ho. rewrite Forall_forall in Ho.
  destruct (Ho (nth w (t_mats a) (m_zeros 0 0))) as (R & C & K); [apply nth_In; lia|]. split; [congruence|]. split; [congruence|]. split; [exact K|].
  intros i j Hi Hj. unfold nn. rewrite !Nat2N.id. reflexivity.
Qed.
Lemma arep_ok a X : arep m s a X -> a3_ok a /\ a3_dim a = (2 ^ s, 2 ^ m, 2 ^ m).
Proof.
  intros (R & C & La & Ha). split.
  - apply Forall_forall. intros M HM. apply (In_nth _ _ (m_zeros 0 0)) in HM as (w & Hw & <-). rewrite La in Hw. destruct (Ha w Hw) as (R' & C' & K & _). rewrite R, C. auto.
  - unfold a3_dim. rewrite R, C, La. reflexivity.
Qed.
Lemma a3_get_ok a X k i j : arep m s a X -> k < 2 ^ s -> i < 2 ^ m -> j < 2 ^ m -> a3_get a k i j = Ok (X (N.of_nat k) (N.of_nat i) (N.of_nat j)).
Proof.
  intros (R & C & Ha) Hk Hi Hj. unfold a3_get. destruct (wrep_nthr _ _ _ _ k Ha Hk) as (M & -> & HM). cbn [bind]. apply (mis_get _ _ _ _ _ _ HM); auto.
Qed.
Lemma a3_set_ok a X k i j v : arep m s a X -> k < 2 ^ s -> i < 2 ^ m -> j < 2 ^ m -> exists z, a3_set a k i j v = Ok z /\
  arep m s z (fun w p q => if ((w =? N.of_nat k) && (p =? N.of_nat i) && (q =? N.of_nat j))%N%bool then v else X w p q).
Proof.
  intros (R & C & La & Ha) Hk Hi Hj. unfold a3_set. rewrite (nthr_nth _ _ (m_zeros 0 0)) by lia. cbn [bind].
  destruct (mis_set _ _ _ _ i j v (Ha k Hk) Hi Hj) as (M & -> & HM). cbn [bind]. unfold updr. destruct (Nat.ltb_spec k (length (t_mats a))); [|lia]. cbn [bind].
  eexists. split; [reflexivity|]. split; [exact R|]. split; [exact C|]. cbn [t_mats]. split; [rewrite length_upd; auto|].
  intros w Hw. rewrite nth_upd. destruct (Nat.ltb_spec k (length (t_mats a))); [|lia]. rewrite Bool.andb_true_r. destruct (Nat.eqb_spec k w) as [<-|Hne].
  - rewrite N.eqb_refl. cbn [andb]. eapply mis_ext; [exact HM|]. intros p q Hp Hq. unfold nn.
    destruct (Nat.eqb_spec p i) as [->|], (Nat.eqb_spec q j) as [->|]; rewrite ?N.eqb_refl; cbn [andb]; auto;
    try (destruct (N.eqb_spec (N.of_nat p) (N.of_nat i)); [lia|]); try (destruct (N.eqb_spec (N.of_nat q) (N.of_nat j)); [lia|]); cbn [andb]; rewrite ?Bool.andb_false_r; auto.
  - destruct (N.eqb_spec (N.of_nat w) (N.of_nat k)); [lia|]. cbn [andb]. apply Ha; auto.
Qed.
Lemma arep_zeros : arep m s (a3_zeros (2 ^ s) (2 ^ m) (2 ^ m)) (fun _ _ _ => r0).
Proof.
  split; [reflexivity|]. split; [reflexivity|]. cbn [a3_zeros t_mats]. split; [apply repeat_length|]. intros w Hw.
  rewrite (nth_indep _ _ (m_zeros (2 ^ m) (2 ^ m))) by (rewrite repeat_length; auto). rewrite nth_repeat. apply mis_zeros.
Qed.
End AOps.

Lemma popcount_double a : popcount (2 * a) = popcount a.
Proof. destruct a; reflexivity. Qed.
Lemma popcount_block n w i : (i < pow2 n)%N -> popcount (pow2 n * w + i) = popcount w + popcount i.
Proof.
  intros Hi. assert (H0 : N.land (pow2 n * w) i = 0%N).
  { apply N.bits_inj. intros k. rewrite N.land_spec, N.bits_0. rewrite <- (N.add_0_r (pow2 n * w)), block_bits by apply pow2_pos. destruct (N.ltb_spec k (N.of_nat n)); [rewrite N.bits_0; auto|].
    rewrite (testbit_high i n) by auto. apply Bool.andb_false_r. }
  rewrite N.add_nocarry_lxor by auto. pose proof (popcount_lxor2 (pow2 n * w) i) as E. rewrite H0, popcount_0 in E.
  replace (popcount w) with (popcount (pow2 n * w)); [lia|]. clear. induction n as [|n IH]; [rewrite pow2_0, N.mul_1_l; auto|]. rewrite pow2_S, <- N.mul_assoc, popcount_double. auto.
Qed.
Lemma odd_mod4 k : Nat.odd k = match k mod 4 with 1 | 3 => true | _ => false end.
Proof.
  rewrite (Nat.div_mod k 4) at 1 by lia. rewrite Nat.odd_add, Nat.odd_mul. cbn [Nat.odd Nat.even negb andb]. pose proof (Nat.mod_upper_bound k 4 ltac:(lia)).
  destruct (k mod 4) as [|[|[|[|j]]]]; try lia; reflexivity.
Qed.

Section TraceCl.
Context {T : Type} {RO : RingOps T} {L : RingLaws T}.
Definition mtrace (m : nat) (X : N -> N -> T) : T := sumI m (fun i => X i i).
(** x added to itself 2^m times *)
Fixpoint dbl (m : nat) (x : T) : T := match m with O => x | S m => radd (dbl m x) (dbl m x) end.
Lemma cl_trace m : forall x : N -> T, mtrace m (cl m x) = dbl m (x 0%N).
Proof.
  unfold mtrace. induction m as [|m IH]; intros x.
  - cbn. apply add_0_r.
  - rewrite sumI_S. cbn [cl dbl]. cbv zeta. rewrite <- IH. rewrite <- !sumI_add. apply sumI_ext. intros i Hi.
    rewrite blk_00, blk_11 by auto. unfold malpha, madd, msub. rewrite N.lxor_nilpotent. cbn [par]. unfold par. rewrite popcount_0. cbn [Nat.odd Nat.even negb sgb].
    rewrite sub_def. rewrite add_assoc, (add_comm _ (rneg _)), !add_assoc. rewrite (add_comm (radd (rneg _) _)).
    abel.
Qed.
End TraceCl.

Section Repr.
Context {F : Type} {RF : RingOps F} {LF : RingLaws F} {DV : DivOps F} {md : Mode}.
Local Notation C := (cplx F).
Variables (sg : list tok) (A : algebra).
Hypothesis D : declared sg A.
Hypothesis Hl : length sg < 63.
Let HS := declared_nn sg A D.
Local Notation n := (nonnull sg).
Local Notation d := (a_dim A).
Let Hd : d < 63.
Proof. rewrite (declared_dim _ _ D). exact Hl. Qed.
Let s := d - n.
Let Hn : n <= d := std_nn A n HS.
Let Hs : d = n + s.
Proof. unfold s. lia. Qed.
Let Hh : half n <= 32.
Proof. unfold half. apply Nat.div_le_upper_bound; lia. Qed.
Local Notation rp := (repr_of (F := F) sg A).
Local Notation fp := (frep (F := F) sg).

(** The matrix of a coefficient function of the non-null generators. *)
Definition hm (f : N -> C) : N -> N -> C := cl (half n) (phi ipw idx_mask (pad n f)).
Lemma hm_ext f g : feq n f g -> forall i j, hm f i j = hm g i j.
Proof. intros H i j. apply cl_ext0. intros t. unfold phi, pad. destruct (N.ltb_spec t (pow2 n)); [rewrite H; auto|auto]. Qed.
Lemma hm_add f g i j : hm (fadd f g) i j = madd (hm f) (hm g) i j.
Proof.
  unfold hm, madd. rewrite <- cl_add. apply cl_ext0. intros t. rewrite <- phi_add. unfold phi, pad, fadd. destruct (t <? pow2 n)%N; rewrite ?add_0_r; auto.
Qed.
Lemma hm_neg f i j : hm (fneg f) i j = mneg (hm f) i j.
Proof.
  unfold hm, mneg. rewrite <- cl_neg. apply cl_ext0. intros t. unfold phi, pad, fneg. destruct (t <? pow2 n)%N; [apply mul_neg_l|rewrite !mul_0_l, neg_0; reflexivity].
Qed.
Lemma hm_al f : meq (half n) (hm (alpha f)) (malpha (hm f)).
Proof.
  eapply meq_trans; [|apply cl_alpha]. apply cl_ext. intros t Ht. rewrite <- phi_alpha. unfold phi. f_equal. unfold pad, alpha. destruct (t <? pow2 n)%N; auto. unfold sgb. destruct (par t); rewrite ?neg_0; auto.
Qed.
Lemma hm_mul f g : meq (half n) (hm (gp n 0 0 f g)) (mmul (half n) (hm f) (hm g)).
Proof.
  unfold hm. eapply meq_trans; [|apply cl_mul; apply mask_odd; exact Hh]. apply cl_ext. intros k Hk.
  rewrite phi_gp by apply ipw_phase. rewrite N.lxor_nilpotent. unfold phi. f_equal.
  destruct (Nat.le_exists_sub n (2 * half n)) as (j & Ej & _); [apply half_le|].
  rewrite Ej, Nat.add_comm in *. assert (HP0 : forall (q : N -> C) i, (pow2 n <= i)%N -> pad n q i = r0) by (intros q i Hi; unfold pad; destruct (N.ltb_spec i (pow2 n)); [lia|reflexivity]). rewrite gp_pad by auto.
  unfold pad at 1. destruct (N.ltb_spec k (pow2 n)); [|reflexivity]. apply gp_ext; auto; intros i Hi; unfold pad; apply N.ltb_lt in Hi; rewrite Hi; reflexivity.
Qed.
Lemma hm_rev f : meq (half n) (hm (frev f)) (iflip (half n) (mtr (hm f))).
Proof.
  eapply meq_trans; [|apply cl_rev]. apply cl_ext. intros t Ht. rewrite <- phi_frev. unfold phi. f_equal. unfold pad, frev. destruct (t <? pow2 n)%N; auto. unfold sgb. destruct (rbit _); rewrite ?neg_0; auto.
Qed.

Lemma frep_ext c c' w : feq d c c' -> (w < pow2 s)%N -> forall i j, fp c w i j = fp c' w i j.
Proof. intros H Hw. apply hm_ext. intros i Hi. apply H. rewrite Hs. apply block_lt; auto. Qed.
Lemma repr_ext r c c' : rp r c -> feq d c c' -> rp r c'.
Proof. intros H E. eapply arep_ext; [exact H|]. intros w Hw i j _ _. apply frep_ext; auto. Qed.
Lemma repr_eq r r' c : rp r c -> rp r' c -> r = r'.
Proof. apply arep_eq. Qed.
Lemma repr_eq2 r r' c c' : rp r c -> rp r' c' -> feq d c c' -> r = r'.
Proof. intros H H' E. eapply repr_eq; [exact H|]. eapply repr_ext; [exact H'|]. intros i Hi. symmetry. apply E; auto. Qed.

Lemma repr_add a b c c' : rp a c -> rp b c' -> exists z, fr_add a b = Ok z /\ rp z (fadd c c').
Proof.
  intros Ha Hb. destruct (a3_zip_ok _ _ radd a b _ _ Ha Hb) as (z & E & Hz). exists z. split; [exact E|]. eapply arep_ext; [exact Hz|]. intros w Hw i j _ _. symmetry. apply hm_add.
Qed.
Lemma repr_neg a c : rp a c -> rp (fr_neg a) (fneg c).
Proof. intros Ha. eapply arep_ext; [apply (a3_map_ok _ _ rneg _ _ Ha)|]. intros w Hw i j _ _. symmetry. apply hm_neg. Qed.
Lemma repr_sub a b c c' : rp a c -> rp b c' -> exists z, fr_sub a b = Ok z /\ rp z (fsub c c').
Proof.
  intros Ha Hb. destruct (a3_zip_ok _ _ rsub a b _ _ Ha Hb) as (z & E & Hz). exists z. split; [exact E|]. eapply arep_ext; [exact Hz|]. intros w Hw i j _ _. cbn beta. rewrite sub_def. symmetry.
  transitivity (hm (fadd (blk_of n c w) (fneg (blk_of n c' w))) i j); [apply hm_ext; intros t Ht; unfold blk_of, fsub, fadd, fneg; apply sub_def|]. rewrite hm_add. unfold madd. rewrite hm_neg. reflexivity.
Qed.
Lemma repr_scale a c t : rp a c -> CommLaws F -> rp (fr_scale a t) (fun k => rmul (c k) t).
Proof.
  intros Ha CF. eapply arep_ext; [apply (a3_map_ok _ _ (fun c => rmul c t) _ _ Ha)|]. intros w Hw i j _ _. cbn beta. symmetry.
  change (fp (fun k => rmul (c k) t) w i j) with (hm (fun k => rmul (blk_of n c w k) t) i j). unfold frep, hm. rewrite <- cl_mul_r. apply cl_ext0. intros k. unfold phi, pad.
  destruct (k <? pow2 n)%N; [|rewrite !mul_0_l; auto]. rewrite <- !mul_assoc. f_equal. apply mul_comm.
Qed.
Lemma frep_mul c c' w : (w < pow2 s)%N -> meq (half n) (fp (gp d 0 (a_proj A) c c') w) (wm (mmul (half n)) madd mneg malpha s (fp c) (fp c') w).
Proof.
  intros Hw.
  assert (HP : forall j, j < s -> N.testbit (a_proj A) (N.of_nat (n + j)) = true) by (intros j Hj; apply (std_P A n HS); lia).
  eapply meq_trans.
  { intros i j _ _. apply (hm_ext _ (wm (gp n 0 0) fadd fneg alpha s (blk_of n c) (blk_of n c') w)). intros k Hk. unfold blk_of at 1. rewrite Hs at 1. rewrite (gp_blocks n 0 (a_proj A) s HP) by auto.
    refine (wm_hom (gp n 0 (a_proj A)) fadd fneg alpha (gp n 0 0) fadd fneg alpha (feq n) _ _ _ _ _ _ (fun f => f) _ _ _ _ s _ _ w Hw k Hk); try (intros; intros ? ?; reflexivity).
    - intros ? ? ? E1 E2 t Ht. rewrite E1, E2; auto.
    - intros. apply gp_feq; auto.
    - intros ? ? ? ? E1 E2 t Ht. unfold fadd. rewrite E1, E2; auto.
    - intros ? ? E1 t Ht. unfold fneg. rewrite E1; auto.
    - intros ? ? E1 t Ht. unfold alpha. rewrite E1; auto.
    - intros x y t Ht. apply gp_masks; auto. apply low_bits. intros b0 Hb0. rewrite N.bits_0. rewrite (std_p A n HS), N.ldiff_spec, !testbit_ones. destruct (N.ltb_spec (N.of_nat b0) (N.of_nat n)); [|lia]. apply Bool.andb_false_r. }
  change (meq (half n) (hm (wm (gp n 0 0) fadd fneg alpha s (blk_of n c) (blk_of n c') w)) (wm (mmul (half n)) madd mneg malpha s (fun v => hm (blk_of n c v)) (fun v => hm (blk_of n c' v)) w)).
  apply (wm_hom (gp n 0 0) fadd fneg alpha (mmul (half n)) madd mneg malpha (meq (half n))).
  - intros x i j _ _. reflexivity.
  - intros x y z'. apply meq_trans.
  - intros x x' y y' E1 E2 i j Hi Hj. unfold mmul. apply sumI_ext. intros k Hk. rewrite E1, E2; auto.
  - intros x x' y y' E1 E2 i j Hi Hj. unfold madd. rewrite E1, E2; auto.
  - intros x x' E1 i j Hi Hj. unfold mneg. rewrite E1; auto.
  - intros x x'. apply malpha_ext.
  - apply hm_mul.
  - intros x y i j _ _. apply hm_add.
  - intros x i j _ _. apply hm_neg.
  - apply hm_al.
  - exact Hw.
Qed.
Lemma repr_mul a b c c' : rp a c -> rp b c' -> exists z, fr_mul a b = Ok z /\ rp z (gp d 0 (a_proj A) c c').
Proof.
  intros Ha Hb. destruct (wmul_ok _ _ a b _ _ Ha Hb) as (z & E & Hz). exists z. split; [exact E|]. eapply arep_ext; [exact Hz|]. intros w Hw. apply meq_sym, frep_mul; auto.
Qed.
Lemma repr_flip a c : rp a c -> rp (fr_flip a) (alpha c).
Proof.
  intros (R & C' & H). split; [exact R|]. split; [exact C'|]. cbn [fr_flip t_mats]. eapply wrep_ext; [apply a3_alpha_ok; exact H|]. intros w Hw. apply meq_sym.
  eapply meq_trans with (Y := hm (xsgb fneg (par w) (alpha (blk_of n c w)))).
  - intros i j _ _. apply hm_ext. intros k Hk. unfold blk_of at 1, alpha at 1. rewrite par_block by auto. unfold xsgb. destruct (par w); cbn [xorb]; unfold fneg, alpha, sgb, blk_of; destruct (par k); cbn [negb]; rewrite ?neg_neg; auto.
  - unfold wal, xsgb. destruct (par w); [|apply hm_al]. intros i j Hi Hj. rewrite hm_neg. unfold mneg. rewrite hm_al by auto. reflexivity.
Qed.
Lemma fr_zero_eq : fr_zero (F := F) A = Ok (a3_zeros (2 ^ s) (2 ^ half n) (2 ^ half n)).
Proof. unfold fr_zero. rewrite (shl_side sg A D Hl). cbn [bind]. rewrite (shl_wcount sg A D Hl). cbn [bind]. rewrite !pow2_nat. reflexivity. Qed.
Lemma repr_zero : exists z, fr_zero (F := F) A = Ok z /\ rp z (fun _ => r0).
Proof.
  rewrite fr_zero_eq. eexists. split; [reflexivity|]. eapply arep_ext; [apply arep_zeros|]. intros w Hw i j _ _. symmetry. cbn beta. unfold frep.
  transitivity (cl (half n) (fun _ => (r0 : C)) i j); [|apply cl_0]. apply cl_ext0. intros t. unfold phi, pad, blk_of. destruct (t <? pow2 n)%N; apply mul_0_l.
Qed.
Lemma one_arep : exists z, fr_one (F := F) A = Ok z /\ arep (half n) s z (fun w i j => if ((w =? 0) && (i =? j))%N%bool then r1 else r0).
Proof.
  unfold fr_one. rewrite fr_zero_eq. cbn [bind]. change (t_nr (a3_zeros (2 ^ s) (2 ^ half n) (2 ^ half n))) with (2 ^ half n).
  destruct (foldM_seq (fun k r => arep (half n) s r (fun w i j => if ((w =? 0) && (i =? j) && (i <? N.of_nat k))%N%bool then r1 else r0 : C)) (fun r i => a3_set r 0 i i r1) (2 ^ half n) (a3_zeros (2 ^ s) (2 ^ half n) (2 ^ half n))) as (z & -> & Hz).
  - eapply arep_ext; [apply arep_zeros|]. intros w Hw i j _ _. cbn beta. destruct (N.ltb_spec i (N.of_nat 0)); [lia|]. rewrite Bool.andb_false_r. reflexivity.
  - intros k st Hk Hst. assert (H0 : 0 < 2 ^ s) by (apply P_CliFFT.pow_pos). destruct (a3_set_ok _ _ st _ 0 k k r1 Hst H0 Hk Hk) as (z & -> & Hz). exists z. split; auto.
    eapply arep_ext; [exact Hz|]. intros w Hw i j Hi Hj. cbn beta. change (N.of_nat 0) with 0%N. destruct (N.eqb_spec w 0); cbn [andb]; auto.
    destruct (N.eqb_spec i j) as [<-|]; cbn [andb].
    + destruct (N.eqb_spec i (N.of_nat k)); cbn [andb]; destruct (N.ltb_spec i (N.of_nat k)), (N.ltb_spec i (N.of_nat (S k))); auto; lia.
    + destruct (N.eqb_spec i (N.of_nat k)), (N.eqb_spec j (N.of_nat k)); cbn [andb]; auto; lia.
  - exists z. split; auto. eapply arep_ext; [exact Hz|]. intros w Hw i j Hi Hj. rewrite of_nat_pow2. cbn beta. apply N.ltb_lt in Hi. rewrite Hi, Bool.andb_true_r. reflexivity.
Qed.
Lemma repr_one : exists z, fr_one (F := F) A = Ok z /\ rp z (del 0 r1).
Proof.
  destruct one_arep as (z & Ez & Hz). exists z. split; auto. eapply arep_ext; [exact Hz|]. intros w Hw. apply meq_sym. destruct (N.eqb_spec w 0) as [->|Hw0]; cbn [andb].
  - eapply meq_trans with (Y := cl (half n) (del 0 r1)); [|apply cl_one].
        apply cl_ext. intros t Ht. unfold phi, pad, blk_of, del. rewrite N.mul_0_r. cbn [N.add]. destruct (N.eqb_spec t 0) as [->|Hne].
        -- rewrite (proj2 (N.ltb_lt _ _) (pow2_pos n)). cbn [N.land]. rewrite popcount_0, (ph_0 ipw ipw_phase). apply mul_1_l.
        -- destruct (t <? pow2 n)%N; apply mul_0_l.
  - intros i j _ _. cbn beta. transitivity (cl (half n) (fun _ => (r0 : C)) i j); [|apply cl_0]. apply cl_ext0. intros t. unfold phi, pad, blk_of, del. destruct (N.ltb_spec t (pow2 n)); [|apply mul_0_l].
      destruct (N.eqb_spec (pow2 n * w + t) 0) as [E|Hne]; [|apply mul_0_l]. pose proof (pow2_pos n). nia.
Qed.

Lemma rev_fix_ok w M X : mrep (half n) M X -> mrep (half n) (rev_fix w M)
  (fun i j => let v := if Nat.odd (popcount w) then malpha X i j else X i j in if rbit (popcount w) then rneg v else v).
Proof.
  intros HM. pose proof HM as (R & C' & K & E). unfold rev_fix. rewrite odd_mod4. unfold rbit. pose proof (Nat.mod_upper_bound (popcount w) 4 ltac:(lia)).
  destruct (popcount w mod 4) as [|[|[|[|j]]]]; try lia; cbv zeta.
  - exact HM.
  - rewrite R, C'. eapply mis_ext; [apply mis_build|]. intros i j Hi Hj. cbn beta. rewrite E by auto. unfold nn, malpha, sgb, par. reflexivity.
  - apply (mis_map _ _ _ _ rneg HM).
  - rewrite R, C'. eapply mis_ext; [apply mis_build|]. intros i j Hi Hj. cbn beta. rewrite E by auto. unfold nn, malpha, sgb, par. rewrite <- Nat.negb_odd. destruct (Nat.odd _); cbn [negb]; rewrite ?neg_neg; reflexivity.
Qed.
Lemma repr_rev a c : rp a c -> exists z, fr_rev A a = Ok z /\ rp z (frev c).
Proof.
  intros (R & C' & La & Ha). unfold fr_rev. rewrite fr_zero_eq. cbn [bind].
  change (t_mats (a3_zeros (2 ^ s) (2 ^ half n) (2 ^ half n))) with (repeat (m_zeros (T := C) (2 ^ half n) (2 ^ half n)) (2 ^ s)).
  destruct (foldM_ind (fun i l => length l = 2 ^ s /\ forall w, w < 2 ^ s -> if Nat.ltb w i then mrep (half n) (nth w l (m_zeros 0 0)) (fp (frev c) (N.of_nat w)) else mrep (half n) (nth w l (m_zeros 0 0)) (fun _ _ => r0))
    (fun l im => view <- nthr l (N.to_nat (fst im)) ;; r <- unwrap (reversal (snd im)) ;; view <- m_assign view r ;; updr l (N.to_nat (fst im)) (rev_fix (fst im) view))
    (0%N, m_zeros 0 0) (enumerate (t_mats a)) (repeat (m_zeros (T := C) (2 ^ half n) (2 ^ half n)) (2 ^ s))) as (l & -> & Ll & Hl').
  - destruct (arep_zeros (T := C) (half n) s) as (_ & _ & Z1 & Z2). split; [exact Z1|]. intros w Hw. cbn [Nat.ltb Nat.leb]. apply Z2; auto.
  - intros i l Hi (Ll & Hw). rewrite length_enumerate, La in Hi. change (d - n) with s in Hi. rewrite (nth_enumerate _ _ (m_zeros 0 0)) by (rewrite La; exact Hi). cbn [fst snd]. rewrite Nat2N.id.
    rewrite (nthr_nth l i (m_zeros 0 0)) by lia. cbn [bind]. destruct (reversal_ok (half n) _ _ (Ha i Hi)) as (M' & -> & HM'). cbn [unwrap bind].
    assert (HZ := Hw i Hi). rewrite Nat.ltb_irrefl in HZ. destruct HZ as (RZ & CZ & _). unfold m_assign. pose proof HM' as (RM & CM & _). rewrite RZ, CZ, RM, CM, !Nat.eqb_refl. cbn [andb bind].
    unfold updr. rewrite Ll. destruct (Nat.ltb_spec i (2 ^ s)); [|lia]. eexists. split; [reflexivity|]. split; [rewrite length_upd; auto|].
    intros w Hww. rewrite nth_upd, Ll. destruct (Nat.ltb_spec i (2 ^ s)); [|lia]. rewrite Bool.andb_true_r. destruct (Nat.eqb_spec i w) as [<-|Hne].
    + destruct (Nat.ltb_spec i (S i)); [|lia]. eapply mrep_ext; [apply rev_fix_ok; exact HM'|]. clear - Hh LF. set (w := N.of_nat i). intros p q Hp Hq. cbv zeta. symmetry.
      set (f := blk_of n c w). change (fp c w) with (hm f).
      transitivity (hm (fun k => let v := (if Nat.odd (popcount w) then alpha (frev f) k else frev f k) in if rbit (popcount w) then rneg v else v) p q).
      * change (hm (blk_of n (frev c) w) p q = hm (fun k => let v := (if Nat.odd (popcount w) then alpha (frev f) k else frev f k) in if rbit (popcount w) then rneg v else v) p q).
        apply hm_ext. intros k Hk. unfold blk_of at 1, frev at 1. rewrite popcount_block, rbit_add by auto. unfold f, alpha, frev, blk_of, par, sgb.
        destruct (rbit (popcount w)), (Nat.odd (popcount w)), (rbit (popcount k)), (Nat.odd (popcount k)); cbn [xorb andb]; cbv zeta; rewrite ?neg_neg; reflexivity.
      * cbv zeta. destruct (Nat.odd (popcount w)).
        -- transitivity (if rbit (popcount w) then rneg (hm (alpha (frev f)) p q) else hm (alpha (frev f)) p q); [destruct (rbit (popcount w)); [apply hm_neg|reflexivity]|].
           rewrite hm_al by auto. unfold malpha. rewrite hm_rev by auto. reflexivity.
        -- transitivity (if rbit (popcount w) then rneg (hm (frev f) p q) else hm (frev f) p q); [destruct (rbit (popcount w)); [apply hm_neg|reflexivity]|]. rewrite hm_rev by auto. reflexivity.
    + specialize (Hw w Hww). destruct (Nat.ltb_spec w i), (Nat.ltb_spec w (S i)); auto; lia.
  - cbn [bind]. eexists. split; [reflexivity|]. split; [reflexivity|]. split; [reflexivity|]. split; [exact Ll|]. intros w Hw. cbn [t_mats]. specialize (Hl' w Hw). rewrite length_enumerate, La in Hl'. destruct (Nat.ltb_spec w (2 ^ (d - n))); [exact Hl'|]. unfold s in *. lia.
Qed.

(** Traces *)
Lemma trace_ok a X : arep (half n) s a X -> fr_trace a = Ok (mtrace (half n) (X 0%N)).
Proof.
  intros Ha. unfold fr_trace. assert (R : t_nr a = 2 ^ half n) by apply Ha. rewrite R.
  destruct (foldM_seq (fun i v => v = suml (fun k => X 0%N k k) (map N.of_nat (seq 0 i))) (fun s i => c <- a3_get a 0 i i ;; Ok (radd s c)) (2 ^ half n) r0) as (v & -> & Hv).
  - reflexivity.
  - intros i v Hi ->. rewrite (a3_get_ok _ _ a X 0 i i Ha (P_CliFFT.pow_pos _) Hi Hi). cbn [bind]. eexists. split; [reflexivity|].
    rewrite seq_S, map_app, suml_app. cbn [map suml Nat.add]. rewrite add_0_r. reflexivity.
  - rewrite Hv. unfold mtrace, sumI, idxs. f_equal.
Qed.
Lemma repr_trace a c : rp a c -> fr_trace a = Ok (dbl (half n) (c 0%N)).
Proof.
  intros Ha. rewrite (trace_ok a _ Ha). f_equal. unfold frep. rewrite cl_trace. f_equal. unfold phi, pad, blk_of. rewrite (proj2 (N.ltb_lt _ _) (pow2_pos n)), N.mul_0_r.
  cbn [N.land N.add]. rewrite popcount_0, (ph_0 ipw ipw_phase). apply mul_1_r.
Qed.
End Repr.
