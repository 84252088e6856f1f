(** Property C46: the half-spin representations. *)
From Verif Require Export P_Props11.
Local Open Scope nat_scope.

(** The numbers below s whose parity of one bits is b. *)
Definition pidx (b : bool) (s : nat) : list nat := filter (fun i => Bool.eqb (Nat.odd (popcount (N.of_nat i))) b) (seq 0 s).

Lemma pidx_S b s : pidx b (S s) = pidx b s ++ (if Bool.eqb (Nat.odd (popcount (N.of_nat s))) b then [s] else []).
Proof. unfold pidx. rewrite seq_S, filter_app. cbn [filter Nat.add]. reflexivity. Qed.
Lemma pidx_le b s t : s <= t -> length (pidx b s) <= length (pidx b t).
Proof. induction 1; auto. rewrite pidx_S, app_length. lia. Qed.
Lemma pidx_in b s i : In i (pidx b s) <-> i < s /\ Nat.odd (popcount (N.of_nat i)) = b.
Proof. unfold pidx. rewrite filter_In, in_seq. rewrite Bool.eqb_true_iff. lia. Qed.
Lemma popcount_add_pow2 n i : i < 2 ^ n -> popcount (N.of_nat (2 ^ n + i)) = S (popcount (N.of_nat i)).
Proof.
  intros H. rewrite Nat2N.inj_add, of_nat_pow2. replace (pow2 n) with (pow2 n * 1)%N by lia. rewrite popcount_block by (apply of_nat_lt; auto). reflexivity.
Qed.
Lemma filter_map_comm {X Y} (f : X -> Y) (p : Y -> bool) l : filter p (map f l) = map f (filter (fun x => p (f x)) l).
Proof. induction l; cbn; auto. destruct (p (f a)); cbn; rewrite IHl; auto. Qed.
Lemma map_add_seq a n : map (Nat.add a) (seq 0 n) = seq a n.
Proof. induction n; [reflexivity|]. rewrite !seq_S, map_app, IHn. reflexivity. Qed.
Lemma pidx_dbl b n : pidx b (2 ^ S n) = pidx b (2 ^ n) ++ map (Nat.add (2 ^ n)) (pidx (negb b) (2 ^ n)).
Proof.
  unfold pidx. replace (2 ^ S n) with (2 ^ n + 2 ^ n) by (cbn; lia). rewrite seq_app, filter_app. f_equal. cbn [Nat.add].
  rewrite <- (map_add_seq (2 ^ n)).
  rewrite filter_map_comm. f_equal. apply filter_ext_in. intros i Hi. apply in_seq in Hi. rewrite popcount_add_pow2 by lia. rewrite Nat.odd_succ, <- Nat.negb_odd. destruct (Nat.odd _), b; reflexivity.
Qed.
Lemma pidx_both n : length (pidx true n) + length (pidx false n) = n.
Proof. induction n; [reflexivity|]. rewrite !pidx_S, !app_length. destruct (Nat.odd (popcount (N.of_nat n))); cbn [Bool.eqb length]; lia. Qed.
Lemma pidx_len b n : length (pidx b (2 ^ S n)) = 2 ^ n.
Proof. rewrite pidx_dbl, app_length, map_length. rewrite <- (pidx_both (2 ^ n)) at 3. destruct b; cbn [negb]; lia. Qed.

Section Half.
Context {F : Type} {RF : RingOps F} {LF : RingLaws F}.
Local Notation C := (cplx F).

Lemma half_row_ok b s (row : nat -> res C) X : (forall j, j < s -> row j = Ok (X j)) -> length (pidx b s) <= s / 2 ->
  half_row b s row = Ok (map X (pidx b s) ++ repeat r0 (s / 2 - length (pidx b s))).
Proof.
  intros Hr Hs. unfold half_row.
  assert (G : forall j, j <= s -> foldM (fun st j =>
      let '(tmp, cur) := st in
      if Bool.eqb (Nat.odd (popcount (N.of_nat j))) b
      then c <- row j ;; tmp <- updr tmp cur c ;; Ok (tmp, cur + 1)
      else Ok (tmp, cur)) (seq 0 j) (repeat r0 (s / 2), 0) =
      Ok (map X (pidx b j) ++ repeat r0 (s / 2 - length (pidx b j)), length (pidx b j))).
  { induction j as [|j IH]; intros Hj.
    - cbn. rewrite Nat.sub_0_r. reflexivity.
    - rewrite seq_S, foldM_app, IH by lia. cbn [bind foldM Nat.add]. pose proof (pidx_le b (S j) s Hj) as Hle. rewrite pidx_S in *. rewrite app_length in *.
      destruct (Bool.eqb _ b); cbn [length bind] in *.
      + rewrite Hr by lia. cbn [bind]. unfold updr. replace (length (pidx b j) <? length (map X (pidx b j) ++ repeat r0 (s / 2 - length (pidx b j)))) with true
          by (symmetry; apply Nat.ltb_lt; rewrite app_length, map_length, repeat_length; lia). cbn [bind]. f_equal. f_equal.
        replace (s / 2 - length (pidx b j)) with (S (s / 2 - (length (pidx b j) + 1))) by lia. cbn [repeat].
        rewrite map_app. cbn [map]. rewrite <- app_assoc. cbn [app].
        generalize (repeat (r0 : C) (s / 2 - (length (pidx b j) + 1))). intros q. rewrite <- (map_length X (pidx b j)). clear. induction (map X (pidx b j)) as [|c l IH]; cbn in *; [reflexivity|]. f_equal. exact IH.
      + rewrite app_nil_r, Nat.add_0_r. reflexivity. }
  rewrite G by lia. reflexivity.
Qed.

Lemma concat_mis h w (rows : list (list C)) X : length rows = h -> (forall r, r < h -> nth r rows [] = map (X r) (seq 0 w)) -> mis h w (mkMat h w (concat rows)) X.
Proof.
  intros Hl Hr. assert (Hw : forall l, In l rows -> length l = w).
  { intros l Hin. apply (In_nth _ _ []) in Hin as (r & Hr1 & <-). rewrite Hr by lia. rewrite map_length, seq_length. reflexivity. }
  assert (Lc : forall rs : list (list C), (forall l, In l rs -> length l = w) -> length (concat rs) = length rs * w).
  { induction rs as [|l rs IH]; intros H; cbn; auto. rewrite app_length, IH by (intros; apply H; right; auto). rewrite (H l); [lia|left; auto]. }
  repeat split; cbn [m_nr m_nc m_data]; auto.
  - unfold m_ok. cbn [m_nr m_nc m_data]. rewrite Lc by auto. lia.
  - intros i j Hi Hj. unfold m_at. cbn [m_nc m_data].
    assert (G : forall (rs : list (list C)) i, (forall l, In l rs -> length l = w) -> i < length rs -> nth (i * w + j) (concat rs) r0 = nth j (nth i rs []) r0).
    { clear - Hj. induction rs as [|l rs IH]; intros i H Hi; cbn in Hi; [lia|]. cbn [concat]. pose proof (H l (or_introl eq_refl)) as El.
      destruct i; cbn [nth Nat.mul Nat.add].
      - rewrite app_nth1 by lia. reflexivity.
      - rewrite app_nth2 by lia. rewrite El. replace (w + i * w + j - w) with (i * w + j) by lia. apply IH; [intros; apply H; right; auto|lia]. }
    rewrite G by (auto; lia). rewrite Hr by auto. rewrite (nth_indep _ r0 (X i 0)) by (rewrite map_length, seq_length; auto). rewrite map_nth, seq_nth by auto. reflexivity.
Qed.

Lemma half_ok p (M : mat C) X a : mis (2 ^ S p) (2 ^ S p) M X -> t_mats a = [M] -> exists E O, fr_into_half_spin_repr a = Ok (E, O) /\
  mis (2 ^ p) (2 ^ p) E (fun i j => X (nth i (pidx false (2 ^ S p)) 0) (nth j (pidx false (2 ^ S p)) 0)) /\
  mis (2 ^ p) (2 ^ p) O (fun i j => X (nth i (pidx true (2 ^ S p)) 0) (nth j (pidx true (2 ^ S p)) 0)).
Proof.
  intros HM Ha. unfold fr_into_half_spin_repr, fr_into_array2. rewrite Ha. cbn [nthr nth_error bind length].
  assert (R : m_nr M = 2 ^ S p) by apply HM. assert (Cc : m_nc M = 2 ^ S p) by apply HM.
  set (s := 2 ^ S p) in *. assert (Es : s / 2 = 2 ^ p) by (unfold s; apply half_pow).
  assert (Hp : forall b, length (pidx b s) = 2 ^ p) by (intros; apply pidx_len).
  unfold nthr. cbn [nth_error bind]. rewrite R, Cc.
  set (row := fun b i => map (X i) (pidx b s)).
  assert (G : forall i, i <= s -> foldM (fun st i =>
      let '(ev, od) := st in
      row <- half_row (Nat.odd (popcount (N.of_nat i))) s (m_get M i) ;;
      if Nat.even (popcount (N.of_nat i)) then Ok (ev ++ [row], od) else Ok (ev, od ++ [row]))
    (seq 0 i) ([], []) = Ok (map (row false) (pidx false i), map (row true) (pidx true i))).
  { induction i as [|i IH]; intros Hi; [reflexivity|]. rewrite seq_S, foldM_app, IH by lia. cbn [bind foldM Nat.add].
    rewrite (half_row_ok _ s (m_get M i) (X i)) by (rewrite ?Hp, ?Es; auto; intros; apply (mis_get s s); auto; lia). cbn [bind].
    rewrite Hp, Es, Nat.sub_diag. cbn [repeat]. rewrite app_nil_r. rewrite !pidx_S, <- Nat.negb_odd.
    destruct (Nat.odd (popcount (N.of_nat i))) eqn:Eo; cbn [Bool.eqb negb bind]; rewrite ?map_app, ?app_nil_r; reflexivity. }
  rewrite G by lia. cbn [bind]. eexists _, _. split; [reflexivity|]. rewrite !map_length, !Hp, Es.
  assert (Q : forall b, mis (2 ^ p) (2 ^ p) (mkMat (2 ^ p) (2 ^ p) (concat (map (row b) (pidx b s)))) (fun i j => X (nth i (pidx b s) 0) (nth j (pidx b s) 0))).
  { intros b. apply concat_mis; [rewrite map_length; auto|]. intros r Hr. rewrite (nth_indep _ [] (row b 0)) by (rewrite map_length, Hp; auto). rewrite map_nth. unfold row.
    rewrite <- (Hp b). generalize (nth r (pidx b s) 0). intros q. generalize (pidx b s). clear. intros l. induction l using rev_ind; [reflexivity|].
    rewrite app_length. cbn [length]. rewrite Nat.add_1_r, seq_S, !map_app. cbn [map Nat.add]. rewrite app_nth2, Nat.sub_diag by lia. cbn [nth]. f_equal. rewrite IHl. apply map_ext_in. intros j Hj. apply in_seq in Hj. rewrite app_nth1 by lia. reflexivity. }
  split; apply Q.
Qed.

Lemma suml_nth (f : nat -> C) l n : length l = n -> suml (fun k => f (nth k l 0)) (seq 0 n) = suml f l.
Proof.
  intros <-. induction l using rev_ind; [reflexivity|]. rewrite app_length. cbn [length]. rewrite Nat.add_1_r, seq_S, !suml_app. cbn [suml Nat.add]. rewrite app_nth2, Nat.sub_diag by lia. cbn [nth]. f_equal.
  rewrite <- IHl. apply suml_ext. intros k Hk. apply in_seq in Hk. rewrite app_nth1 by lia. reflexivity.
Qed.

(** Entries at indices of different parity vanish. *)
Definition block_diag (s : nat) (X : nat -> nat -> C) : Prop :=
  forall i j, i < s -> j < s -> Nat.odd (popcount (N.of_nat i)) <> Nat.odd (popcount (N.of_nat j)) -> X i j = r0.
Lemma sum_block b s (X Y : nat -> nat -> C) i j : block_diag s X -> In i (pidx b s) ->
  suml (fun k => rmul (X i k) (Y k j)) (seq 0 s) = suml (fun k => rmul (X i k) (Y k j)) (pidx b s).
Proof.
  intros HX Hi. apply pidx_in in Hi as (Hi & Eb). unfold pidx. rewrite suml_filter. apply suml_ext. intros k Hk. apply in_seq in Hk.
  destruct (Bool.eqb _ b) eqn:E; auto. rewrite HX; [apply mul_0_l|lia|lia|]. intros E2. rewrite <- E2, Eb, Bool.eqb_reflx in E. discriminate.
Qed.
End Half.

Lemma mis_fun {T} {RO : RingOps T} h w (M : mat T) X Y : mis h w M X -> mis h w M Y -> forall i j, i < h -> j < w -> X i j = Y i j.
Proof. intros (_ & _ & _ & E) (_ & _ & _ & E') i j Hi Hj. rewrite <- E, <- E'; auto. Qed.

Section Thms.
Context {T F : Type} {RT : RingOps T} {LT : RingLaws T} {RF : RingOps F} {LF : RingLaws F} {CF : CommLaws F} {DV : DivOps F} {FL : FieldLaws F} {FRl : FormallyReal F}
  {IC : IntoCplx T F} {FC : FromCplx T F} {CV : ConvLaws T F} {md : Mode} {HO : HashOrder}.
Local Notation C := (cplx F).
Local Notation MV := (store KDense T).
Variables (sg : list tok) (A : algebra).
Hypothesis D : declared sg A.
Hypothesis Hl : length sg < 63.
Hypothesis Hnd : nonnull sg = length sg.
Local Notation d := (a_dim A).
Local Notation h := (half (nonnull sg)).
Local Notation rp := (repr_of (F := F) sg A).
Local Notation fft x := (mv_fft (F := F) A (x : arr T)).
Let Ed : nonnull sg = d := eq_trans Hnd (eq_sym (declared_dim _ _ D)).
Let E0 : d - nonnull sg = 0.
Proof. lia. Qed.

Lemma half_pos : exists p, h = S p.
Proof.
  assert (H : 1 <= length sg) by (destruct (proj1 D) as (names & E); clear - E; destruct sg; [discriminate E|cbn; lia]). rewrite Hnd. unfold half.
  assert (1 <= (length sg + 1) / 2) by (apply Nat.div_le_lower_bound; lia). destruct ((length sg + 1) / 2) eqn:Q; [lia|eexists; reflexivity].
Qed.

Lemma rp_mat X c : rp X c -> exists M, t_mats X = [M] /\ mrep h M (hm sg c).
Proof.
  intros (_ & _ & Hw). rewrite E0 in Hw. destruct Hw as (L & Hw). cbn [Nat.pow] in *. destruct (t_mats X) as [|M [|? ?]]; try discriminate L. exists M. split; [reflexivity|].
  specialize (Hw 0 ltac:(lia)). cbn [nth] in Hw. eapply mrep_ext; [exact Hw|]. unfold frep, hm. apply cl_ext. intros i Hi. unfold phi, pad, blk_of. change (N.of_nat 0) with 0%N. rewrite N.mul_0_r, N.add_0_l. reflexivity.
Qed.

Lemma hm_flip c i j b : (i < pow2 h)%N -> (j < pow2 h)%N -> (forall k, (k < pow2 (nonnull sg))%N -> par k = b -> c k = r0) -> par (N.lxor i j) = b -> hm sg c i j = (r0 : C).
Proof.
  intros Hi Hj Hc Hb. apply neg_self. pose proof (hm_al sg c i j Hi Hj) as E. unfold malpha in E. rewrite Hb in E. destruct b; cbn [sgb] in E.
  - rewrite <- E. apply hm_ext. intros k Hk. unfold alpha. destruct (par k) eqn:Q; cbn [sgb]; auto. rewrite Hc by auto. apply neg_0.
  - transitivity (hm sg (fneg c) i j); [symmetry; apply hm_neg|]. rewrite <- E. apply hm_ext. intros k Hk. unfold alpha, fneg. destruct (par k) eqn:Q; cbn [sgb]; auto. rewrite Hc by auto. apply neg_0.
Qed.
Lemma hm_block c : (forall k, (k < pow2 (nonnull sg))%N -> par k = true -> c k = r0) -> block_diag (2 ^ h) (nn (hm sg c)).
Proof.
  intros Hc i j Hi Hj Hn. unfold nn. apply (hm_flip c _ _ true); auto using of_nat_lt. rewrite par_lxor. unfold par. destruct (Nat.odd (popcount (N.of_nat i))), (Nat.odd (popcount (N.of_nat j))); auto; contradiction Hn; reflexivity.
Qed.

Lemma gens_par k : (k < pow2 (length sg))%N -> Nat.odd (length (gens (length sg) k)) = par k.
Proof. intros Hk. rewrite length_gens, <- popcount_bitsum by auto. reflexivity. Qed.

Definition hrep (r : res (mat C * mat C)) (p : nat) (X : nat -> nat -> C) : Prop := exists E O, r = Ok (E, O) /\ mis (2 ^ p) (2 ^ p) E (fun i j => X (nth i (pidx false (2 ^ S p)) 0) (nth j (pidx false (2 ^ S p)) 0)) /\ mis (2 ^ p) (2 ^ p) O (fun i j => X (nth i (pidx true (2 ^ S p)) 0) (nth j (pidx true (2 ^ S p)) 0)).

Lemma half_rp X c p : h = S p -> rp X c -> hrep (fr_into_half_spin_repr X) p (nn (hm sg c)).
Proof. intros Hp HX. destruct (rp_mat X c HX) as (M & E & HM). unfold mrep in HM. rewrite Hp in HM. exact (half_ok p M _ X HM E). Qed.
Lemma half_fft (r : res MV) f p : h = S p -> gives A r f -> hrep (x <- r ;; X <- fft x ;; fr_into_half_spin_repr X) p (nn (hm sg (cfun A f))).
Proof. intros Hp Hx. destruct (fft_r (IC := IC) sg A D Hl r f Hx) as (R & E & HR). destruct Hx as (z & -> & _). cbn [bind] in *. rewrite E. cbn [bind]. apply half_rp; auto. Qed.
Lemma pidx_nth b p i : i < 2 ^ p -> In (nth i (pidx b (2 ^ S p)) 0) (pidx b (2 ^ S p)).
Proof. intros Hi. apply nth_In. rewrite pidx_len. exact Hi. Qed.

Lemma par_nth b p i j : h = S p -> i < 2 ^ p -> j < 2 ^ p -> let a := N.of_nat (nth i (pidx b (2 ^ S p)) 0) in let c := N.of_nat (nth j (pidx b (2 ^ S p)) 0) in
  (a < pow2 h)%N /\ (c < pow2 h)%N /\ par (N.lxor a c) = false.
Proof.
  intros Hp Hi Hj. pose proof (pidx_nth b p i Hi) as H1. pose proof (pidx_nth b p j Hj) as H2. apply pidx_in in H1 as (H1 & H1'), H2 as (H2 & H2'). cbv zeta. rewrite Hp.
  split; [apply of_nat_lt; auto|]. split; [apply of_nat_lt; auto|]. rewrite par_lxor. unfold par. rewrite H1', H2'. destruct b; reflexivity.
Qed.

Lemma hrep_eq r r' p X Y : hrep r p X -> hrep r' p Y -> (forall b i j, i < 2 ^ p -> j < 2 ^ p -> X (nth i (pidx b (2 ^ S p)) 0) (nth j (pidx b (2 ^ S p)) 0) = Y (nth i (pidx b (2 ^ S p)) 0) (nth j (pidx b (2 ^ S p)) 0)) -> both_ok r r'.
Proof.
  intros (E & O & -> & H1 & H2) (E' & O' & -> & H1' & H2') H. exists (E, O). split; [reflexivity|]. f_equal. f_equal.
  - eapply mis_eq; [eapply mis_ext; [exact H1'|]|exact H1]. intros i j Hi Hj. symmetry. apply H; auto.
  - eapply mis_eq; [eapply mis_ext; [exact H2'|]|exact H2]. intros i j Hi Hj. symmetry. apply H; auto.
Qed.
Lemma hrep_square r p X : hrep r p X -> exists E O, r = Ok (E, O) /\ square_mat (2 ^ p) E /\ square_mat (2 ^ p) O.
Proof. intros (E & O & -> & H1 & H2). exists E, O. split; [reflexivity|]. split; [split; [|split]; apply H1|split; [|split]; apply H2]. Qed.

Lemma side_half p : h = S p -> 2 ^ p = side_of sg / 2.
Proof. intros Hp. unfold side_of. change ((nonnull sg + 1) / 2) with h. rewrite Hp, half_pow. reflexivity. Qed.

Lemma cfun_0f (f : N -> T) k : f k = r0 -> cfun (F := F) A f k = r0.
Proof. intros E. unfold cfun, phi. rewrite E, into_0. apply mul_0_l. Qed.

Lemma c46_total (x : MV) : valid A x -> exists X E O, fft x = Ok X /\ fr_into_half_spin_repr X = Ok (E, O) /\ square_mat (side_of sg / 2) E /\ square_mat (side_of sg / 2) O.
Proof.
  intros Hx. destruct half_pos as (p & Hp). destruct (fft_gives (IC := IC) sg A D Hl x _ Hx (fun i _ => eq_refl)) as (X & E & HX). rewrite <- (side_half p Hp).
  destruct (hrep_square _ p _ (half_rp X _ p Hp HX)) as (E1 & O1 & H). exists X, E1, O1. tauto.
Qed.

Lemma c46_odd (x y : MV) : valid A x -> valid A y -> same_even sg x y ->
  both_ok (X <- fft x ;; fr_into_half_spin_repr X) (Y <- fft y ;; fr_into_half_spin_repr Y).
Proof.
  intros Hx Hy He. destruct half_pos as (p & Hp).
  assert (Hhx : hrep (X <- fft x ;; fr_into_half_spin_repr X) p (nn (hm sg (cfun A (rd x))))).
  { destruct (fft_gives (IC := IC) sg A D Hl x _ Hx (fun i _ => eq_refl)) as (X & -> & HX). apply half_rp; auto. }
  assert (Hhy : hrep (X <- fft y ;; fr_into_half_spin_repr X) p (nn (hm sg (cfun A (rd y))))).
  { destruct (fft_gives (IC := IC) sg A D Hl y _ Hy (fun i _ => eq_refl)) as (X & -> & HX). apply half_rp; auto. }
  eapply hrep_eq; [exact Hhx|exact Hhy|]. intros b i j Hi Hj. destruct (par_nth b p i j Hp Hi Hj) as (P1 & P2 & P3). unfold nn. set (a := N.of_nat (nth i (pidx b (2 ^ S p)) 0)) in *. set (c := N.of_nat (nth j (pidx b (2 ^ S p)) 0)) in *.
  assert (Q : hm sg (fadd (cfun A (rd x)) (fneg (cfun A (rd y)))) a c = (r0 : C)).
  { apply (hm_flip _ a c false); auto. intros k Hk Pk. unfold fadd, fneg, cfun, phi. rewrite (He k); [apply add_neg_r|rewrite <- Hnd; exact Hk|]. rewrite gens_par; [exact Pk|rewrite <- Hnd; exact Hk]. }
  rewrite hm_add in Q. unfold madd in Q. rewrite hm_neg in Q. unfold mneg in Q. rewrite <- (add_0_r (hm sg (cfun A (rd x)) a c)), <- (add_neg_l (hm sg (cfun A (rd y)) a c)), add_assoc, Q. apply add_0_l.
Qed.

Lemma even_cfun (x : MV) : even_mv sg x -> forall k, (k < pow2 (nonnull sg))%N -> par k = true -> cfun (F := F) A (rd x) k = r0.
Proof. intros He k Hk Pk. apply cfun_0f. rewrite Hnd in Hk. apply He; [exact Hk|]. rewrite gens_par; auto. Qed.

Lemma c46_mul (x y : MV) : valid A x -> valid A y -> even_mv sg x -> exists XE XO YE YO ZE ZO,
  (X <- fft x ;; fr_into_half_spin_repr X) = Ok (XE, XO) /\ (Y <- fft y ;; fr_into_half_spin_repr Y) = Ok (YE, YO) /\
  (z <- mv_mul A x y ;; Z <- fft z ;; fr_into_half_spin_repr Z) = Ok (ZE, ZO) /\ m_dot XE YE = Ok ZE /\ m_dot XO YO = Ok ZO.
Proof.
  intros Hx Hy He. destruct half_pos as (p & Hp).
  destruct (fft_gives (IC := IC) sg A D Hl x _ Hx (fun i _ => eq_refl)) as (X & EX & HX).
  destruct (fft_gives (IC := IC) sg A D Hl y _ Hy (fun i _ => eq_refl)) as (Y & EY & HY).
  destruct (rp_mat X _ HX) as (MX & LX & QX). destruct (rp_mat Y _ HY) as (MY & LY & QY).
  destruct (c39_repr (IC := IC) sg A D Hl x y Hx Hy) as (Z & EZ1 & EZ2). rewrite EX, EY in EZ1. cbn [bind] in EZ1.
  destruct (repr_mul sg A D Hl X Y _ _ HX HY) as (Z' & EZ' & HZ'). rewrite EZ1 in EZ'. injection EZ' as <-.
  destruct (rp_mat Z _ HZ') as (MZ & LZ & QZ).
  assert (QM : mrep h MZ (mmul h (hm sg (cfun A (rd x))) (hm sg (cfun A (rd y))))).
  { destruct (mrep_dot h MX MY _ _ QX QY) as (P & EP & HP). assert (R1 : t_nr X = 2 ^ h) by apply HX. assert (R2 : t_nc X = 2 ^ h) by apply HX. assert (R3 : m_nr P = 2 ^ h) by apply HP. assert (R4 : m_nc P = 2 ^ h) by apply HP.
    unfold fr_mul, wmul in EZ1. rewrite LX, LY in EZ1. cbn [length Nat.eqb nthr nth_error bind] in EZ1. unfold nthr in EZ1. cbn [nth_error bind] in EZ1. rewrite EP in EZ1. cbn [bind] in EZ1. rewrite R1, R2, R3, R4, Nat.eqb_refl in EZ1.
    injection EZ1 as <-. cbn [t_mats] in LZ. injection LZ as <-. destruct P as [pr pc pd]. cbn [m_nr m_nc m_data] in *. rewrite <- R3 at 1. rewrite <- R4. rewrite R3 at 1. subst. exact HP. }
  unfold mrep in QX, QY, QM. rewrite Hp in QX, QY, QM.
  destruct (half_ok p _ _ X QX LX) as (XE & XO & EX' & HXE & HXO). destruct (half_ok p _ _ Y QY LY) as (YE & YO & EY' & HYE & HYO). destruct (half_ok p _ _ Z QM LZ) as (ZE & ZO & EZ' & HZE & HZO).
  exists XE, XO, YE, YO, ZE, ZO. split; [rewrite EX; exact EX'|]. split; [rewrite EY; exact EY'|]. split.
  { rewrite <- EZ'. destruct (mv_mul A x y) as [z| |]; try discriminate EZ2. cbn [bind] in *. rewrite EZ2. reflexivity. }
  pose proof (hm_block _ (even_cfun x He)) as HB. rewrite Hp in HB.
  assert (Q : forall b i j, i < 2 ^ p -> j < 2 ^ p -> let f k := nth k (pidx b (2 ^ S p)) 0 in
    suml (fun l => rmul (nn (hm sg (cfun A (rd x))) (f i) (f l)) (nn (hm sg (cfun A (rd y))) (f l) (f j))) (seq 0 (2 ^ p)) = nn (mmul (S p) (hm sg (cfun A (rd x))) (hm sg (cfun A (rd y)))) (f i) (f j)).
  { intros b i j Hi Hj f. transitivity (suml (fun l => rmul (nn (hm sg (cfun A (rd x))) (f i) l) (nn (hm sg (cfun A (rd y))) l (f j))) (pidx b (2 ^ S p))).
    { apply (suml_nth (fun l => rmul (nn (hm sg (cfun A (rd x))) (f i) l) (nn (hm sg (cfun A (rd y))) l (f j)))). apply pidx_len. }
    rewrite <- (sum_block b (2 ^ S p) _ _ (f i) (f j) HB (pidx_nth b p i Hi)). unfold nn, mmul, sumI, idxs. rewrite suml_map. reflexivity. }
  split.
  - destruct (mis_dot _ _ _ _ _ _ _ HXE HYE) as (P & EP & HP). rewrite EP. f_equal. eapply mis_eq; [exact HP|]. eapply mis_ext; [exact HZE|]. intros i j Hi Hj. symmetry. apply (Q false); auto.
  - destruct (mis_dot _ _ _ _ _ _ _ HXO HYO) as (P & EP & HP). rewrite EP. f_equal. eapply mis_eq; [exact HP|]. eapply mis_ext; [exact HZO|]. intros i j Hi Hj. symmetry. apply (Q true); auto.
Qed.

Lemma pidx_nodup b n : NoDup (pidx b n).
Proof. apply NoDup_filter, seq_NoDup. Qed.
Lemma c46_one : exists E O, (x <- (mv_one A : res MV) ;; X <- fft x ;; fr_into_half_spin_repr X) = Ok (E, O) /\
  identity_mat (side_of sg / 2) E /\ identity_mat (side_of sg / 2) O.
Proof.
  destruct half_pos as (p & Hp). rewrite <- (side_half p Hp). destruct (c40_one (IC := IC) sg A D Hl) as (Z & E1 & E2).
  destruct (one_arep (F := F) sg A D Hl) as (z & E3 & Hz). rewrite E1 in E3. injection E3 as <-. rewrite E0 in Hz. destruct Hz as (_ & _ & L & Hw). cbn [Nat.pow] in *.
  destruct (t_mats Z) as [|M [|? ?]] eqn:EM; try discriminate L. specialize (Hw 0 ltac:(lia)). cbn [nth] in Hw. unfold mrep in Hw. rewrite Hp in Hw.
  destruct (half_ok p M _ Z Hw EM) as (EE & OO & H & HE & HO'). exists EE, OO. split.
  { destruct (mv_one A) as [x| |]; try discriminate E2. cbn [bind] in *. rewrite E2. exact H. }
  assert (Q : forall b B, mis (2 ^ p) (2 ^ p) B (fun i j => nn (fun i j => if ((N.of_nat 0 =? 0) && (i =? j))%N%bool then (r1 : C) else r0) (nth i (pidx b (2 ^ S p)) 0) (nth j (pidx b (2 ^ S p)) 0)) -> identity_mat (2 ^ p) B).
  { intros b B HB. split; [split; [|split]; apply HB|]. intros i j Hi Hj. rewrite (mis_get _ _ _ _ i j HB Hi Hj). f_equal. unfold nn. change (N.of_nat 0 =? 0)%N with true. cbn [andb].
    destruct (N.eqb_spec (N.of_nat (nth i (pidx b (2 ^ S p)) 0)) (N.of_nat (nth j (pidx b (2 ^ S p)) 0))) as [e|ne].
    - apply Nat2N.inj in e. apply (proj1 (NoDup_nth _ _) (pidx_nodup b (2 ^ S p))) in e; [|rewrite pidx_len; auto..]. subst. rewrite Nat.eqb_refl. reflexivity.
    - destruct (Nat.eqb_spec i j) as [->|]; [contradiction|reflexivity]. }
  split; eapply Q; eassumption.
Qed.

Lemma c46_faithful (x y : MV) : valid A x -> valid A y -> even_mv sg x -> even_mv sg y ->
  (X <- fft x ;; fr_into_half_spin_repr X) = (Y <- fft y ;; fr_into_half_spin_repr Y) -> x = y.
Proof.
  intros Hx Hy Ex Ey Heq. destruct half_pos as (p & Hp).
  destruct (fft_gives (IC := IC) sg A D Hl x _ Hx (fun i _ => eq_refl)) as (X & EX & HX).
  destruct (fft_gives (IC := IC) sg A D Hl y _ Hy (fun i _ => eq_refl)) as (Y & EY & HY).
  pose proof (half_rp X _ p Hp HX) as RX. pose proof (half_rp Y _ p Hp HY) as RY. rewrite EX, EY in Heq. cbn [bind] in Heq. rewrite <- Heq in RY.
  destruct RX as (EE & OO & EEq & H1 & H2). destruct RY as (EE' & OO' & E' & H1' & H2'). rewrite EEq in E'. injection E' as <- <-.
  pose proof (mis_fun _ _ _ _ _ H1 H1') as M1. pose proof (mis_fun _ _ _ _ _ H2 H2') as M2. cbn beta in M1, M2.
  pose proof (hm_block _ (even_cfun x Ex)) as BX. pose proof (hm_block _ (even_cfun y Ey)) as BY. rewrite Hp in BX, BY.
  assert (M : forall i j, i < 2 ^ S p -> j < 2 ^ S p -> nn (hm sg (cfun A (rd x))) i j = nn (hm sg (cfun (F := F) A (rd y))) i j).
  { intros i j Hi Hj. destruct (Bool.bool_dec (Nat.odd (popcount (N.of_nat i))) (Nat.odd (popcount (N.of_nat j)))) as [e|ne]; [|rewrite BX, BY; auto].
    assert (I1 : In i (pidx (Nat.odd (popcount (N.of_nat i))) (2 ^ S p))) by (apply pidx_in; auto). assert (I2 : In j (pidx (Nat.odd (popcount (N.of_nat i))) (2 ^ S p))) by (apply pidx_in; auto).
    apply (In_nth _ _ 0) in I1 as (a & La & Ea), I2 as (b & Lb & Eb). rewrite pidx_len in La, Lb. destruct (Nat.odd (popcount (N.of_nat i))); rewrite <- Ea, <- Eb; [apply M2|apply M1]; auto. }
  assert (XY : X = Y).
  { destruct (rp_mat X _ HX) as (MX & LX & QX). destruct (rp_mat Y _ HY) as (MY & LY & QY). destruct HX as (RX & CX & _), HY as (RY & CY & _). destruct X as [xr xc xm], Y as [yr yc ym]. cbn [t_nr t_nc t_mats] in *. subst xr xc xm yr yc ym.
    f_equal. f_equal. eapply mis_eq; [exact QX|]. eapply mis_ext; [exact QY|]. rewrite Hp. intros i j Hi Hj. symmetry. apply M; auto. }
  subst Y. pose proof (c38_roundtrip sg A D Hl x Hx) as R1. pose proof (c38_roundtrip sg A D Hl y Hy) as R2. rewrite EX in R1. rewrite EY in R2. cbn [bind] in R1, R2. rewrite R1 in R2. injection R2 as ->. reflexivity.
Qed.
End Thms.
