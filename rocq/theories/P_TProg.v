(** Programs in the transform domain. *)
From Coq Require Import Sorted.
From Verif Require Export Spec_TProg P_Float P_Props10.
Local Open Scope nat_scope.

Section Basis.
Context {T F : Type} {RT : RingOps T} {LT : RingLaws T} {RF : RingOps F} {LF : RingLaws F}
  {IC : IntoCplx T F} {FC : FromCplx T F} {CV : ConvLaws T F} {md : Mode} {HO : HashOrder}.
Variables (sg : list tok) (A : algebra).
Hypothesis D : declared sg A.
Hypothesis Hl : length sg < 63.
Local Notation d := (a_dim A).

Lemma mapM_nth {X Y} (f : X -> res Y) l : (forall x, In x l -> exists y, f x = Ok y) ->
  exists l', mapM f l = Ok l' /\ length l' = length l /\ forall i x, nth_error l i = Some x -> exists y, f x = Ok y /\ nth_error l' i = Some y.
Proof.
  induction l as [|x l IH]; intros Hf; cbn [mapM].
  - exists []. split; [reflexivity|]. split; [reflexivity|]. intros [|i] x Hx; discriminate.
  - destruct (Hf x) as (y & E); [left; auto|]. rewrite E. cbn [bind]. destruct IH as (l' & -> & Hl' & IH); [intros; apply Hf; right; auto|]. cbn [bind].
    exists (y :: l'). split; [reflexivity|]. split; [cbn; congruence|]. intros [|i] z Hz; cbn in *; [injection Hz as <-; eauto|eauto].
Qed.
Lemma fr_basis_ok : exists l, fr_basis (F := F) A = Ok l /\ length l = d /\
  forall i, i < d -> exists X, nth_error l i = Some X /\ repr_of sg A X (cfun (T := T) A (del (pow2 i) r1)).
Proof.
  destruct (basis_gives (T := cplx F) KDense sg A D I) as (b & E & Lb & Hb).
  unfold fr_basis. assert (E0 : (mv_basis A : res (list (arr (cplx F)))) = Ok b) by exact E. rewrite E0. cbn [bind].
  assert (G : forall i e, nth_error b i = Some e -> i < d /\ valid A e /\ feq d (rd e) (del (pow2 i) r1)).
  { intros i e Hi. assert (i < d) by (rewrite <- Lb; apply nth_error_Some; congruence). destruct (Hb i) as (e' & E' & He & Hc); auto. rewrite Hi in E'. injection E' as <-. auto. }
  destruct (mapM_nth (fun e : arr (cplx F) => mv_fft A e) b) as (l & El & Ll & Hn).
  { intros e He. apply In_nth_error in He. destruct He as (i & Hi). destruct (G i e Hi) as (_ & Hv & Hc).
    destruct (fft_gives sg A D Hl e _ Hv Hc) as (r & Er & _). exists r. exact Er. }
  exists l. split; [exact El|]. split; [exact (eq_trans Ll Lb)|]. intros i Hi. destruct (Hb i Hi) as (e & Ee & He & Hc).
  destruct (Hn i e Ee) as (X & EX & HX). exists X. split; [exact HX|].
  destruct (fft_gives sg A D Hl e _ He Hc) as (r & Er & Hr). assert (EQ : Ok r = Ok X) by (rewrite <- Er; exact EX). injection EQ as ->.
  eapply (repr_ext sg A D Hl); [exact Hr|]. intros k Hk. rewrite !cfun_at. f_equal. unfold del.
  destruct (k =? pow2 i)%N; [rewrite !into_one|rewrite !(into_0 (F := F))]; reflexivity.
Qed.

(** C65: [FFTRepr::basis] *)
Lemma basis_fft : exists (b : list (store KDense T)) (l : list (fftrepr F)),
  mv_basis A = Ok b /\ fr_basis A = Ok l /\ length b = d /\ length l = d /\
  forall i e, nth_error b i = Some e -> exists X, nth_error l i = Some X /\ mv_fft A (e : arr T) = Ok X.
Proof.
  destruct (basis_gives (T := T) KDense sg A D I) as (b & E & Lb & Hb). destruct fr_basis_ok as (l & El & Ll & Hf).
  exists b, l. do 4 (split; [auto|]). intros i e Hi. assert (Hlt : i < d) by (rewrite <- Lb; apply nth_error_Some; congruence).
  destruct (Hb i Hlt) as (e' & E' & He & Hc). rewrite Hi in E'. injection E' as <-.
  destruct (Hf i Hlt) as (X & EX & HX). exists X. split; [exact EX|].
  destruct (fft_gives sg A D Hl e _ He Hc) as (r & Er & Hr). rewrite Er. f_equal. eapply (repr_eq sg A); eauto.
Qed.
End Basis.

Section TP.
Context {T F : Type} {RT : RingOps T} {LT : RingLaws T} {DT : DivOps T} {CJ : ConjOps T} {RF : RingOps F} {LF : RingLaws F} {CF : CommLaws F} {DV : DivOps F}
  {FL : FieldLaws F} {FRl : FormallyReal F} {IC : IntoCplx T F} {FC : FromCplx T F} {CV : ConvLaws T F} {md : Mode} {HO : HashOrder}.
Variables (sg : list tok) (A : algebra).
Hypothesis D : declared sg A.
Hypothesis Hl : length sg < 63.
Local Notation d := (a_dim A).
Local Notation MV := (store KDense T).
Local Notation fft x := (mv_fft (F := F) A (x : arr T)).

Definition in_step (r : res (fftrepr F)) (s : res MV) : Prop := exists z Z, s = Ok z /\ valid A z /\ r = Ok Z /\ fft z = Ok Z.
Lemma step_fft (s : res MV) : succeeds A s -> in_step (z <- s ;; fft z) s.
Proof. intros (z & -> & Hz). destruct (c38_total sg A D Hl z Hz) as (Z & E & _). exists z, Z. auto. Qed.
Lemma step_both (r : res (fftrepr F)) (s : res MV) : both_ok r (z <- s ;; fft z) -> succeeds A s -> in_step r s.
Proof. intros (v & -> & E) (z & -> & Hz). exists z, v. auto. Qed.

Lemma good_Ok ok (s : res MV) : good A ok s -> ok -> succeeds A s.
Proof. intros G K. destruct s as [z| |]; cbn in G; [exists z; auto|destruct (G K)|destruct G]. Qed.

Theorem tprog (e : expr T) : offers KDense A e -> args_ok A e -> in_step (feval A e) (eval KDense A e).
Proof.
  assert (SC : forall e, offers KDense A e -> args_ok A e -> succeeds A (eval KDense A e)).
  { intros e' Ho Ha. apply (good_Ok (args_ok A e')); auto. apply (eval_total A sg D e' KDense I Ho). }
  induction e; intros Ho Ha; pose proof (SC _ Ho Ha) as S0; try (apply step_fft; exact S0); cbn [feval].
  - apply step_both; [apply (c40_zero sg A D Hl)|exact S0].
  - apply step_both; [apply (c40_one sg A D Hl)|exact S0].
  - apply step_both; [|exact S0]. change (eval KDense A (EBasis n)) with (l <- (mv_basis A : res (list MV)) ;; nthr l n). cbn [offers] in Ho.
    destruct (basis_fft (T := T) (F := F) sg A D Hl) as (b & l & Eb & El & Lb & Ll & Hn). rewrite Eb, El. cbn [bind]. unfold nthr.
    destruct (nth_error b n) as [x|] eqn:Ex; [|apply nth_error_None in Ex; lia].
    destruct (Hn n x Ex) as (X & -> & EX). exists X. split; auto.
  - cbn [offers args_ok] in *. destruct IHe1 as (x & X & E1 & Hx & F1 & G1); [tauto..|]. destruct IHe2 as (y & Y & E2 & Hy & F2 & G2); [tauto..|].
    apply step_both; [|exact S0]. cbn [eval]. rewrite E1, E2, F1, F2. cbn [bind].
    pose proof (c40_add sg A D Hl x y Hx Hy) as B. rewrite G1, G2 in B. exact B.
  - cbn [offers args_ok] in *. destruct IHe1 as (x & X & E1 & Hx & F1 & G1); [tauto..|]. destruct IHe2 as (y & Y & E2 & Hy & F2 & G2); [tauto..|].
    apply step_both; [|exact S0]. cbn [eval]. rewrite E1, E2, F1, F2. cbn [bind].
    pose proof (c40_sub sg A D Hl x y Hx Hy) as B. rewrite G1, G2 in B. exact B.
  - cbn [offers args_ok] in *. destruct IHe as (x & X & E1 & Hx & F1 & G1); [tauto..|].
    apply step_both; [|exact S0]. cbn [eval]. rewrite E1, F1. cbn [bind]. pose proof (c40_neg sg A D Hl x Hx) as B. rewrite G1 in B. exact B.
  - cbn [offers args_ok] in *. destruct IHe1 as (x & X & E1 & Hx & F1 & G1); [tauto..|]. destruct IHe2 as (y & Y & E2 & Hy & F2 & G2); [tauto..|].
    apply step_both; [|exact S0]. cbn [eval]. rewrite E1, E2, F1, F2. cbn [bind].
    pose proof (c39_repr sg A D Hl x y Hx Hy) as B. rewrite G1, G2 in B. exact B.
  - cbn [offers args_ok] in *. destruct IHe as (x & X & E1 & Hx & F1 & G1); [tauto..|].
    apply step_both; [|exact S0]. cbn [eval]. rewrite E1, F1. cbn [bind]. pose proof (c40_scale sg A D Hl x t Hx) as B. rewrite G1 in B. exact B.
  - cbn [offers args_ok] in *. destruct IHe as (x & X & E1 & Hx & F1 & G1); [tauto..|].
    apply step_both; [|exact S0]. cbn [eval]. rewrite E1, F1. cbn [bind]. pose proof (c41_flip sg A D Hl x Hx) as B. rewrite G1 in B. exact B.
  - cbn [offers args_ok] in *. destruct IHe as (x & X & E1 & Hx & F1 & G1); [tauto..|].
    apply step_both; [|exact S0]. cbn [eval]. rewrite E1, F1. cbn [bind]. pose proof (c41_rev sg A D Hl x Hx) as B. rewrite G1 in B. exact B.
  - cbn [offers args_ok] in *. destruct IHe as (x & X & E1 & Hx & F1 & G1); [tauto..|].
    apply step_both; [|exact S0]. cbn [eval]. rewrite E1, F1. cbn [bind]. pose proof (c30_fft sg A D Hl x n Hx) as B. rewrite G1 in B. exact B.
Qed.

Theorem tprog_thm (e : expr T) : offers KDense A e -> args_ok A e ->
  exists z Z, eval KDense A e = Ok z /\ valid A z /\ feval A e = Ok Z /\ fft z = Ok Z /\ fr_ifft A Z = Ok (z : arr T).
Proof.
  intros Ho Ha. destruct (tprog e Ho Ha) as (z & Z & E & Hz & EZ & EF). exists z, Z. do 4 (split; [auto|]).
  pose proof (c38_roundtrip sg A D Hl z Hz) as R. rewrite EF in R. exact R.
Qed.
End TP.

(** ** Comparing representations *)
Section Cmp.
Context {F : Type} {RF : RingOps F} {LF : RingLaws F}.
Local Notation C := (cplx F).
Context {R : Type} {NL : NormLt C R}.

Lemma combine_app {X Y} (a a' : list X) (b b' : list Y) : length a = length b -> combine (a ++ a') (b ++ b') = combine a b ++ combine a' b'.
Proof. revert b. induction a as [|x a IH]; intros [|y b] E; cbn in *; try discriminate; [reflexivity|]. f_equal. apply IH. congruence. Qed.
Lemma forallb_combine {X Y} (f : X * Y -> bool) (a : list X) (b : list Y) dx dy : length a = length b ->
  (forallb f (combine a b) = true <-> forall i, i < length a -> f (nth i a dx, nth i b dy) = true).
Proof.
  revert b. induction a as [|x a IH]; intros [|y b] E; cbn [combine forallb length nth] in *; try discriminate.
  - split; auto. intros _ i Hi. lia.
  - rewrite andb_true_iff, (IH b) by congruence. split.
    + intros [H1 H2] [|i] Hi; [exact H1|]. apply H2. lia.
    + intros H. split; [apply (H 0); lia|]. intros i Hi. apply (H (S i)). lia.
Qed.
Lemma mats_combine (f : C * C -> bool) p (la lb : list (mat C)) : length la = length lb ->
  Forall (fun m => m_nr m = p /\ m_nc m = p /\ m_ok m) la -> Forall (fun m => m_nr m = p /\ m_nc m = p /\ m_ok m) lb ->
  (forallb f (combine (flat_map m_data la) (flat_map m_data lb)) = true <->
   forall w, w < length la -> forall i j, i < p -> j < p -> f (m_at (nth w la (m_zeros 0 0)) i j, m_at (nth w lb (m_zeros 0 0)) i j) = true).
Proof.
  revert lb. induction la as [|M la IH]; intros [|M' lb] E Ha Hb; cbn [length] in E; try discriminate.
  - cbn. split; auto. intros _ w Hw. lia.
  - cbn [flat_map length]. inversion Ha as [|? ? (R1 & K1 & O1) Ha']; inversion Hb as [|? ? (R2 & K2 & O2) Hb']; subst.
    unfold m_ok in *. rewrite combine_app by congruence. rewrite forallb_app, andb_true_iff, (IH lb) by (auto; congruence).
    rewrite (forallb_combine f (m_data M) (m_data M') r0 r0) by congruence. unfold m_at at 3 4. rewrite K1, R2, K2, ?R1 in *. split.
    + intros [H1 H2] [|w] Hw i j Hi Hj; [|apply H2; lia]. cbn [nth]. unfold m_at. rewrite K1, K2. apply H1. rewrite O1. nia.
    + intros H. split; [|intros w Hw; apply (H (S w)); lia]. intros i Hi. rewrite O1 in Hi.
      assert (P : m_nr M <> 0) by nia. specialize (H 0 ltac:(lia) (i / m_nr M) (i mod m_nr M)). cbn [nth] in H. unfold m_at in H. rewrite K1, K2 in H.
      replace (i / m_nr M * m_nr M + i mod m_nr M) with i in H by (rewrite Nat.mul_comm; apply Nat.div_mod; auto).
      apply H; [apply Nat.div_lt_upper_bound; lia|apply Nat.mod_upper_bound; auto].
Qed.

Lemma shape_ok sg (a : fftrepr F) : repr_shape sg a -> length (t_mats a) = mats_of sg /\ Forall (fun m => m_nr m = side_of sg /\ m_nc m = side_of sg /\ m_ok m) (t_mats a).
Proof. intros (H1 & H2). injection H2 as E1 E2 E3. split; [exact E1|]. unfold a3_ok in H1. rewrite E2, E3 in H1. exact H1. Qed.
Lemma get_at sg (a : fftrepr F) w i j : repr_shape sg a -> w < mats_of sg -> i < side_of sg -> j < side_of sg ->
  a3_get a w i j = Ok (m_at (nth w (t_mats a) (m_zeros 0 0)) i j).
Proof.
  intros Ha Hw Hi Hj. destruct (shape_ok sg a Ha) as [E1 E2]. unfold a3_get, nthr. rewrite (nth_error_nth' _ (m_zeros 0 0)) by lia. cbn [bind].
  rewrite Forall_forall in E2. destruct (E2 (nth w (t_mats a) (m_zeros 0 0))) as (R1 & K1 & _); [apply nth_In; lia|].
  unfold m_get. rewrite R1, K1. apply Nat.ltb_lt in Hi, Hj. rewrite Hi, Hj. reflexivity.
Qed.
Lemma fr_approx_thm sg (a b : fftrepr F) (eps : R) : repr_shape sg a -> repr_shape sg b ->
  (fr_approx_eq a b eps = true <-> forall w i j, w < mats_of sg -> i < side_of sg -> j < side_of sg ->
     exists u v, a3_get a w i j = Ok u /\ a3_get b w i j = Ok v /\ norm_lt (rsub u v) eps = true).
Proof.
  intros Ha Hb. destruct (shape_ok sg a Ha) as [E1 E2]. destruct (shape_ok sg b Hb) as [E3 E4].
  unfold fr_approx_eq. rewrite (mats_combine _ (side_of sg)) by (auto; congruence). cbn [fst snd]. rewrite E1. split; intros H w.
  - intros i j Hw Hi Hj. do 2 eexists. rewrite !(get_at sg) by auto. split; [reflexivity|]. split; [reflexivity|]. apply H; auto.
  - intros Hw i j Hi Hj. destruct (H w i j Hw Hi Hj) as (u & v & E5 & E6 & E7). rewrite (get_at sg) in E5, E6 by auto. congruence.
Qed.
Lemma list_eqb_combine {X} {RO : RingOps X} (a b : list X) : length a = length b -> list_eqb a b = forallb (fun uv => reqb (fst uv) (snd uv)) (combine a b).
Proof. revert b. induction a as [|x a IH]; intros [|y b] E; cbn in *; try discriminate; [reflexivity|]. f_equal. apply IH. congruence. Qed.
Lemma flat_len p (l : list (mat C)) : Forall (fun m => m_nr m = p /\ m_nc m = p /\ m_ok m) l -> length (flat_map m_data l) = length l * (p * p).
Proof. induction 1 as [|M l (E1 & E2 & E3) _ IH]; [reflexivity|]. cbn [flat_map length]. rewrite app_length, IH. unfold m_ok in E3. rewrite E3, E1, E2. reflexivity. Qed.
Lemma fr_eq_thm sg (a b : fftrepr F) : repr_shape sg a -> repr_shape sg b ->
  (fr_eqb a b = true <-> forall w i j, w < mats_of sg -> i < side_of sg -> j < side_of sg -> a3_get a w i j = a3_get b w i j).
Proof.
  intros Ha Hb. destruct (shape_ok sg a Ha) as [E1 E2]. destruct (shape_ok sg b Hb) as [E3 E4].
  unfold fr_eqb, a3_eqb. assert (SD : same_dim a b = true).
  { unfold same_dim. destruct Ha as (_ & Ha), Hb as (_ & Hb). unfold fr_shape, a3_dim in Ha, Hb. injection Ha as A1 A2 A3. injection Hb as B1 B2 B3. rewrite A1, A2, A3, B1, B2, B3, !Nat.eqb_refl. reflexivity. }
  rewrite SD. cbn [andb]. rewrite list_eqb_combine by (rewrite !(flat_len (side_of sg)) by auto; congruence).
  rewrite (mats_combine _ (side_of sg)) by (auto; congruence). cbn [fst snd]. rewrite E1. split; intros H w.
  - intros i j Hw Hi Hj. rewrite !(get_at sg) by auto. f_equal. apply reqb_spec. apply H; auto.
  - intros Hw i j Hi Hj. specialize (H w i j Hw Hi Hj). rewrite !(get_at sg) in H by auto. apply reqb_spec. congruence.
Qed.
End Cmp.

(** ** Index iterators *)
Lemma index_iter_thm {m : Mode} sg A : declared sg A ->
  exists l, index_iter A = Ok l /\ StronglySorted N.lt l /\ forall x, In x l <-> (x < 2 ^ N.of_nat (a_dim A))%N.
Proof.
  intros D. pose proof (ok_dim A (declared_ok sg A D)) as Hd. unfold index_iter. rewrite shl_1 by lia. cbn [bind]. eexists. split; [reflexivity|]. split.
  - generalize (N.to_nat (pow2 (a_dim A))) as n. intros n. generalize 0 as s. induction n as [|n IH]; intros s; cbn [seq map]; constructor; auto.
    rewrite Forall_map, Forall_forall. intros y Hy. apply in_seq in Hy. lia.
  - intros x. rewrite in_map_iff. split.
    + intros (n & <- & Hn). apply in_seq in Hn. unfold pow2 in Hn. lia.
    + intros Hx. exists (N.to_nat x). rewrite N2Nat.id. split; auto. apply in_seq. unfold pow2. lia.
Qed.
Lemma grade_index_iter_thm {m : Mode} sg A k : declared sg A ->
  exists l, grade_index_iter A k = Ok l /\ StronglySorted (fun x y => (y < x)%N) l /\
    forall x, In x l <-> (x < 2 ^ N.of_nat (a_dim A))%N /\ length (gens (a_dim A) x) = k.
Proof.
  intros D. pose proof (ok_dim A (declared_ok sg A D)) as Hd. destruct (P_Props1.grade_thm (a_dim A) k) as (l & E & H1 & H2 & _); [lia|].
  exists l. auto.
Qed.
