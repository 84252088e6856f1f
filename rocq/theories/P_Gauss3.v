(** The Gauss inverse of src/fftrepr/matrix.rs succeeds on matrices whose diagonal dominates the columns. *)
From Verif Require Export P_Gauss2 RingQc.
From Verif Require Import P_Round3 P_RWedge.
Local Open Scope nat_scope.

(** Sums of rational numbers. *)
Section QSum.
Local Open Scope Qc_scope.
Definition qsum (n : nat) (f : nat -> Qc) : Qc := sumn n f.
Lemma qsum_ext n f g : (forall k, (k < n)%nat -> f k = g k) -> qsum n f = qsum n g.
Proof. apply sumn_ext. Qed.
Lemma qsum_le_n n f g : (forall k, (k < n)%nat -> f k <= g k) -> qsum n f <= qsum n g.
Proof. intros H. apply qsum_le. intros k Hk. apply in_seq in Hk. apply H. lia. Qed.
Lemma qsum_pos n f : (forall k, (k < n)%nat -> 0 <= f k) -> 0 <= qsum n f.
Proof.
  intros H. assert (E : qsum n (fun _ => 0) = 0) by (exact (suml_0 (T := Qc) (fun _ : nat => r0) (seq 0 n) (fun _ _ => eq_refl))). rewrite <- E. apply qsum_le_n; auto.
Qed.
Lemma qsum_at n f i : (i < n)%nat -> qsum n f = f i + qsum n (fun k => if Nat.eqb k i then 0 else f k).
Proof. intros Hi. exact (sumn_at (T := Qc) n f i Hi). Qed.
Lemma qsum_term n f i : (forall k, (k < n)%nat -> 0 <= f k) -> (i < n)%nat -> f i <= qsum n f.
Proof.
  intros H Hi. rewrite (qsum_at n f i Hi). assert (0 <= qsum n (fun k => if Nat.eqb k i then 0 else f k)).
  { apply qsum_pos. intros k Hk. destruct (Nat.eqb k i); [apply Qcle_refl|auto]. } qlra.
Qed.
Lemma qsum_mul n c f : c * qsum n f = qsum n (fun k => c * f k).
Proof. exact (sumn_mul_l (T := Qc) n c f). Qed.
Lemma qsum_add n f g : qsum n f + qsum n g = qsum n (fun k => f k + g k).
Proof. exact (eq_sym (suml_add (T := Qc) f g (seq 0 n))). Qed.
End QSum.

Section Dom.
Context {T R : Type} {RO : RingOps T} {L : RingLaws T} {DV : DivOps T} {FL : FieldLaws T} {NC : NormCmp T R} {NZ : NormZero T R} {NL : NormLaws T R}.
Local Open Scope Qc_scope.
Variable sz : T -> Qc.
Hypothesis sz_pos : forall a, 0 <= sz a.
Hypothesis sz_1 : sz r1 = 1.
Hypothesis sz_add : forall a b, sz (radd a b) <= sz a + sz b.
Hypothesis sz_neg : forall a, sz (rneg a) = sz a.
Hypothesis sz_mul : forall a b, sz (rmul a b) <= sz a * sz b.
Hypothesis sz_gt : forall x y, y <> r0 -> sz (rmul x (rdiv r1 y)) < 1 -> n_gt (nrm x) (nrm y) = false.

Lemma sz_sub a b : sz (rsub a b) <= sz a + sz b.
Proof. rewrite sub_def. rewrite <- (sz_neg b). apply sz_add. Qed.
Lemma one_minus (t : T) : sz t < 1 -> rsub r1 t <> r0 /\ sz (rdiv r1 (rsub r1 t)) * (1 - sz t) <= 1.
Proof.
  intros Ht. assert (H : rsub r1 t <> r0).
  { intros E. assert (E' : t = r1) by (rewrite <- (add_0_l t), <- E, sub_def; abel). rewrite E', sz_1 in Ht. revert Ht. apply Qcle_not_lt, Qcle_refl. }
  split; [exact H|]. set (v := rdiv r1 (rsub r1 t)). pose proof (div_mul r1 (rsub r1 t) H) as E. fold v in E.
  assert (E' : v = radd r1 (rmul v t)) by (rewrite <- E at 1; rewrite sub_def, mul_add_r, mul_1_r, mul_neg_r; abel).
  assert (B : sz v <= 1 + sz v * sz t).
  { rewrite E' at 1. pose proof (sz_add r1 (rmul v t)). pose proof (sz_mul v t). rewrite sz_1 in *. qlra. }
  replace (sz v * (1 - sz t)) with (sz v - sz v * sz t) by ring. qlra.
Qed.
Lemma inv_mul a b : a <> r0 -> b <> r0 -> rdiv r1 (rmul a b) = rmul (rdiv r1 b) (rdiv r1 a).
Proof.
  intros Ha Hb. assert (Hab : rmul a b <> r0).
  { intros E. apply Ha. rewrite <- (mul_1_r a), <- (inv_r b Hb), mul_assoc, E. apply mul_0_l. }
  assert (E : rmul (rmul a b) (rmul (rdiv r1 b) (rdiv r1 a)) = r1).
  { rewrite <- mul_assoc, (mul_assoc b), (inv_r b Hb), mul_1_l. apply inv_r. exact Ha. }
  transitivity (rmul (rdiv r1 (rmul a b)) (rmul (rmul a b) (rmul (rdiv r1 b) (rdiv r1 a)))); [rewrite E, mul_1_r; reflexivity|].
  rewrite mul_assoc, (inv_l _ Hab). apply mul_1_l.
Qed.
Lemma mul_nz a b : a <> r0 -> b <> r0 -> rmul a b <> r0.
Proof. intros Ha Hb E. apply Ha. rewrite <- (mul_1_r a), <- (inv_r b Hb), mul_assoc, E. apply mul_0_l. Qed.

Variable n : nat.
Local Notation w2 := (2 * n)%nat.
Definition ratio (W : nat -> nat -> T) (r k : nat) : Qc := sz (rmul (W r k) (rdiv r1 (W k k))).
Definition csum (W : nat -> nat -> T) (i k : nat) : Qc := qsum n (fun r => if (Nat.leb i r && negb (Nat.eqb r k))%bool then ratio W r k else 0).
Definition cdom (i : nat) (W : nat -> nat -> T) : Prop := forall k, (i <= k < n)%nat -> W k k <> r0 /\ csum W i k < 1.

Lemma csum_split W i k : (i < k < n)%nat ->
  csum W i k = ratio W i k + csum W (S i) k /\
  csum W i i = ratio W k i + qsum n (fun r => if (Nat.leb (S i) r && negb (Nat.eqb r k))%bool then ratio W r i else 0).
Proof.
  intros Hk. split; unfold csum.
  - rewrite (qsum_at n _ i) by lia. rewrite Nat.leb_refl. destruct (Nat.eqb_spec i k); [lia|]. cbn [andb negb]. f_equal. apply qsum_ext. intros r Hr.
    destruct (Nat.eqb_spec r i) as [->|].
    + destruct (Nat.leb_spec (S i) i); [lia|]. reflexivity.
    + destruct (Nat.leb_spec i r), (Nat.leb_spec (S i) r); try lia; reflexivity.
  - rewrite (qsum_at n _ k) by lia. destruct (Nat.leb_spec i k); [|lia]. destruct (Nat.eqb_spec k i); [lia|]. cbn [andb negb]. f_equal. apply qsum_ext. intros r Hr.
    destruct (Nat.eqb_spec r k) as [->|]; [rewrite Bool.andb_false_r; reflexivity|]. cbn [negb]. rewrite Bool.andb_true_r.
    destruct (Nat.leb_spec i r), (Nat.leb_spec (S i) r), (Nat.eqb_spec r i); cbn [andb negb]; auto; lia.
Qed.
Lemma ratio_term W i r k : (i <= r < n)%nat -> r <> k -> ratio W r k <= csum W i k.
Proof.
  intros Hr Hne. unfold csum.
  assert (E : ratio W r k = (fun r => if (Nat.leb i r && negb (Nat.eqb r k))%bool then ratio W r k else 0) r).
  { cbn beta. destruct (Nat.leb_spec i r); [|lia]. destruct (Nat.eqb_spec r k); [congruence|]. reflexivity. }
  rewrite E. refine (qsum_term n (fun r => if (Nat.leb i r && negb (Nat.eqb r k))%bool then ratio W r k else 0) r _ _); [|lia]. intros j Hj. cbn beta. destruct (_ && _)%bool; [apply sz_pos|apply Qcle_refl].
Qed.

(** One step of elimination keeps the dominance. *)
Definition schur (W : nat -> nat -> T) (i r c : nat) : T := rsub (W r c) (rmul (W r i) (rmul (rdiv r1 (W i i)) (W i c))).
Lemma schur_dom W V i : (i < n)%nat -> cdom i W -> (forall r c, (i < r < n)%nat -> (i < c < n)%nat -> V r c = schur W i r c) -> cdom (S i) V.
Proof.
  intros Hi HW HV k Hk. destruct (HW i) as (Ni & Di); [lia|]. destruct (HW k) as (Nk & Dk); [lia|].
  set (u r c := rmul (W r c) (rdiv r1 (W c c))).
  assert (ES : forall r, (i < r < n)%nat -> V r k = rmul (rsub (u r k) (rmul (u r i) (u i k))) (W k k)).
  { intros r Hr. rewrite HV by lia. unfold schur, u. rewrite !sub_def, mul_add_l, mul_neg_l. rewrite <- !mul_assoc, !(inv_l (W k k) Nk), !mul_1_r. reflexivity. }
  set (t := rmul (u k i) (u i k)).
  assert (Ek : V k k = rmul (rsub r1 t) (W k k)).
  { rewrite ES by lia. unfold t. replace (u k k) with (r1 : T); [reflexivity|]. unfold u. symmetry. apply inv_r. exact Nk. }
  pose proof (ratio_term W i k i ltac:(lia) ltac:(lia)) as Rki. pose proof (ratio_term W i i k ltac:(lia) ltac:(lia)) as Rik.
  assert (Hki : ratio W k i < 1) by (eapply Qcle_lt_trans; eauto). assert (Hik : ratio W i k < 1) by (eapply Qcle_lt_trans; eauto).
  assert (Pki : 0 <= ratio W k i) by apply sz_pos. assert (Pik : 0 <= ratio W i k) by apply sz_pos.
  assert (Ht1 : sz t <= ratio W k i * ratio W i k) by apply sz_mul.
  assert (Ht : sz t < 1).
  { eapply Qcle_lt_trans; [exact Ht1|]. eapply Qcle_lt_trans; [apply (qmul_le _ 1); [exact Pki|apply Qclt_le_weak; exact Hik]|]. rewrite Qcmult_1_r. exact Hki. }
  destruct (one_minus t Ht) as (Nt & Bv). set (v := rdiv r1 (rsub r1 t)) in *.
  split; [rewrite Ek; apply mul_nz; auto|].
  assert (ER : forall r, (i < r < n)%nat -> ratio V r k <= sz v * (ratio W r k + ratio W i k * ratio W r i)).
  { intros r Hr. unfold ratio at 1. rewrite Ek, (inv_mul _ _ Nt Nk), (ES r Hr). fold v.
    rewrite mul_assoc. rewrite <- (mul_assoc _ (W k k) (rdiv r1 (W k k))), (inv_r _ Nk), mul_1_r.
    eapply Qcle_trans; [apply sz_mul|]. rewrite Qcmult_comm. apply qmul_le; [apply sz_pos|].
    eapply Qcle_trans; [apply sz_sub|]. rewrite (Qcmult_comm (ratio W i k)). apply Qcplus_le_compat; [apply Qcle_refl|apply sz_mul]. }
  set (P := qsum n (fun r => if (Nat.leb (S i) r && negb (Nat.eqb r k))%bool then ratio W r i else 0)).
  assert (B : csum V (S i) k <= sz v * (csum W (S i) k + ratio W i k * P)).
  { unfold csum, P. rewrite (qsum_mul n (ratio W i k)), qsum_add, qsum_mul. apply qsum_le_n. intros r Hr.
    destruct (Nat.leb_spec (S i) r); cbn [andb]; [destruct (negb (Nat.eqb r k))|].
    - apply ER. lia.
    - rewrite Qcmult_0_r, Qcplus_0_r, Qcmult_0_r. apply Qcle_refl.
    - rewrite Qcmult_0_r, Qcplus_0_r, Qcmult_0_r. apply Qcle_refl. }
  destruct (csum_split W i k ltac:(lia)) as (S1 & S2). fold P in S2. rewrite S1 in Dk. rewrite S2 in Di.
  assert (X1 : csum W (S i) k + ratio W i k * P < 1 - sz t).
  { assert (ratio W i k * (ratio W k i + P) <= ratio W i k * 1) by (apply qmul_le; [exact Pik|apply Qclt_le_weak; exact Di]).
    replace (ratio W i k * (ratio W k i + P)) with (ratio W k i * ratio W i k + ratio W i k * P) in * by ring. rewrite Qcmult_1_r in *. qlra. }
  eapply Qcle_lt_trans; [exact B|]. pose proof (sz_pos v) as Pv. destruct (Qcle_lt_or_eq _ _ Pv) as [Lv|Ev].
  - eapply Qclt_le_trans; [|exact Bv]. rewrite !(Qcmult_comm (sz v)). apply Qcmult_lt_compat_r; assumption.
  - rewrite <- Ev, Qcmult_0_l. reflexivity.
Qed.
(** PIV *)
Lemma find_pivot_dom M W i : mis n w2 M W -> (i < n)%nat -> cdom i W -> find_pivot n M i = Ok (nrm (W i i), i).
Proof.
  intros HM Hi HW. destruct (HW i) as (Ni & Di); [lia|]. unfold find_pivot. rewrite (mis_get _ _ _ _ i i HM) by lia. cbn [bind].
  match goal with |- foldM ?b _ ?st = _ => destruct (foldM_range (fun _ st' => st' = st) b (i + 1) (n - (i + 1)) st) as (st' & E & ->) end; [reflexivity| |exact E].
  intros k st' Hk ->. eexists. split; [|reflexivity]. rewrite (mis_get _ _ _ _ (i + 1 + k) i HM) by lia. cbn [bind fst].
  rewrite sz_gt; auto. eapply Qcle_lt_trans; [apply (ratio_term W i (i + 1 + k) i); lia|exact Di].
Qed.
Lemma upper_dom M W i : mis n w2 M W -> tri n i W -> cdom i W -> (i < n)%nat ->
  exists M', upper_step n M i = Ok (Some M') /\ exists W', mis n w2 M' W' /\ tri n (S i) W' /\ cdom (S i) W'.
Proof.
  intros HM (T1 & T2) HD Hi. unfold upper_step. rewrite (find_pivot_dom M W i HM Hi HD). cbn [bind].
  destruct (HD i) as (Hk & _); [lia|].
  destruct (n_is0 (nrm (W i i))) eqn:E0; [apply nrm_is0 in E0; contradiction|].
  destruct (swap_loop n M W i i HM Hi Hi) as (M1 & E1 & H1). rewrite E1. cbn [bind]. rewrite (mis_get _ _ _ _ i i H1) by lia. cbn [bind].
  set (W1 := swaprow W i i) in *.
  assert (EW1 : forall r c, W1 r c = W r c) by (intros r c; unfold W1, swaprow; destruct (Nat.eqb_spec r i) as [->|]; auto).
  rewrite (EW1 i i).
  destruct (norm_loop n M1 W1 i (W i i) H1 Hi) as (M2 & E2 & H2); [intros c Hc; rewrite EW1; apply T1; lia|]. rewrite E2. cbn [bind].
  set (W2 := setrow W1 i (fun c => rmul (rdiv r1 (W i i)) (W1 i c))) in *.
  assert (R2 : forall c, W2 i c = rmul (rdiv r1 (W i i)) (W i c)) by (intros c; unfold W2, setrow; rewrite Nat.eqb_refl, EW1; reflexivity).
  assert (O2 : forall r c, r <> i -> W2 r c = W r c) by (intros r c Hr; unfold W2, setrow; destruct (Nat.eqb_spec r i); [congruence|apply EW1]).
  assert (P2 : W2 i i = r1) by (rewrite R2; apply inv_l; auto).
  set (Inv := fun k (W' : nat -> nat -> T) => (forall c, W' i c = W2 i c) /\ (forall r c, (r < i)%nat -> W' r c = W r c) /\
     (forall r c, (i < r < i + 1 + k)%nat -> W' r c = schur W i r c) /\ (forall r c, (i + 1 + k <= r)%nat -> W' r c = W r c)).
  assert (HS : cdom (S i) (schur W i)) by (apply (schur_dom W); auto).
  assert (ZS : forall r c, (i <= r < n)%nat -> (c < i)%nat -> schur W i r c = r0).
  { intros r c Hr Hc. unfold schur. rewrite (T1 r c), (T1 i c), !mul_0_r, sub_def, neg_0 by lia. apply add_0_r. }
  assert (ZI : forall r, (i < r)%nat -> schur W i r i = r0).
  { intros r Hr. unfold schur. rewrite (inv_l _ Hk), mul_1_r, sub_def. apply add_neg_r. }
  destruct (foldM_range (fun k o => exists M' W', o = Some M' /\ mis n w2 M' W' /\ Inv k W')
    (fun o a => match o with None => Ok None | Some s => eliminate n i s a end) (i + 1) (n - (i + 1)) (Some M2)) as (o & E & M' & W' & -> & HM' & I1 & I2 & I3 & I4).
  - exists M2, W2. split; auto. split; auto. split; auto. split; [intros; apply O2; lia|]. split; [intros; lia|]. intros; apply O2; lia.
  - intros k o Hk' (M' & W' & -> & HM' & I1 & I2 & I3 & I4).
    destruct (eliminate_ok n M' W' i (i + 1 + k) HM' Hi) as (M'' & H'' & E''); [lia|lia|intros c Hc; rewrite I1, R2, (T1 i c), mul_0_r by lia; reflexivity|].
    cbn zeta in *. set (W'' := setrow W' (i + 1 + k) (fun c => rsub (W' (i + 1 + k)%nat c) (rmul (W' (i + 1 + k)%nat i) (W' i c)))) in *.
    assert (EJ : forall c, W'' (i + 1 + k)%nat c = schur W i (i + 1 + k) c).
    { intros c. unfold W'', setrow. rewrite Nat.eqb_refl, !I4, I1, R2 by lia. reflexivity. }
    eexists. split; [exact E''|]. rewrite EJ.
    destruct (ris0 (schur W i (i + 1 + k) (i + 1 + k))) eqn:Ez; [apply is0_spec in Ez; destruct (HS (i + 1 + k)%nat) as (X & _); [lia|contradiction]|].
    exists M'', W''. split; auto. split; auto.
    assert (EO : forall r c, r <> (i + 1 + k)%nat -> W'' r c = W' r c) by (intros r c Hr; unfold W'', setrow; destruct (Nat.eqb_spec r (i + 1 + k)); [congruence|reflexivity]).
    split; [intros c; rewrite EO by lia; apply I1|]. split; [intros r c Hr; rewrite EO by lia; apply I2; lia|]. split.
    + intros r c Hr. destruct (Nat.eq_dec r (i + 1 + k)) as [->|]; [apply EJ|]. rewrite EO by lia. apply I3. lia.
    + intros r c Hr. rewrite EO by lia. apply I4. lia.
  - exists M'. split; [exact E|]. exists W'. split; auto. split; [split|].
    + intros r c Hr Hc Hcr. destruct (Nat.lt_trichotomy r i) as [Hl|[->|Hg]].
      * rewrite I2 by auto. apply T1; lia.
      * rewrite I1, R2, (T1 i c), mul_0_r by lia. reflexivity.
      * rewrite I3 by lia. destruct (Nat.eq_dec c i) as [->|]; [apply ZI; lia|apply ZS; lia].
    + intros r Hr. destruct (Nat.eq_dec r i) as [->|]; [rewrite I1; exact P2|]. rewrite I2 by lia. apply T2. lia.
    + apply (schur_dom W); auto. intros r c Hr Hc. apply I3. lia.
Qed.

(** A matrix whose diagonal dominates its columns is inverted. *)
Theorem matrix_inv_dom M A : mis n n M A -> cdom 0 A -> exists M', matrix_inv M = Ok (Some M').
Proof.
  intros HM HD. pose proof HM as (Hr & Hc & _ & HA). unfold matrix_inv. rewrite Hr, Hc, Nat.eqb_refl. cbn [negb].
  pose proof (mis_build (T := T) n (2 * n) (fun i j => if Nat.ltb j n then m_at M i j else r0)) as H0.
  destruct (foldM_range (fun k M' => exists W, mis n (2 * n) M' W /\ forall i j, (i < n)%nat -> (j < n)%nat -> W i j = A i j)
    (fun w i => m_set w i (n + i) r1) 0 n (m_build n (2 * n) (fun i j => if Nat.ltb j n then m_at M i j else r0))) as (M1 & E1 & W0 & HW0 & EW0).
  - eexists. split; [exact H0|]. intros i j Hi Hj. cbn beta. destruct (Nat.ltb_spec j n); auto. lia.
  - intros k M' Hk (W & HM' & HW). cbn [Nat.add]. destruct (mis_set _ _ _ _ k (n + k) r1 HM') as (M'' & -> & H''); [lia|lia|]. exists M''. split; auto. eexists. split; [exact H''|].
    intros i j Hi Hj. cbn beta. destruct (Nat.eqb_spec j (n + k)); [lia|]. rewrite andb_false_r. auto.
  - rewrite E1. cbn [bind].
    assert (HI : cdom 0 W0).
    { intros k Hk. destruct (HD k Hk) as (X & Y). split; [rewrite EW0 by lia; exact X|]. unfold csum, ratio in *. erewrite qsum_ext; [exact Y|].
      intros r Hr'. cbn beta. rewrite !EW0 by lia. reflexivity. }
    assert (U : exists M2, foldMO (upper_step n) (seq 0 n) M1 = Ok (Some M2) /\ exists W, mis n (2 * n) M2 W /\ tri n n W).
    { unfold foldMO.
      destruct (foldM_range (fun k o => exists M' W', o = Some M' /\ mis n w2 M' W' /\ tri n k W' /\ cdom k W')
        (fun o a => match o with None => Ok None | Some s => upper_step n s a end) 0 n (Some M1)) as (o & E & M' & W' & -> & HM' & HT & _).
      - exists M1, W0. split; auto. split; auto. split; [split; intros; lia|exact HI].
      - intros k o Hk (M' & W' & -> & HM' & HT & HD'). destruct (upper_dom M' W' k HM' HT HD' Hk) as (M'' & E & W'' & H''). cbn [Nat.add]. rewrite E. eexists. split; [reflexivity|]. exists M'', W''. auto.
      - exists M'. split; [exact E|]. exists W'. auto. }
    destruct U as (M2 & E2 & W & HW & HT). rewrite E2. cbn [bind].
    destruct (foldM_down (fun i M' => exists W, mis n (2 * n) M' W /\ tri n n W)
      (fun w i => foldM (fun w j => clear_above n w i j) (rev (seq 0 i)) w) n M2) as (M3 & E3 & _).
    + exists W. auto.
    + intros i M' Hi (W' & HM' & HT'). destruct (foldM_down (fun i M' => exists W, mis n (2 * n) M' W /\ tri n n W) (fun w j => clear_above n w i j) i M') as (M4 & E4 & HW4).
      * exists W'. auto.
      * intros j M4 Hj (W4 & HM4 & T1 & T2). destruct (clear_ok n M4 W4 i j HM4 Hi Hj) as (M'' & E'' & H''); [apply T2; auto|intros c Hc'; apply T1; lia|].
        exists M''. split; auto. eexists. split; [exact H''|]. unfold setrow. split.
        -- intros r c Hr' Hc' Hcr. destruct (Nat.eqb_spec r j) as [->|]; [|apply T1; auto]. rewrite (T1 j c), (T1 i c), mul_0_r, sub_def, neg_0 by lia. apply add_0_r.
        -- intros r Hr'. destruct (Nat.eqb_spec r j) as [->|]; [|apply T2; auto]. rewrite (T1 i j), mul_0_r, sub_def, neg_0, add_0_r by lia. apply T2; lia.
      * exists M4. auto.
    + rewrite E3. cbn [bind]. eexists. reflexivity.
Qed.

(** Dominance from the size of the difference to a multiple of the unit matrix. *)
Lemma cdom_near A s : s <> r0 -> (forall k, (k < n)%nat -> qsum n (fun r => sz (rmul (rsub (A r k) (if Nat.eqb r k then s else r0)) (rdiv r1 s))) < 1) -> cdom 0 A.
Proof.
  intros Hs H k (_ & Hk). specialize (H k Hk). rewrite (qsum_at n _ k Hk) in H. rewrite Nat.eqb_refl in H.
  set (d := rmul (rsub (A k k) s) (rdiv r1 s)) in *.
  set (Q := qsum n (fun r => if Nat.eqb r k then 0 else sz (rmul (rsub (A r k) (if Nat.eqb r k then s else r0)) (rdiv r1 s)))) in *.
  assert (HQ : 0 <= Q) by (apply qsum_pos; intros r Hr; destruct (Nat.eqb r k); [apply Qcle_refl|apply sz_pos]).
  assert (Hd : sz d < 1) by (clear - HQ H; qlra).
  assert (Ed : A k k = rmul (rsub r1 (rneg d)) s).
  { unfold d. rewrite !sub_def, neg_neg, mul_add_l, mul_1_l, <- mul_assoc, (inv_l s Hs), mul_1_r. abel. }
  destruct (one_minus (rneg d)) as (Nt & Bv); [rewrite sz_neg; exact Hd|]. rewrite sz_neg in Bv. set (v := rdiv r1 (rsub r1 (rneg d))) in *.
  split; [rewrite Ed; apply mul_nz; auto|].
  assert (B : csum A 0 k <= sz v * Q).
  { unfold csum, Q. rewrite qsum_mul. apply qsum_le_n. intros r Hr. cbn [Nat.leb andb]. destruct (Nat.eqb_spec r k); cbn [negb]; [rewrite Qcmult_0_r; apply Qcle_refl|].
    unfold ratio. rewrite Ed, (inv_mul _ _ Nt Hs). fold v. rewrite mul_assoc. eapply Qcle_trans; [apply sz_mul|]. rewrite Qcmult_comm. apply qmul_le; [apply sz_pos|].
    rewrite sub_def, neg_0, add_0_r. apply Qcle_refl. }
  assert (X1 : Q < 1 - sz d) by (clear - H; qlra).
  eapply Qcle_lt_trans; [exact B|]. pose proof (sz_pos v) as Pv. destruct (Qcle_lt_or_eq _ _ Pv) as [Lv|Ev].
  - eapply Qclt_le_trans; [|exact Bv]. rewrite !(Qcmult_comm (sz v)). apply Qcmult_lt_compat_r; assumption.
  - rewrite <- Ev, Qcmult_0_l. reflexivity.
Qed.
End Dom.
