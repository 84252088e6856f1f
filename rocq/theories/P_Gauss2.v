(** The Gauss inverse of src/fftrepr/matrix.rs is complete for matrices of side at most 2. *)
From Verif Require Export P_Gauss.
Local Open Scope nat_scope.

Section Gauss2.
Context {T R : Type} {RO : RingOps T} {L : RingLaws T} {DV : DivOps T} {FL : FieldLaws T} {NC : NormCmp T R} {NZ : NormZero T R} {NL : NormLaws T R}.
Local Open Scope rg_scope.
Variable n : nat.
Local Notation w2 := (2 * n)%nat.

(** The left half kills no non-zero vector. *)
Definition rind (W : nat -> nat -> T) : Prop :=
  forall v, (forall r, (r < n)%nat -> sumn n (fun c => W r c * v c) = 0) -> forall c, (c < n)%nat -> v c = 0.
Lemma rind_ext W W' : rind W -> (forall r c, (r < n)%nat -> (c < n)%nat -> W r c = W' r c) -> rind W'.
Proof. intros H E v Hv. apply H. intros r Hr. rewrite <- (Hv r Hr). apply sumn_ext. intros c Hc. rewrite E; auto. Qed.
Lemma rind_swap W i p : (i < n)%nat -> (p < n)%nat -> rind W -> rind (swaprow W i p).
Proof.
  intros Hi Hp H v Hv. apply H. intros r Hr. unfold swaprow in Hv. destruct (Nat.eq_dec r i) as [->|].
  - specialize (Hv p Hp). rewrite Nat.eqb_refl in Hv. destruct (Nat.eqb_spec p i) as [->|]; exact Hv.
  - destruct (Nat.eq_dec r p) as [->|]; [specialize (Hv i Hi); rewrite Nat.eqb_refl in Hv; exact Hv|].
    specialize (Hv r Hr). destruct (Nat.eqb_spec r i); [congruence|]. destruct (Nat.eqb_spec r p); [congruence|]. exact Hv.
Qed.
Lemma rind_scale W i k : k <> 0 -> rind W -> rind (setrow W i (fun c => 1 / k * W i c)).
Proof.
  intros Hk H v Hv. apply H. intros r Hr. specialize (Hv r Hr). unfold setrow in Hv. destruct (Nat.eqb_spec r i) as [Er|]; [|exact Hv]. subst r.
  assert (E : 1 / k * sumn n (fun c => W i c * v c) = 0) by (rewrite sumn_mul_l, <- Hv; apply sumn_ext; intros; apply mul_assoc).
  rewrite <- (mul_1_l (sumn n _)), <- (inv_r k Hk), <- mul_assoc, E. apply mul_0_r.
Qed.
Lemma rind_add W i j q : (i < n)%nat -> i <> j -> rind W -> rind (setrow W j (fun c => W j c - q * W i c)).
Proof.
  intros Hi Hne H v Hv. assert (Z : sumn n (fun c => W i c * v c) = 0).
  { rewrite <- (Hv i Hi). unfold setrow. destruct (Nat.eqb_spec i j); [congruence|]. reflexivity. }
  apply H. intros r Hr. specialize (Hv r Hr). unfold setrow in Hv. destruct (Nat.eqb_spec r j) as [Er|]; [|exact Hv]. subst r.
  transitivity (sumn n (fun c => (W j c - q * W i c) * v c) + q * sumn n (fun c => W i c * v c)); [|rewrite Hv, Z, mul_0_r; apply add_0_r].
  rewrite sumn_mul_l. unfold sumn. rewrite <- suml_add. apply suml_ext. intros c _. rewrite sub_def. dist. rewrite mul_assoc. abel.
Qed.

Lemma upper_full M W i : mis n w2 M W -> rind W -> tri n i W -> (i < n)%nat ->
  exists o, upper_step n M i = Ok o /\
    match o with
    | Some M' => exists W', mis n w2 M' W' /\ rind W' /\ tri n (S i) W' /\ forall j, (i < j < n)%nat -> W' j j <> 0
    | None => (forall r, (i <= r < n)%nat -> W r i = 0) \/
        exists W' j, rind W' /\ (i < j < n)%nat /\ W' j j = 0 /\ W' i i = 1 /\ (forall r c, (i <= r < n)%nat -> (c < i)%nat -> W' r c = 0) /\ forall r, (i < r <= j)%nat -> W' r i = 0
    end.
Proof.
  intros HM HG (T1 & T2) Hi. unfold upper_step. destruct (find_pivot_ok n M W i HM Hi) as (p & -> & Hp & Hpz). cbn [bind].
  destruct (n_is0 (nrm (W p i))) eqn:E0; [eexists; split; [reflexivity|]; left; apply Hpz; auto|]. clear Hpz.
  assert (Hk : W p i <> 0) by (intros Z; rewrite Z, nrm_0 in E0; discriminate).
  destruct (swap_loop n M W i p HM Hi) as (M1 & E1 & H1); [lia|]. rewrite E1. cbn [bind]. rewrite (mis_get _ _ _ _ i i H1) by lia. cbn [bind].
  set (W1 := swaprow W i p) in *. assert (G1 : rind W1) by (apply rind_swap; auto; lia).
  assert (Hpiv : W1 i i = W p i) by (unfold W1, swaprow; rewrite Nat.eqb_refl; auto). rewrite Hpiv.
  assert (Z1 : forall r c, (i <= r < n)%nat -> (c < i)%nat -> W1 r c = 0).
  { intros r c Hr Hc. unfold W1, swaprow. destruct (Nat.eqb_spec r i); [apply T1; lia|]. destruct (Nat.eqb_spec r p); apply T1; lia. }
  assert (U1 : forall r c, (r < i)%nat -> W1 r c = W r c).
  { intros r c Hr. unfold W1, swaprow. destruct (Nat.eqb_spec r i); [lia|]. destruct (Nat.eqb_spec r p); auto; lia. }
  destruct (norm_loop n M1 W1 i (W p i) H1 Hi) as (M2 & E2 & H2); [intros c Hc; apply Z1; lia|]. rewrite E2. cbn [bind].
  set (W2 := setrow W1 i (fun c => 1 / W p i * W1 i c)) in *. assert (G2 : rind W2) by (apply rind_scale; auto).
  assert (P2 : W2 i i = 1) by (unfold W2, setrow; rewrite Nat.eqb_refl, Hpiv; apply inv_l; auto).
  assert (Z2 : forall r c, (i <= r < n)%nat -> (c < i)%nat -> W2 r c = 0).
  { intros r c Hr Hc. unfold W2, setrow. destruct (Nat.eqb_spec r i); [rewrite Z1, mul_0_r by lia|apply Z1]; auto. }
  assert (U2 : forall r c, (r < i)%nat -> W2 r c = W r c).
  { intros r c Hr. unfold W2, setrow. destruct (Nat.eqb_spec r i); [lia|]. auto. }
  set (Inv := fun k W' => rind W' /\ W' i i = 1 /\ (forall r c, (i <= r < n)%nat -> (c < i)%nat -> W' r c = 0) /\
      (forall r c, (r < i)%nat -> W' r c = W r c) /\ forall r, (i < r < i + 1 + k)%nat -> W' r i = 0).
  destruct (foldM_range (fun k o => match o with
      | Some M' => exists W', mis n w2 M' W' /\ Inv k W' /\ forall j, (i < j < i + 1 + k)%nat -> W' j j <> 0
      | None => exists W' j, Inv (j - i)%nat W' /\ (i < j < n)%nat /\ W' j j = 0 end)
    (fun o a => match o with None => Ok None | Some s => eliminate n i s a end) (i + 1) (n - (i + 1)) (Some M2)) as (o & E & Ho).
  - exists W2. split; auto. split; [unfold Inv; split; auto; split; auto; split; auto; split; auto; intros r Hr; lia|]. intros j Hj. lia.
  - intros k o Hk' Ho. destruct o as [M'|]; [|exists None; split; auto]. destruct Ho as (W' & HM' & (HG' & P' & Z' & U' & C') & N').
    destruct (eliminate_ok n M' W' i (i + 1 + k) HM' Hi) as (M'' & H'' & E''); [lia|lia|intros c Hc; apply Z'; lia|].
    eexists. split; [exact E''|]. cbn zeta in *. set (W'' := setrow W' (i + 1 + k) (fun c => W' (i + 1 + k)%nat c - W' (i + 1 + k)%nat i * W' i c)) in *.
    assert (I' : Inv (Datatypes.S k) W'').
    { split; [apply rind_add; auto; lia|]. unfold W'', setrow. repeat split.
      + destruct (Nat.eqb_spec i (i + 1 + k)); [lia|auto].
      + intros r c Hr Hc. destruct (Nat.eqb_spec r (i + 1 + k)); [|apply Z'; auto]. rewrite (Z' i c), (Z' (i + 1 + k)%nat c), mul_0_r, sub_def, neg_0 by lia. apply add_0_r.
      + intros r c Hr. destruct (Nat.eqb_spec r (i + 1 + k)); [lia|auto].
      + intros r Hr. destruct (Nat.eqb_spec r (i + 1 + k)) as [->|]; [rewrite P', mul_1_r, sub_def; apply add_neg_r|apply C'; lia]. }
    destruct (ris0 (W'' (i + 1 + k)%nat (i + 1 + k)%nat)) eqn:Ez.
    + exists W'', (i + 1 + k)%nat. split; [replace (i + 1 + k - i)%nat with (Datatypes.S k) by lia; exact I'|]. split; [lia|]. apply is0_spec. exact Ez.
    + exists W''. split; auto. split; auto. intros j Hj. destruct (Nat.eq_dec j (i + 1 + k)) as [->|]; [apply is0_false; exact Ez|].
      unfold W'', setrow. destruct (Nat.eqb_spec j (i + 1 + k)); [congruence|]. apply N'. lia.
  - exists o. split; [exact E|]. destruct o as [M'|].
    + destruct Ho as (W' & HM' & (HG' & P' & Z' & U' & C') & N'). exists W'. split; auto. split; auto. split.
      * split.
        -- intros r c Hr Hc Hcr. destruct (Nat.eq_dec c i) as [->|]; [apply C'; lia|]. destruct (Nat.lt_ge_cases r i); [rewrite U' by auto; apply T1; lia|apply Z'; lia].
        -- intros r Hr. destruct (Nat.eq_dec r i) as [->|]; auto. rewrite U' by lia. apply T2. lia.
      * intros j Hj. apply N'. lia.
    + destruct Ho as (W' & j & (HG' & P' & Z' & U' & C') & Hj & Hz). right. exists W', j. split; auto. split; auto. split; auto. split; auto. split; auto. intros r Hr. apply C'. lia.
Qed.
End Gauss2.

Section Complete.
Context {T R : Type} {RO : RingOps T} {L : RingLaws T} {DV : DivOps T} {FL : FieldLaws T} {NC : NormCmp T R} {NZ : NormZero T R} {NL : NormLaws T R}.
Local Open Scope rg_scope.
(** With side at most 2 only singular matrices are refused. *)
Theorem matrix_inv_complete n M A B : (n <= 2)%nat -> mis n n M A -> eqn n (mm n B A) delta -> exists M', matrix_inv M = Ok (Some M').
Proof.
  intros Hn HM HB. pose proof HM as (Hr & Hc & _ & HA). unfold matrix_inv. rewrite Hr, Hc, Nat.eqb_refl. cbn [negb].
  pose proof (mis_build (T := T) n (2 * n) (fun i j => if Nat.ltb j n then m_at M i j else 0)) as H0.
  destruct (foldM_range (fun k M' => exists W, mis n (2 * n) M' W /\ forall i j, (i < n)%nat -> (j < n)%nat -> W i j = A i j)
    (fun w i => m_set w i (n + i) 1) 0 n (m_build n (2 * n) (fun i j => if Nat.ltb j n then m_at M i j else 0))) as (M1 & E1 & W0 & HW0 & EW0).
  - eexists. split; [exact H0|]. intros i j Hi Hj. cbn beta. destruct (Nat.ltb_spec j n); auto. lia.
  - intros k M' Hk (W & HM' & HW). cbn [Nat.add]. destruct (mis_set _ _ _ _ k (n + k) 1 HM') as (M'' & -> & H''); [lia|lia|]. exists M''. split; auto. eexists. split; [exact H''|].
    intros i j Hi Hj. cbn beta. destruct (Nat.eqb_spec j (n + k)); [lia|]. rewrite andb_false_r. auto.
  - rewrite E1. cbn [bind].
    assert (HI : rind n W0).
    { intros v Hv c Hc'. assert (E : sumn n (fun k => B c k * sumn n (fun l => W0 k l * v l)) = 0).
      { transitivity (sumn n (fun _ => (0 : T))); [apply sumn_ext; intros k Hk; rewrite Hv by auto; apply mul_0_r|]. apply suml_0. auto. }
      rewrite <- E. transitivity (sumn n (fun l => mm n B A c l * v l)).
      - rewrite (sumn_del n _ c Hc'); [rewrite HB by auto; unfold delta; rewrite Nat.eqb_refl; symmetry; apply mul_1_l|]. intros k Hk Hne. rewrite HB by auto. unfold delta. destruct (Nat.eqb_spec c k); [congruence|]. apply mul_0_l.
      - unfold mm. transitivity (sumn n (fun l => sumn n (fun k => B c k * A k l * v l))); [apply sumn_ext; intros; apply sumn_mul_r|]. rewrite sumn_swap. apply sumn_ext. intros k Hk. rewrite sumn_mul_l. apply sumn_ext. intros l Hl. rewrite EW0 by auto. symmetry. apply mul_assoc. }
    assert (U : exists M2, foldMO (upper_step n) (seq 0 n) M1 = Ok (Some M2) /\ exists W, mis n (2 * n) M2 W /\ tri n n W).
    { destruct n as [|[|[|n]]]; try lia.
      - cbn [seq foldMO foldM]. exists M1. split; auto. exists W0. split; auto. split; intros; lia.
      - destruct (upper_full 1 M1 W0 0 HW0 HI) as (o & E & Ho); [split; intros; lia|lia|]. unfold foldMO. cbn [seq foldM]. rewrite E. cbn [bind]. destruct o as [M2|].
        + destruct Ho as (W & HW & _ & HT & _). exists M2. split; auto. exists W. auto.
        + exfalso. destruct Ho as [Hz|(W' & j & _ & Hj & _)]; [|lia]. apply (one_neq_zero (T := T)). refine (HI (fun _ => 1) _ 0%nat _); [|lia]. intros r Hr'. assert (r = 0%nat) as -> by lia. cbn. rewrite Hz, mul_0_l by lia. apply add_0_l.
      - destruct (upper_full 2 M1 W0 0 HW0 HI) as (o & E & Ho); [split; intros; lia|lia|]. unfold foldMO. cbn [seq foldM]. rewrite E. cbn [bind]. destruct o as [M2|].
        + destruct Ho as (W & HW & HIW & HT & Hnz). destruct (upper_full 2 M2 W 1 HW HIW HT) as (o & E' & Ho); [lia|]. rewrite E'. cbn [bind]. destruct o as [M3|].
          * destruct Ho as (W3 & HW3 & _ & HT3 & _). exists M3. split; auto. exists W3. auto.
          * exfalso. destruct Ho as [Hz|(W' & j & _ & Hj & _)]; [|lia]. apply (Hnz 1%nat); [lia|]. apply Hz. lia.
        + exfalso. apply (one_neq_zero (T := T)). destruct Ho as [Hz|(W' & j & HI' & Hj & Hz & Hp & _ & Hc')].
          * refine (HI (fun c => if Nat.eqb c 0 then 1 else 0) _ 0%nat _); [|lia].
            intros r Hr'. cbn. rewrite Hz, mul_0_l, mul_0_r by lia. rewrite !add_0_r. reflexivity.
          * assert (j = 1%nat) as -> by lia. refine (HI' (fun c => if Nat.eqb c 0 then - W' 0%nat 1%nat else 1) _ 1%nat _); [|lia].
            intros r Hr'. cbn. destruct r as [|[|r]]; [|rewrite Hz, (Hc' 1%nat), !mul_0_l by lia; rewrite !add_0_r; reflexivity|lia].
            rewrite Hp, mul_1_l, mul_1_r, add_0_r. apply add_neg_l. }
    destruct U as (M2 & E2 & W & HW & HT). rewrite E2. cbn [bind].
    destruct (foldM_down (fun i M' => exists W, mis n (2 * n) M' W /\ tri n n W)
      (fun w i => foldM (fun w j => clear_above n w i j) (rev (seq 0 i)) w) n M2) as (M3 & E3 & _).
    + exists W. auto.
    + intros i M' Hi (W' & HM' & HT'). destruct (foldM_down (fun i M' => exists W, mis n (2 * n) M' W /\ tri n n W) (fun w j => clear_above n w i j) i M') as (M4 & E4 & HW4).
      * exists W'. auto.
      * intros j M4 Hj (W4 & HM4 & T1 & T2). destruct (clear_ok n M4 W4 i j HM4 Hi Hj) as (M'' & E'' & H''); [apply T2; auto|intros c Hc'; apply T1; lia|].
        exists M''. split; auto. eexists. split; [exact H''|]. unfold setrow. split.
        -- intros r c Hr' Hc' Hcr. destruct (Nat.eqb_spec r j) as [->|]; [|apply T1; auto]. rewrite (T1 j c), (T1 i c), mul_0_r, sub_def, neg_0 by lia. apply add_0_r.
        -- intros r Hr'. destruct (Nat.eqb_spec r j) as [->|]; [|apply T2; auto]. rewrite (T1 i j), mul_0_r, sub_def, neg_0, add_0_r by lia. apply T2; lia.
      * exists M4. auto.
    + rewrite E3. cbn [bind]. eexists. reflexivity.
Qed.
End Complete.
