(** The Gauss inverse of src/fftrepr/matrix.rs is sound: whatever it returns is a two-sided inverse. *)
From Verif Require Export Spec_Repr P_Mat P_Abel.
From Verif Require Import P_CliFFT.
Local Open Scope nat_scope.

Section Sums.
Context {T : Type} {RO : RingOps T} {L : RingLaws T}.
Local Open Scope rg_scope.
Definition sumn (n : nat) (f : nat -> T) : T := suml f (seq 0 n).
Lemma sumn_ext n f g : (forall k, (k < n)%nat -> f k = g k) -> sumn n f = sumn n g.
Proof. intros H. apply suml_ext. intros k Hk. apply in_seq in Hk. apply H. lia. Qed.
Lemma sumn_at n f i : (i < n)%nat -> sumn n f = f i + sumn n (fun k => if Nat.eqb k i then 0 else f k).
Proof.
  intros Hi. unfold sumn. transitivity (suml (fun k => (if Nat.eqb k i then f k else 0) + (if Nat.eqb k i then 0 else f k)) (seq 0 n)).
  - apply suml_ext. intros k _. destruct (Nat.eqb k i); [symmetry; apply add_0_r|symmetry; apply add_0_l].
  - rewrite suml_add. f_equal. rewrite (suml_single _ _ i); [rewrite Nat.eqb_refl; auto|apply seq_NoDup|apply in_seq; lia|]. intros y _ Hy. destruct (Nat.eqb_spec y i); [contradiction|auto].
Qed.
Lemma sumn_at2 n f i j : (i < n)%nat -> (j < n)%nat -> i <> j ->
  sumn n f = f i + (f j + sumn n (fun k => if Nat.eqb k j then 0 else if Nat.eqb k i then 0 else f k)).
Proof.
  intros Hi Hj Hne. rewrite (sumn_at n f i Hi). f_equal. rewrite (sumn_at n _ j Hj). destruct (Nat.eqb_spec j i); [congruence|]. reflexivity.
Qed.
Lemma sumn_del n f i : (i < n)%nat -> (forall k, (k < n)%nat -> k <> i -> f k = 0) -> sumn n f = f i.
Proof. intros Hi H. apply suml_single; [apply seq_NoDup|apply in_seq; lia|]. intros y Hy Hne. apply in_seq in Hy. apply H; auto. lia. Qed.
Lemma sumn_mul_l n c f : c * sumn n f = sumn n (fun k => c * f k).
Proof. apply suml_mul_l. Qed.
Lemma sumn_mul_r n c f : sumn n f * c = sumn n (fun k => f k * c).
Proof. apply suml_mul_r. Qed.
Lemma sumn_swap n m f : sumn n (fun x => sumn m (fun y => f x y)) = sumn m (fun y => sumn n (fun x => f x y)).
Proof. apply suml_swap. Qed.
Lemma sumn_sub n f g : sumn n (fun k => f k - g k) = sumn n f - sumn n g.
Proof. apply suml_sub. Qed.
End Sums.

(** Row loops of the model. *)
Section Loops.
Context {T : Type} {RO : RingOps T}.
Lemma foldM_range {X} (P : nat -> X -> Prop) (body : X -> nat -> res X) s c st :
  P 0 st -> (forall i st, i < c -> P i st -> exists st', body st (s + i) = Ok st' /\ P (S i) st') ->
  exists st', foldM body (seq s c) st = Ok st' /\ P c st'.
Proof.
  intros H0 Hb. assert (G : forall k j st, j + k = c -> P j st -> exists st', foldM body (seq (s + j) k) st = Ok st' /\ P c st').
  { induction k as [|k IH]; intros j st' Hj Hp; cbn [seq foldM].
    - exists st'. split; auto. replace c with j by lia. auto.
    - destruct (Hb j st') as (st'' & -> & Hp'); [lia|auto|]. cbn [bind]. replace (S (s + j)) with (s + S j) by lia. apply IH; auto. lia. }
  specialize (G c 0 st eq_refl H0). rewrite Nat.add_0_r in G. exact G.
Qed.
Lemma foldM_down {X} (P : nat -> X -> Prop) (body : X -> nat -> res X) c : forall st,
  P c st -> (forall i st, i < c -> P (S i) st -> exists st', body st i = Ok st' /\ P i st') ->
  exists st', foldM body (rev (seq 0 c)) st = Ok st' /\ P 0 st'.
Proof.
  induction c as [|c IH]; intros st H0 Hb.
  - exists st. split; auto.
  - rewrite seq_S, rev_app_distr. cbn [rev app foldM Nat.add]. destruct (Hb c st) as (st' & -> & Hp); auto. cbn [bind]. apply IH; auto.
Qed.
Definition put (X : nat -> nat -> T) (r s c : nat) (f : nat -> T) (i j : nat) : T :=
  if (Nat.eqb i r && Nat.leb s j && Nat.ltb j (s + c))%bool then f j else X i j.
(** A loop writing [f m] to [(r, m)] for m in [s, s+c). *)
Lemma row_loop h w M X (r s c : nat) (f : nat -> T) (body : mat T -> nat -> res (mat T)) :
  mis h w M X -> r < h -> s + c <= w ->
  (forall M' k, k < c -> mis h w M' (put X r s k f) -> body M' (s + k) = m_set M' r (s + k) (f (s + k))) ->
  exists M', foldM body (seq s c) M = Ok M' /\ mis h w M' (put X r s c f).
Proof.
  intros HM Hr Hs Hb. apply (foldM_range (fun k M' => mis h w M' (put X r s k f))).
  - eapply mis_ext; [exact HM|]. intros i j Hi Hj. unfold put. destruct (Nat.eqb_spec i r), (Nat.leb_spec s j), (Nat.ltb_spec j (s + 0)); cbn [andb]; auto; lia.
  - intros k M' Hk HM'. rewrite Hb by auto. destruct (mis_set h w M' _ r (s + k) (f (s + k)) HM' Hr) as (M'' & -> & HM''); [lia|]. exists M''. split; auto.
    eapply mis_ext; [exact HM''|]. intros i j Hi Hj. cbn beta. unfold put. destruct (Nat.eqb_spec i r); cbn [andb]; auto.
    destruct (Nat.eqb_spec j (s + k)) as [->|].
    + destruct (Nat.leb_spec s (s + k)), (Nat.ltb_spec (s + k) (s + S k)); cbn [andb]; auto; lia.
    + destruct (Nat.leb_spec s j), (Nat.ltb_spec j (s + k)), (Nat.ltb_spec j (s + S k)); cbn [andb]; auto; lia.
Qed.
Lemma foldMO_range {X} (P : nat -> X -> Prop) (body : X -> nat -> res (option X)) s c st :
  P 0 st -> (forall i st, i < c -> P i st -> exists o, body st (s + i) = Ok o /\ forall st', o = Some st' -> P (S i) st') ->
  exists o, foldMO body (seq s c) st = Ok o /\ forall st', o = Some st' -> P c st'.
Proof.
  intros H0 Hb. unfold foldMO. apply (foldM_range (fun k o => forall st', o = Some st' -> P k st')).
  - intros st' E. injection E as <-. auto.
  - intros i o Hi Ho. destruct o as [st'|].
    + destruct (Hb i st' Hi (Ho st' eq_refl)) as (o & E & Ho'). exists o. split; auto.
    + exists None. split; auto. discriminate.
Qed.
End Loops.

Section Gauss.
Context {T R : Type} {RO : RingOps T} {L : RingLaws T} {DV : DivOps T} {FL : FieldLaws T} {NC : NormCmp T R} {NZ : NormZero T R}.
Local Open Scope rg_scope.

Lemma inv_l k : k <> 0 -> 1 / k * k = 1. Proof. apply div_mul. Qed.
Lemma inv_nz k : k <> 0 -> 1 / k <> 0.
Proof. intros Hk E. pose proof (inv_l k Hk) as H. rewrite E, mul_0_l in H. symmetry in H. exact (one_neq_zero H). Qed.
Lemma inv_inv k : k <> 0 -> 1 / (1 / k) = k.
Proof.
  intros Hk. pose proof (inv_l _ (inv_nz k Hk)) as H. transitivity (1 / (1 / k) * (1 / k * k)); [rewrite (inv_l k Hk), mul_1_r; auto|]. rewrite mul_assoc, H. apply mul_1_l.
Qed.
Lemma inv_r k : k <> 0 -> k * (1 / k) = 1.
Proof. intros Hk. rewrite <- (inv_inv k Hk) at 1. apply inv_l, inv_nz, Hk. Qed.
Lemma inv_1 : 1 / 1 = (1 : T).
Proof. rewrite <- (mul_1_r (1 / 1)). apply inv_l. exact one_neq_zero. Qed.

Variables (n : nat) (A : nat -> nat -> T).
Definition delta (i j : nat) : T := if Nat.eqb i j then 1 else 0.
Definition mm (X Y : nat -> nat -> T) (i j : nat) : T := sumn n (fun k => X i k * Y k j).
Definition eqn (X Y : nat -> nat -> T) : Prop := forall i j, (i < n)%nat -> (j < n)%nat -> X i j = Y i j.
Lemma mm_assoc X Y Z i j : mm (mm X Y) Z i j = mm X (mm Y Z) i j.
Proof.
  unfold mm. transitivity (sumn n (fun k => sumn n (fun l => X i l * Y l k * Z k j))); [apply sumn_ext; intros k _; apply sumn_mul_r|].
  rewrite sumn_swap. apply sumn_ext. intros l _. rewrite sumn_mul_l. apply sumn_ext. intros k _. symmetry. apply mul_assoc.
Qed.
Lemma mm_ext X X' Y Y' : eqn X X' -> eqn Y Y' -> eqn (mm X Y) (mm X' Y').
Proof. intros H1 H2 i j Hi Hj. apply sumn_ext. intros k Hk. rewrite H1, H2; auto. Qed.
Lemma mm_1_l X : eqn (mm delta X) X.
Proof.
  intros i j Hi Hj. unfold mm. rewrite (sumn_del n _ i Hi); [unfold delta; rewrite Nat.eqb_refl; apply mul_1_l|]. intros k Hk Hne. unfold delta. destruct (Nat.eqb_spec i k); [congruence|]. apply mul_0_l.
Qed.
Lemma mm_1_r X : eqn (mm X delta) X.
Proof.
  intros i j Hi Hj. unfold mm. rewrite (sumn_del n _ j Hj); [unfold delta; rewrite Nat.eqb_refl; apply mul_1_r|]. intros k Hk Hne. unfold delta. destruct (Nat.eqb_spec k j); [congruence|]. apply mul_0_r.
Qed.

(** The working matrix is [R A | R] where R has a left inverse. *)
Definition good (W : nat -> nat -> T) : Prop :=
  (forall i j, (i < n)%nat -> (j < n)%nat -> W i j = sumn n (fun k => W i (n + k)%nat * A k j)) /\
  exists S : nat -> nat -> T, forall l m, (l < n)%nat -> (m < n)%nat -> sumn n (fun k => S l k * W k (n + m)%nat) = delta l m.
Lemma good_ext W W' : good W -> (forall i j, (i < n)%nat -> (j < 2 * n)%nat -> W i j = W' i j) -> good W'.
Proof.
  intros (H1 & S & H2) E. split.
  - intros i j Hi Hj. rewrite <- E, H1 by lia. apply sumn_ext. intros k Hk. rewrite E by lia. reflexivity.
  - exists S. intros l m Hl Hm. rewrite <- H2 by auto. apply sumn_ext. intros k Hk. rewrite E by lia. reflexivity.
Qed.
Definition setrow (W : nat -> nat -> T) (r : nat) (f : nat -> T) (i j : nat) : T := if Nat.eqb i r then f j else W i j.
Lemma good_scale W i k : (i < n)%nat -> k <> 0 -> good W -> good (setrow W i (fun c => 1 / k * W i c)).
Proof.
  intros Hi Hk (H1 & S & H2). split.
  - intros r j Hr Hj. unfold setrow. destruct (Nat.eqb_spec r i) as [->|]; [|apply H1; auto]. rewrite H1, sumn_mul_l by auto. apply sumn_ext. intros; apply mul_assoc.
  - exists (fun l c => if Nat.eqb c i then S l c * k else S l c). intros l m Hl Hm. rewrite <- H2 by auto. apply sumn_ext. intros c Hc. unfold setrow. destruct (Nat.eqb_spec c i) as [->|]; auto.
    rewrite <- (mul_assoc (S l i)), (mul_assoc k), inv_r, mul_1_l by auto. reflexivity.
Qed.
Lemma good_add W i j q : (i < n)%nat -> (j < n)%nat -> i <> j -> good W -> good (setrow W j (fun c => W j c - q * W i c)).
Proof.
  intros Hi Hj Hne (H1 & S & H2). split.
  - intros r c Hr Hc. unfold setrow. destruct (Nat.eqb_spec r j) as [->|]; [|apply H1; auto]. rewrite (H1 j c), (H1 i c), sumn_mul_l, <- sumn_sub by auto. apply sumn_ext. intros k Hk. rewrite !sub_def, mul_add_l, mul_neg_l, mul_assoc. reflexivity.
  - exists (fun l c => if Nat.eqb c i then S l i + S l j * q else S l c). intros l m Hl Hm. rewrite <- H2 by auto.
    rewrite (sumn_at2 n _ i j Hi Hj Hne), (sumn_at2 n (fun k => S l k * W k (n + m)%nat) i j Hi Hj Hne). unfold setrow. rewrite !Nat.eqb_refl. destruct (Nat.eqb_spec i j); [congruence|]. destruct (Nat.eqb_spec j i); [congruence|].
    rewrite (sumn_ext n _ (fun k => if Nat.eqb k j then 0 else if Nat.eqb k i then 0 else S l k * W k (n + m)%nat)); [rewrite sub_def; dist; rewrite !mul_assoc; abel|].
    intros k Hk. destruct (Nat.eqb_spec k j), (Nat.eqb_spec k i); auto; congruence.
Qed.
Definition swaprow (W : nat -> nat -> T) (p q i j : nat) : T := if Nat.eqb i p then W q j else if Nat.eqb i q then W p j else W i j.
Lemma good_swap W i j : (i < n)%nat -> (j < n)%nat -> good W -> good (swaprow W i j).
Proof.
  intros Hi Hj (H1 & S & H2). split.
  - intros r c Hr Hc. unfold swaprow. destruct (Nat.eqb r i); [apply H1; auto|]. destruct (Nat.eqb r j); apply H1; auto.
  - destruct (Nat.eq_dec i j) as [->|Hne].
    + exists S. intros l m Hl Hm. rewrite <- H2 by auto. apply sumn_ext. intros k Hk. unfold swaprow. destruct (Nat.eqb_spec k j) as [->|]; auto.
    + exists (fun l c => swaprow (fun a b => S l a) i j c 0%nat). intros l m Hl Hm. rewrite <- H2 by auto.
      rewrite (sumn_at2 n _ i j Hi Hj Hne), (sumn_at2 n (fun k => S l k * W k (n + m)%nat) i j Hi Hj Hne). unfold swaprow. rewrite !Nat.eqb_refl. destruct (Nat.eqb_spec j i); [congruence|].
      rewrite (sumn_ext n _ (fun k => if Nat.eqb k j then 0 else if Nat.eqb k i then 0 else S l k * W k (n + m)%nat)); [abel|].
      intros k Hk. destruct (Nat.eqb k j), (Nat.eqb k i); auto.
Qed.
Lemma good_end W : good W -> (forall i j, (i < n)%nat -> (j < n)%nat -> W i j = delta i j) ->
  let B i j := W i (n + j)%nat in eqn (mm B A) delta /\ eqn (mm A B) delta.
Proof.
  intros (H1 & S & H2) E B. assert (HB : eqn (mm B A) delta) by (intros i j Hi Hj; rewrite <- E, H1 by auto; reflexivity).
  assert (HS : eqn (mm S B) delta) by (intros i j Hi Hj; apply H2; auto). split; auto.
  assert (HA : eqn S A).
  { intros i j Hi Hj. rewrite <- (mm_1_r S i j Hi Hj). rewrite <- (mm_ext S S (mm B A) delta (fun _ _ _ _ => eq_refl) HB i j Hi Hj). rewrite <- mm_assoc.
    rewrite (mm_ext _ _ A A HS (fun _ _ _ _ => eq_refl) i j Hi Hj). apply mm_1_l; auto. }
  intros i j Hi Hj. rewrite <- (HS i j Hi Hj). apply sumn_ext. intros k Hk. rewrite HA; auto.
Qed.

(** Columns left of i are those of an upper triangle with ones on the diagonal. *)
Definition tri (i : nat) (W : nat -> nat -> T) : Prop :=
  (forall r c, (r < n)%nat -> (c < i)%nat -> (c < r)%nat -> W r c = 0) /\ (forall r, (r < i)%nat -> W r r = 1).
Local Notation w2 := (2 * n)%nat.

Lemma find_pivot_ok M W i : mis n w2 M W -> (i < n)%nat -> exists p, find_pivot n M i = Ok (nrm (W p i), p) /\ (i <= p < n)%nat /\
  (NormLaws T R -> n_is0 (nrm (W p i)) = true -> forall r, (i <= r < n)%nat -> W r i = 0).
Proof using -A. clear A.
  intros HM Hi. unfold find_pivot. rewrite (mis_get _ _ _ _ i i HM) by lia. cbn [bind].
  destruct (foldM_range (fun k st => exists p, st = (nrm (W p i), p) /\ (i <= p < n)%nat /\ (NormLaws T R -> n_is0 (nrm (W p i)) = true -> forall r, (i <= r < i + 1 + k)%nat -> W r i = 0))
    (fun st j => x <- m_get M j i ;; Ok (if n_gt (nrm x) (fst st) then (nrm x, j) else st)) (i + 1) (n - (i + 1)) (nrm (W i i), i)) as (st & E & p & -> & Hp & Hz).
  - exists i. split; auto. split; [lia|]. intros NL Hz r Hr. replace r with i by lia. apply nrm_is0; auto.
  - intros k st Hk (p & -> & Hp & Hz). rewrite (mis_get _ _ _ _ (i + 1 + k) i HM) by lia. cbn [bind fst]. eexists. split; [reflexivity|].
    destruct (n_gt (nrm (W (i + 1 + k)%nat i)) (nrm (W p i))) eqn:G.
    + exists (i + 1 + k)%nat. split; auto. split; [lia|]. intros NL Hz' r Hr. destruct (Nat.eq_dec r (i + 1 + k)) as [->|]; [apply nrm_is0; auto|].
      exfalso. pose proof (nrm_is0 _ Hz') as Z. rewrite Z, nrm_least in G. discriminate.
    + exists p. split; auto. split; [lia|]. intros NL Hz' r Hr. destruct (Nat.eq_dec r (i + 1 + k)) as [->|]; [apply (nrm_gt0 (W p i)); auto|]. apply Hz; auto. lia.
  - exists p. split; [exact E|]. split; auto. intros NL H r Hr. apply Hz; auto. lia.
Qed.

Lemma swap_loop M W i p : mis n w2 M W -> (i < n)%nat -> (p < n)%nat ->
  exists M', foldM (fun w m => m_swap w i p m) (seq 0 w2) M = Ok M' /\ mis n w2 M' (swaprow W i p).
Proof using -A. clear A.
  intros HM Hi Hp.
  destruct (foldM_range (fun k M' => mis n w2 M' (fun r c => if Nat.ltb c k then swaprow W i p r c else W r c)) (fun w m => m_swap w i p m) 0 w2 M) as (M' & E & H).
  - eapply mis_ext; [exact HM|]. intros r c Hr Hc. destruct (Nat.ltb_spec c 0); auto. lia.
  - intros k M' Hk HM'. cbn [Nat.add]. unfold m_swap. rewrite (mis_get _ _ _ _ i k HM'), (mis_get _ _ _ _ p k HM') by auto. cbn [bind]. rewrite Nat.ltb_irrefl.
    destruct (mis_set _ _ _ _ i k (W p k) HM' Hi Hk) as (M1 & -> & H1). cbn [bind]. destruct (mis_set _ _ _ _ p k (W i k) H1 Hp Hk) as (M2 & -> & H2). exists M2. split; auto.
    eapply mis_ext; [exact H2|]. intros r c Hr Hc. cbn beta. unfold swaprow. destruct (Nat.eqb_spec c k) as [->|]; rewrite ?andb_true_r, ?andb_false_r.
    + rewrite Nat.ltb_irrefl. destruct (Nat.ltb_spec k (S k)); [|lia]. destruct (Nat.eqb_spec r p), (Nat.eqb_spec r i); subst; auto.
    + destruct (Nat.ltb_spec c k), (Nat.ltb_spec c (S k)); auto; lia.
  - exists M'. split; auto. eapply mis_ext; [exact H|]. intros r c Hr Hc. cbn beta. destruct (Nat.ltb_spec c w2); auto. lia.
Qed.

(** The three row operations as written, when the skipped columns would not change. *)
Lemma norm_loop M W i k : mis n w2 M W -> (i < n)%nat -> (forall c, (c < i)%nat -> W i c = 0) ->
  exists M', foldM (fun w m => x <- m_get w i m ;; m_set w i m (1 / k * x)) (seq i (w2 - i)) M = Ok M' /\ mis n w2 M' (setrow W i (fun c => 1 / k * W i c)).
Proof using -A. clear A.
  intros HM Hi Hz. destruct (row_loop n w2 M W i i (w2 - i) (fun c => 1 / k * W i c) (fun w m => x <- m_get w i m ;; m_set w i m (1 / k * x)) HM Hi) as (M' & E & H); [lia| |].
  - intros M' l Hl HM'. rewrite (mis_get _ _ _ _ i (i + l) HM') by lia. cbn [bind]. unfold put. rewrite Nat.eqb_refl, Nat.ltb_irrefl, andb_false_r. reflexivity.
  - exists M'. split; auto. eapply mis_ext; [exact H|]. intros r c Hr Hc. unfold put, setrow. destruct (Nat.eqb_spec r i) as [->|]; cbn [andb]; auto.
    destruct (Nat.leb_spec i c), (Nat.ltb_spec c (i + (w2 - i))); cbn [andb]; auto; try lia. rewrite Hz, mul_0_r; auto.
Qed.
Lemma eliminate_ok M W i j : mis n w2 M W -> (i < n)%nat -> (j < n)%nat -> i <> j -> (forall c, (c < i)%nat -> W i c = 0) ->
  let W' := setrow W j (fun c => W j c - W j i * W i c) in
  exists M', mis n w2 M' W' /\ eliminate n i M j = Ok (if ris0 (W' j j) then None else Some M').
Proof using -A. clear A.
  intros HM Hi Hj Hne Hz W'. unfold eliminate. rewrite (mis_get _ _ _ _ j i HM) by lia. cbn [bind].
  set (body := fun w m => a <- m_get w j m ;; b <- m_get w i m ;; w <- m_set w j m (a - W j i * b) ;; c <- m_get w j m ;; if negb (reqb c c) then Ok None else Ok (Some w)).
  assert (G : exists M', foldMO body (seq i (w2 - i)) M = Ok (Some M') /\ mis n w2 M' (put W j i (w2 - i) (fun c => W j c - W j i * W i c))).
  { unfold foldMO.
    destruct (foldM_range (fun k o => exists M', o = Some M' /\ mis n w2 M' (put W j i k (fun c => W j c - W j i * W i c)))
      (fun o a => match o with None => Ok None | Some s => body s a end) i (w2 - i) (Some M)) as (o & E & M' & -> & H).
    - exists M. split; auto. eapply mis_ext; [exact HM|]. intros r c Hr Hc. unfold put. destruct (Nat.eqb_spec r j), (Nat.leb_spec i c), (Nat.ltb_spec c (i + 0)); cbn [andb]; auto; lia.
    - intros k o Hk (M' & -> & HM'). unfold body. rewrite (mis_get _ _ _ _ j (i + k) HM'), (mis_get _ _ _ _ i (i + k) HM') by lia. cbn [bind].
      match goal with |- context [m_set M' j (i + k) ?v] => destruct (mis_set _ _ _ _ j (i + k) v HM' Hj) as (M'' & -> & H); [lia|] end. cbn [bind].
      rewrite (mis_get _ _ _ _ j (i + k) H) by lia. cbn [bind]. rewrite (proj2 (reqb_spec _ _) eq_refl). cbn [negb]. eexists. split; [reflexivity|]. exists M''. split; auto.
      eapply mis_ext; [exact H|]. intros r c Hr Hc. cbn beta. unfold put. rewrite Nat.eqb_refl. destruct (Nat.eqb_spec i j); [congruence|]. cbn [andb]. rewrite Nat.ltb_irrefl, andb_false_r.
      destruct (Nat.eqb_spec r j) as [->|]; cbn [andb]; auto.
      destruct (Nat.eqb_spec c (i + k)) as [->|].
      + destruct (Nat.leb_spec i (i + k)), (Nat.ltb_spec (i + k) (i + S k)); cbn [andb]; auto; lia.
      + destruct (Nat.leb_spec i c), (Nat.ltb_spec c (i + k)), (Nat.ltb_spec c (i + S k)); cbn [andb]; auto; lia.
    - exists M'. auto. }
  destruct G as (M' & E & H). fold body. rewrite E. cbn [bind].
  assert (H' : mis n w2 M' W').
  { eapply mis_ext; [exact H|]. intros r c Hr Hc. unfold put, W', setrow. destruct (Nat.eqb_spec r j) as [->|]; cbn [andb]; auto.
    destruct (Nat.leb_spec i c), (Nat.ltb_spec c (i + (w2 - i))); cbn [andb]; auto; try lia. rewrite Hz, mul_0_r by auto. rewrite sub_def, neg_0. symmetry. apply add_0_r. }
  exists M'. split; auto. rewrite (mis_get _ _ _ _ j j H') by lia. cbn [bind]. destruct (ris0 (W' j j)); auto.
Qed.
Lemma clear_ok M W i j : mis n w2 M W -> (i < n)%nat -> (j < i)%nat -> W i i = 1 -> (forall c, (c < i)%nat -> W i c = 0) ->
  exists M', clear_above n M i j = Ok M' /\ mis n w2 M' (setrow W j (fun c => W j c - W j i * W i c)).
Proof using -A. clear A.
  intros HM Hi Hj H1 Hz. unfold clear_above. rewrite (mis_get _ _ _ _ i i HM), (mis_get _ _ _ _ j i HM) by lia. cbn [bind]. rewrite H1, inv_1, mul_1_l.
  match goal with |- exists _, foldM ?b _ _ = _ /\ _ => destruct (row_loop n w2 M W j j (w2 - j) (fun c => W j c - W j i * W i c) b HM) as (M' & E & H); [lia|lia| |] end.
  - intros M' l Hl HM'. rewrite (mis_get _ _ _ _ j (j + l) HM'), (mis_get _ _ _ _ i (j + l) HM') by lia. cbn [bind]. unfold put. rewrite Nat.eqb_refl, Nat.ltb_irrefl, andb_false_r. destruct (Nat.eqb_spec i j); [lia|]. reflexivity.
  - exists M'. split; auto. eapply mis_ext; [exact H|]. intros r c Hr Hc. unfold put, setrow. destruct (Nat.eqb_spec r j) as [->|]; cbn [andb]; auto.
    destruct (Nat.leb_spec j c), (Nat.ltb_spec c (j + (w2 - j))); cbn [andb]; auto; try lia. rewrite Hz, mul_0_r by lia. rewrite sub_def, neg_0. symmetry. apply add_0_r.
Qed.

Lemma upper_ok M W i : mis n w2 M W -> good W -> tri i W -> (i < n)%nat ->
  exists o, upper_step n M i = Ok o /\ forall M', o = Some M' -> exists W', mis n w2 M' W' /\ good W' /\ tri (S i) W'.
Proof.
  intros HM HG (T1 & T2) Hi. unfold upper_step. destruct (find_pivot_ok M W i HM Hi) as (p & -> & Hp & _). cbn [bind].
  destruct (n_is0 (nrm (W p i))) eqn:E0; [eexists; split; [reflexivity|discriminate]|].
  assert (Hk : W p i <> 0) by (intros Z; rewrite Z, nrm_0 in E0; discriminate).
  destruct (swap_loop M W i p HM Hi) as (M1 & E1 & H1); [lia|]. rewrite E1. cbn [bind]. rewrite (mis_get _ _ _ _ i i H1) by lia. cbn [bind].
  set (W1 := swaprow W i p) in *. assert (G1 : good W1) by (apply good_swap; auto; lia).
  assert (Hpiv : W1 i i = W p i) by (unfold W1, swaprow; rewrite Nat.eqb_refl; auto). rewrite Hpiv.
  assert (Z1 : forall r c, (i <= r < n)%nat -> (c < i)%nat -> W1 r c = 0).
  { intros r c Hr Hc. unfold W1, swaprow. destruct (Nat.eqb_spec r i); [apply T1; lia|]. destruct (Nat.eqb_spec r p); apply T1; lia. }
  assert (U1 : forall r c, (r < i)%nat -> W1 r c = W r c).
  { intros r c Hr. unfold W1, swaprow. destruct (Nat.eqb_spec r i); [lia|]. destruct (Nat.eqb_spec r p); auto; lia. }
  destruct (norm_loop M1 W1 i (W p i) H1 Hi) as (M2 & E2 & H2); [intros c Hc; apply Z1; lia|]. rewrite E2. cbn [bind].
  set (W2 := setrow W1 i (fun c => 1 / W p i * W1 i c)) in *. assert (G2 : good W2) by (apply good_scale; auto).
  assert (P2 : W2 i i = 1) by (unfold W2, setrow; rewrite Nat.eqb_refl, Hpiv; apply inv_l; auto).
  assert (Z2 : forall r c, (i <= r < n)%nat -> (c < i)%nat -> W2 r c = 0).
  { intros r c Hr Hc. unfold W2, setrow. destruct (Nat.eqb_spec r i); [rewrite Z1, mul_0_r by lia|apply Z1]; auto. }
  assert (U2 : forall r c, (r < i)%nat -> W2 r c = W r c).
  { intros r c Hr. unfold W2, setrow. destruct (Nat.eqb_spec r i); [lia|]. auto. }
  destruct (foldMO_range (fun k M' => exists W', mis n w2 M' W' /\ good W' /\ W' i i = 1 /\ (forall r c, (i <= r < n)%nat -> (c < i)%nat -> W' r c = 0) /\
      (forall r c, (r < i)%nat -> W' r c = W r c) /\ (forall r, (i < r < i + 1 + k)%nat -> W' r i = 0))
    (eliminate n i) (i + 1) (n - (i + 1)) M2) as (o & E & Ho).
  - exists W2. split; auto. split; auto. split; auto. split; auto. split; auto. intros r Hr. lia.
  - intros k M' Hk' (W' & HM' & HG' & P' & Z' & U' & C'). destruct (eliminate_ok M' W' i (i + 1 + k) HM' Hi) as (M'' & H'' & E''); [lia|lia|intros c Hc; apply Z'; lia|].
    eexists. split; [exact E''|]. intros M3 E3. cbn zeta in *. set (W'' := setrow W' (i + 1 + k) (fun c => W' (i + 1 + k)%nat c - W' (i + 1 + k)%nat i * W' i c)) in *.
    destruct (ris0 (W'' (i + 1 + k)%nat (i + 1 + k)%nat)); [discriminate|]. injection E3 as <-. exists W''. split; auto. split; [apply good_add; auto; lia|]. unfold W'', setrow. repeat split.
    + destruct (Nat.eqb_spec i (i + 1 + k)); [lia|auto].
    + intros r c Hr Hc. destruct (Nat.eqb_spec r (i + 1 + k)); [|apply Z'; auto]. rewrite (Z' i c), (Z' (i + 1 + k)%nat c), mul_0_r, sub_def, neg_0 by lia. apply add_0_r.
    + intros r c Hr. destruct (Nat.eqb_spec r (i + 1 + k)); [lia|auto].
    + intros r Hr. destruct (Nat.eqb_spec r (i + 1 + k)) as [->|]; [rewrite P', mul_1_r, sub_def; apply add_neg_r|apply C'; lia].
  - exists o. split; auto. intros M' Eo. destruct (Ho M' Eo) as (W' & HM' & HG' & P' & Z' & U' & C'). exists W'. split; auto. split; auto. split.
    + intros r c Hr Hc Hcr. destruct (Nat.eq_dec c i) as [->|]; [apply C'; lia|]. destruct (Nat.lt_ge_cases r i); [rewrite U' by auto; apply T1; lia|apply Z'; lia].
    + intros r Hr. destruct (Nat.eq_dec r i) as [->|]; auto. rewrite U' by lia. apply T2. lia.
Qed.

(** Clearing above the diagonal. *)
Definition updone (i : nat) (W : nat -> nat -> T) : Prop := forall r c, (r < c)%nat -> (i <= c < n)%nat -> W r c = 0.
Lemma clear_col M W i : mis n w2 M W -> good W -> tri n W -> updone (S i) W -> (i < n)%nat ->
  exists M', foldM (fun w j => clear_above n w i j) (rev (seq 0 i)) M = Ok M' /\ exists W', mis n w2 M' W' /\ good W' /\ tri n W' /\ updone i W'.
Proof.
  intros HM HG HT HU Hi.
  destruct (foldM_down (fun j M' => exists W', mis n w2 M' W' /\ good W' /\ tri n W' /\ updone (S i) W' /\ forall r, (j <= r < i)%nat -> W' r i = 0)
    (fun w j => clear_above n w i j) i M) as (M' & E & W' & HM' & HG' & HT' & HU' & HC').
  - exists W. split; auto. split; auto. split; auto. split; auto. intros r Hr. lia.
  - intros j M' Hj (W' & HM' & HG' & (T1 & T2) & HU' & HC'). destruct (clear_ok M' W' i j HM' Hi Hj) as (M'' & E & H''); [apply T2; auto|intros c Hc; apply T1; lia|].
    exists M''. split; auto. eexists. split; [exact H''|]. split; [apply good_add; auto; lia|]. unfold setrow. split; [split|split].
    + intros r c Hr Hc Hcr. destruct (Nat.eqb_spec r j) as [->|]; [|apply T1; auto]. rewrite (T1 j c), (T1 i c), mul_0_r, sub_def, neg_0 by lia. apply add_0_r.
    + intros r Hr. destruct (Nat.eqb_spec r j) as [->|]; [|apply T2; auto]. rewrite (T1 i j), mul_0_r, sub_def, neg_0, add_0_r by lia. apply T2; lia.
    + intros r c Hrc Hc. destruct (Nat.eqb_spec r j) as [->|]; [|apply HU'; auto]. rewrite (HU' j c), (HU' i c), mul_0_r, sub_def, neg_0 by lia. apply add_0_r.
    + intros r Hr. destruct (Nat.eqb_spec r j) as [->|]; [rewrite T2, mul_1_r, sub_def by lia; apply add_neg_r|apply HC'; lia].
  - exists M'. split; auto. exists W'. split; auto. split; auto. split; auto. intros r c Hrc Hc. destruct (Nat.eq_dec c i) as [->|]; [apply HC'; lia|apply HU'; lia].
Qed.
End Gauss.

Section Inv.
Context {T R : Type} {RO : RingOps T} {L : RingLaws T} {DV : DivOps T} {FL : FieldLaws T} {NC : NormCmp T R} {NZ : NormZero T R}.
Local Open Scope rg_scope.
(** [matrix_inv] never panics, and whatever it returns is a two-sided inverse. *)
Theorem matrix_inv_sound n M A : mis n n M A -> exists o, matrix_inv M = Ok o /\
  forall M', o = Some M' -> exists B, mis n n M' B /\ eqn n (mm n B A) delta /\ eqn n (mm n A B) delta.
Proof.
  intros HM. pose proof HM as (Hr & Hc & _ & HA). unfold matrix_inv. rewrite Hr, Hc, Nat.eqb_refl. cbn [negb].
  pose proof (mis_build (T := T) n (2 * n) (fun i j => if Nat.ltb j n then m_at M i j else 0)) as H0.
  set (W0 := fun i j => if Nat.ltb j n then A i j else delta i (j - n) : T).
  destruct (foldM_range (fun k M' => mis n (2 * n) M' (fun i j => if Nat.ltb j n then A i j else if Nat.ltb i k then delta i (j - n) else 0))
    (fun w i => m_set w i (n + i) 1) 0 n (m_build n (2 * n) (fun i j => if Nat.ltb j n then m_at M i j else 0))) as (M1 & E1 & H1).
  - eapply mis_ext; [exact H0|]. intros i j Hi Hj. cbn beta. destruct (Nat.ltb_spec j n); auto. 
  - intros k M' Hk HM'. cbn [Nat.add]. destruct (mis_set _ _ _ _ k (n + k) 1 HM') as (M'' & -> & H''); [lia|lia|]. exists M''. split; auto.
    eapply mis_ext; [exact H''|]. intros i j Hi Hj. cbn beta. unfold delta. destruct (Nat.eqb_spec i k) as [->|], (Nat.eqb_spec j (n + k)) as [->|]; cbn [andb].
    + destruct (Nat.ltb_spec (n + k) n), (Nat.ltb_spec k (S k)); try lia. replace (n + k - n)%nat with k by lia. rewrite Nat.eqb_refl. auto.
    + destruct (Nat.ltb_spec j n), (Nat.ltb_spec k k), (Nat.ltb_spec k (S k)); auto; try lia. destruct (Nat.eqb_spec k (j - n)); auto; lia.
    + destruct (Nat.ltb_spec (n + k) n), (Nat.ltb_spec i k), (Nat.ltb_spec i (S k)); auto; lia.
    + destruct (Nat.ltb_spec j n), (Nat.ltb_spec i k), (Nat.ltb_spec i (S k)); auto; lia.
  - rewrite E1. cbn [bind]. assert (HW0 : mis n (2 * n) M1 W0).
    { eapply mis_ext; [exact H1|]. intros i j Hi Hj. cbn beta. unfold W0. destruct (Nat.ltb_spec j n); auto. destruct (Nat.ltb_spec i n); auto. lia. }
    assert (HG0 : good n A W0).
    { split.
      - intros i j Hi Hj. unfold W0 at 1. destruct (Nat.ltb_spec j n); [|lia]. rewrite <- (mm_1_l n A i j Hi Hj). apply sumn_ext. intros k Hk. unfold W0. destruct (Nat.ltb_spec (n + k) n); [lia|]. replace (n + k - n)%nat with k by lia. auto.
      - exists delta. intros l k Hl Hk. rewrite <- (mm_1_l n delta l k Hl Hk). apply sumn_ext. intros c Hc'. unfold W0. destruct (Nat.ltb_spec (n + k) n); [lia|]. replace (n + k - n)%nat with k by lia. auto. }
    destruct (foldMO_range (fun k M' => exists W', mis n (2 * n) M' W' /\ good n A W' /\ tri n k W') (upper_step n) 0 n M1) as (o & E2 & H2).
    + exists W0. split; auto. split; auto. split; [intros; lia|intros; lia].
    + intros i M' Hi (W' & HM' & HG' & HT'). apply (upper_ok n A M' W' i); auto.
    + rewrite E2. cbn [bind]. destruct o as [M2|]; [|eexists; split; [reflexivity|discriminate]]. destruct (H2 M2 eq_refl) as (W2 & HM2 & HG2 & HT2).
      destruct (foldM_down (fun i M' => exists W', mis n (2 * n) M' W' /\ good n A W' /\ tri n n W' /\ updone n i W')
        (fun w i => foldM (fun w j => clear_above n w i j) (rev (seq 0 i)) w) n M2) as (M3 & E3 & W3 & HM3 & HG3 & (T1 & T2) & HU3).
      * exists W2. split; auto. split; auto. split; auto. intros r c Hrc Hc'. lia.
      * intros i M' Hi (W' & HM' & HG' & HT' & HU'). destruct (clear_col n A M' W' i HM' HG' HT' HU' Hi) as (M'' & E & H). exists M''. split; auto.
      * rewrite E3. cbn [bind]. eexists. split; [reflexivity|]. intros M' E. injection E as <-. exists (fun i j => W3 i (n + j)%nat). split; [eapply (mis_block _ _ _ _ 0 n n n HM3); lia|].
        apply (good_end n A W3 HG3). intros i j Hi Hj. unfold delta. destruct (Nat.eqb_spec i j) as [->|]; [apply T2; auto|]. destruct (Nat.lt_ge_cases i j); [apply HU3; lia|apply T1; lia].
Qed.
End Inv.
