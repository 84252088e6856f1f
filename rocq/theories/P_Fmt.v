(** Lemmas behind C55. *)
From Coq Require Import String Ascii.
From Coq Require Import List. Import ListNotations.
From Coq Require Import Sorting.Sorted.
From Verif Require Export Spec_Fmt P_Props4.
Local Open Scope nat_scope.

Lemma sapp_assoc (a b c : string) : ((a ++ b) ++ c)%string = (a ++ (b ++ c))%string.
Proof. induction a as [|x a IH]; [reflexivity|]. cbn. rewrite IH. reflexivity. Qed.
Lemma sapp_nil_r (a : string) : (a ++ "")%string = a.
Proof. induction a as [|x a IH]; [reflexivity|]. cbn. rewrite IH. reflexivity. Qed.

Fixpoint stail (sep : string) (l : list string) : string :=
  match l with [] => EmptyString | x :: r => (sep ++ x ++ stail sep r)%string end.
Lemma join_tail sep a r : join sep (a :: r) = (a ++ stail sep r)%string.
Proof.
  revert a. induction r as [|b r IH]; intros a; [cbn; symmetry; apply sapp_nil_r|].
  change (join sep (a :: b :: r)) with (a ++ (sep ++ join sep (b :: r)))%string. rewrite IH. reflexivity.
Qed.

Section Fmt.
Context {T : Type} {RO : RingOps T} {W : NumLaws T} {L : RingLaws T} {FO : FmtOps T} {m : Mode} {H : HashOrder}.
Variables (k : kind) (sg : list tok) (A : algebra).
Hypothesis D : declared sg A.
Local Notation d := (a_dim A).
Local Notation Q := (a_imag A).
Local Notation P := (a_proj A).
Variable nm : nat -> string.
Hypothesis Hnm : forall i, i < d -> a_name A i = Ok (nm i).
Variable fl : flags.

Definition word_of (alt : bool) (i : N) : list nat := if alt then rev (gens d i) else gens d i.
Definition tm (alt : bool) (ic : N * T) : T * list nat :=
  ((if alt then rev_c (fst ic) (snd ic) else snd ic), word_of alt (fst ic)).
Definition nz (l : list (N * T)) := filter (fun ic => negb (ris0 (snd ic))) l.

Lemma fmt_step_nz first out (i : N) (c : T) : (i < pow2 d)%N -> ris0 c = false ->
  fmt_step A fl (first, out) (i, c)
  = Ok (false, ((if first then out else out ++ " + ") ++ printed_term fl nm (tm (f_alternate fl) (i, c)))%string).
Proof.
  intros Hi Hc. unfold fmt_step. rewrite Hc.
  destruct (label_thm A sg D nm i Hnm Hi) as [E1 E2].
  set (c' := if f_alternate fl then rev_c i c else c).
  assert (E : (if f_alternate fl then blade_label_rev A i else blade_label A i) = Ok (join "^" (map nm (word_of (f_alternate fl) i)))).
  { destruct (f_alternate fl); auto. }
  rewrite E. cbn [bind].
  unfold printed_term, tm. cbn [fst snd]. fold c'. unfold printed_coeff, printed_label.
  f_equal. f_equal.
  destruct (join "^" (map nm (word_of (f_alternate fl) i))) as [|a s].
  - cbn [String.length Nat.ltb Nat.leb]. rewrite sapp_nil_r. destruct first; cbn [negb]; destruct (f_sign_plus fl || has_sign (fmt_plain c'))%bool; reflexivity.
  - cbn [String.length Nat.ltb Nat.leb]. destruct first; cbn [negb]; destruct (f_sign_plus fl || has_sign (fmt_plain c'))%bool; rewrite !sapp_assoc; reflexivity.
Qed.

Lemma fmt_fold_false l : (forall i c, In (i, c) l -> (i < pow2 d)%N) -> forall out,
  foldM (fmt_step A fl) l (false, out)
  = Ok (false, (out ++ stail " + " (map (printed_term fl nm) (map (tm (f_alternate fl)) (nz l))))%string).
Proof.
  induction l as [|[i c] l IH]; intros Hl out; cbn [foldM].
  - cbn. rewrite sapp_nil_r. reflexivity.
  - unfold nz. cbn [filter snd]. destruct (ris0 c) eqn:Ec; cbn [negb].
    + unfold fmt_step at 1. rewrite Ec. cbn [bind]. rewrite IH by (intros; eapply Hl; right; eauto). reflexivity.
    + rewrite fmt_step_nz by (auto; eapply Hl; left; eauto). cbn [bind]. rewrite IH by (intros; eapply Hl; right; eauto).
      cbn [map stail]. rewrite !sapp_assoc. reflexivity.
Qed.
Lemma fmt_fold_true l : (forall i c, In (i, c) l -> (i < pow2 d)%N) ->
  ('(first, out) <- foldM (fmt_step A fl) l (true, EmptyString) ;; if first then Ok (out ++ fmt_f fl r0)%string else Ok out)
  = Ok (printed fl nm (map (tm (f_alternate fl)) (nz l))).
Proof.
  induction l as [|[i c] l IH]; intros Hl; cbn [foldM].
  - reflexivity.
  - unfold nz. cbn [filter snd]. destruct (ris0 c) eqn:Ec; cbn [negb].
    + unfold fmt_step at 1. rewrite Ec. cbn [bind]. rewrite IH by (intros; eapply Hl; right; eauto). reflexivity.
    + rewrite fmt_step_nz by (auto; eapply Hl; left; eauto). cbn [bind]. rewrite fmt_fold_false by (intros; eapply Hl; right; eauto).
      cbn [bind map]. unfold printed. cbv iota. cbn [map]. rewrite join_tail. reflexivity.
Qed.

Lemma supports_of (x : store k T) : valid A x -> supports k A.
Proof. intros Hx. pose proof (st_wf_dim _ _ Hx) as HD. destruct k; cbn in *; auto; tauto. Qed.

(** *** The values *)
Section Values.
Variable l : list (store k T).
Hypothesis Hl : forall i, i < d -> exists e : store k T, nth_error l i = Some e /\ valid A e /\ feq d (rd e) (del (pow2 i) r1).
Hypothesis HD : st_dim_ok (StorageLaws := KLaws (T := T) k) d.

Lemma term_gives alt (i : N) (c : T) : (i < pow2 d)%N -> gives A (term_value A l (tm alt (i, c))) (del i c).
Proof.
  intros Hi. unfold term_value, tm. cbn [fst snd].
  assert (Hg : forall j, In j (gens d i) -> j < d) by (intros j Hj; apply in_gens in Hj; tauto).
  eapply gives_bind.
  { apply (word_prod_gives k A l (mv_mul A) Q P); auto; [intros; apply (h_mul A sg D); auto|].
    unfold word_of. intros j Hj. destruct alt; [apply in_rev in Hj|]; auto. }
  intros p Hp Hf. eapply gives_ext; [apply h_scale; [exact Hp|exact Hf]|].
  intros j Hj. cbn beta. unfold word_of. destruct alt.
  - rewrite (fword_rev_gens d Q P d (Nat.le_refl _) i Hi j Hj). unfold frev, del. destruct (N.eqb_spec j i) as [->|].
    + rewrite rev_c_sgb, sgb_mul_l, sgb_mul_r, sgb_sgb, xorb_nilpotent. apply mul_1_l.
    + rewrite sgb_0. apply mul_0_l.
  - rewrite (fword_gens d Q P d (Nat.le_refl _) i Hi j Hj). unfold del. destruct (N.eqb_spec j i) as [->|]; [apply mul_1_l|apply mul_0_l].
Qed.

Lemma terms_fold alt (ics : list (N * T)) : (forall i c, In (i, c) ics -> (i < pow2 d)%N) -> forall z f, valid A z -> feq d (rd z) f ->
  gives A (foldM (fun acc t => v <- term_value A l t ;; mv_add acc v) (map (tm alt) ics) z)
    (fun j => radd (f j) (suml (fun ic => del (fst ic) (snd ic) j) ics)).
Proof.
  induction ics as [|[i c] r IH]; intros Hb z f Hz Hf; cbn [map foldM suml].
  - eapply gives_ext; [apply gives_Ok; eauto|]. intros j Hj. cbn beta. rewrite Hf by auto. cbn. symmetry. apply add_0_r.
  - eapply gives_bind.
    { eapply gives_bind; [apply term_gives; eapply Hb; left; eauto|]. intros v Hv Hfv. apply (h_add A z v f _ Hz Hv Hf Hfv). }
    intros z' Hz' Hf'. eapply gives_ext; [apply IH; [intros; eapply Hb; right; eauto|exact Hz'|exact Hf']|].
    intros j Hj. cbn beta. cbn [suml fst snd]. unfold fadd. symmetry. apply add_assoc.
Qed.
End Values.

Lemma suml_del (ics : list (N * T)) (f : N -> T) (j : N) : NoDup (map fst ics) -> (forall i c, In (i, c) ics -> c = f i) ->
  suml (fun ic => del (fst ic) (snd ic) j) ics = if existsb (N.eqb j) (map fst ics) then f j else r0.
Proof.
  induction ics as [|[i c] r IH]; intros HN Hf; [reflexivity|]. cbn [map existsb fst snd suml] in *.
  inversion HN; subst. rewrite IH; auto; [|intros; apply Hf; right; auto].
  unfold del. destruct (N.eqb_spec j i) as [->|]; cbn [orb].
  - destruct (existsb (N.eqb i) (map fst r)) eqn:E.
    + apply existsb_exists in E. destruct E as (y & Hy & Ey). apply N.eqb_eq in Ey. subst. contradiction.
    + rewrite (Hf i c (or_introl eq_refl)). apply add_0_r.
  - apply add_0_l.
Qed.

Lemma sorted_filter (p : N * T -> bool) (l : list (N * T)) : StronglySorted N.lt (map fst l) -> StronglySorted N.lt (map fst (filter p l)).
Proof.
  induction l as [|[i c] r IH]; intros Hs; [exact Hs|]. cbn [map fst filter] in *. inversion Hs as [|? ? H1 H2]; subst.
  destruct (p (i, c)); [|auto]. cbn [map fst]. constructor; [auto|].
  rewrite Forall_forall in *. intros j Hj. apply H2. apply in_map_iff in Hj. destruct Hj as (ic & <- & Hj). apply filter_In in Hj. apply in_map. tauto.
Qed.
Lemma sorted_seq n : forall a, StronglySorted N.lt (map N.of_nat (seq a n)).
Proof.
  induction n as [|n IH]; intros a; cbn [seq map]; constructor; [apply IH|].
  apply Forall_forall. intros j Hj. apply in_map_iff in Hj. destruct Hj as (b & <- & Hb). apply in_seq in Hb. lia.
Qed.
Lemma nz_sorted (x : store k T) : k <> KSparse -> StronglySorted N.lt (map fst (nz (st_enum x))).
Proof.
  intros Hk. apply sorted_filter. destruct k; [| contradiction |].
  - apply sorted_filter. rewrite map_fst_enumerate. apply sorted_seq.
  - cbn. repeat (constructor; try (cbn; lia)).
Qed.

Lemma nz_facts (x : store k T) : valid A x -> let ics := nz (st_enum x) in
  NoDup (map fst ics) /\ (forall i c, In (i, c) ics -> (i < pow2 d)%N /\ c = rd x i) /\
  (forall i, In i (map fst ics) <-> (i < pow2 d)%N /\ rd x i <> r0).
Proof.
  intros Hx ics. destruct (st_enum_ok d x Hx) as (HN & Hin & Hall).
  assert (HI : forall i c, In (i, c) ics -> (i < pow2 d)%N /\ c = rd x i).
  { intros i c Hi. apply filter_In in Hi. destruct Hi as [Hi _]. destruct (Hin i c Hi) as (Hb & _ & ->). split; auto. symmetry. apply (rd_coef d); auto. }
  split; [|split; [exact HI|]].
  - apply NoDup_map_filter. exact HN.
  - intros i. split.
    + intros Hi. apply in_map_iff in Hi. destruct Hi as ([j c] & <- & Hi). cbn [fst]. destruct (HI j c Hi) as [Hb ->]. split; auto.
      apply filter_In in Hi. destruct Hi as [_ Hi]. cbn [snd] in Hi. apply negb_true_iff in Hi. intros E. rewrite E, is0_r0 in Hi. discriminate.
    + intros [Hb Hz]. apply in_map_iff. exists (i, rd x i). split; auto. apply filter_In. rewrite (rd_coef d) in * by auto. split; [apply Hall; auto|].
      cbn [snd]. apply negb_true_iff. destruct (ris0 (st_coef x i)) eqn:E; auto. apply is0_spec in E. contradiction.
Qed.

Lemma fmt_thm (x : store k T) : valid A x -> exists ts is (l : list (store k T)),
  mv_fmt A fl x = Ok (printed fl nm ts) /\
  NoDup is /\ (forall i, In i is <-> (i < pow2 d)%N /\ rd x i <> r0) /\
  (k <> KSparse -> StronglySorted N.lt is) /\
  map snd ts = map (fun i => if f_alternate fl then rev (gens d i) else gens d i) is /\
  (f_alternate fl = false -> map fst ts = map (rd x) is) /\
  mv_basis A = Ok l /\
  agree A (terms_value A l ts) (Ok x) /\
  Forall2 (fun t i => agree A (term_value A l t) (b <- unit_blade A i ;; mv_scale A b (rd x i))) ts is.
Proof.
  intros Hx. destruct (nz_facts x Hx) as (HN & HI & Hiff). set (ics := nz (st_enum x)) in *.
  assert (HD := st_wf_dim _ _ Hx).
  destruct (basis_gives k sg A D (supports_of x Hx)) as (l & E & _ & Hl).
  exists (map (tm (f_alternate fl)) ics), (map fst ics), l.
  split; [|split; [exact HN|split; [exact Hiff|split; [intros Hk; apply nz_sorted; auto|split; [|split; [|split; [exact E|split]]]]]]].
  - unfold mv_fmt. apply fmt_fold_true. intros i c Hi. destruct (st_enum_ok d x Hx) as (_ & Hin & _). apply (Hin i c Hi).
  - rewrite !map_map. apply map_ext. intros [i c]. reflexivity.
  - intros Ea. rewrite !map_map. apply map_ext_in. intros [i c] Hi. unfold tm. rewrite Ea. cbn [fst snd]. apply (HI i c Hi).
  - eapply agree_gives_intro; [|apply (gives_Ok A x Hx)]. unfold terms_value.
    eapply gives_bind; [apply (g_default A HD)|]. intros z Hz Hf. eapply gives_ext; [apply (terms_fold l Hl HD); [intros i c Hi; apply (HI i c Hi)|exact Hz|exact Hf]|].
    intros j Hj. cbn beta. rewrite add_0_l, (suml_del ics (rd x) j HN) by (intros i c Hi; apply (HI i c Hi)).
    destruct (existsb (N.eqb j) (map fst ics)) eqn:Ex; [reflexivity|].
    destruct (is0_dec (rd x j)) as [->|Hnz]; [reflexivity|]. exfalso.
    assert (existsb (N.eqb j) (map fst ics) = true); [|congruence]. apply existsb_exists. exists j. split; [apply Hiff; auto|apply N.eqb_refl].
  - clear HN Hiff E. induction ics as [|[i c] r IH]; cbn [map]; constructor; [|apply IH; intros; apply HI; right; auto].
    destruct (HI i c (or_introl eq_refl)) as [Hb ->]. cbn [fst].
    eapply agree_gives_intro; [apply (term_gives l Hl HD); auto|].
    eapply gives_bind; [apply (unit_blade_gives k A i HD Hb)|]. intros b Hv Hf. eapply gives_ext; [apply h_scale; [exact Hv|exact Hf]|].
    intros j Hj. cbn beta. unfold del. destruct (j =? i)%N; [apply mul_1_l|apply mul_0_l].
Qed.
End Fmt.
