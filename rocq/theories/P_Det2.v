(** C88 for the API. *)
From Verif Require Export P_Indep2 P_Gram.
Local Open Scope nat_scope.

Section API.
Context {T : Type} {RO : RingOps T} {L : RingLaws T} {m : Mode} {H : HashOrder}.
Variables (k : kind) (sg : list tok) (A : algebra).
Hypothesis D : declared sg A.
Hypothesis Hs : supports k A.
Hypothesis Hk : k <> KQuat.
Local Notation Sk := (store k T).
Local Notation d := (a_dim A).
Implicit Types vs us : list Sk.

Lemma wedges_give' vs : Forall (valid A) vs -> gives A (prod_list (k_wedge k A) A vs) (fwedge d (map rd vs)).
Proof.
  intros Hv. assert (HD := supports_dim (T := T) sg A k D Hs). rewrite <- fold_fwedge. apply prod_list_gives; auto. intros. apply (h_kwedge A sg D); auto.
Qed.
Lemma nth_rd vs (h : Sk) a : a < length vs -> nth a (map rd vs) (fun _ => r0) = rd (nth a vs h).
Proof. intros Ha. rewrite (nth_indep _ (fun _ => r0) (rd h)) by (rewrite map_length; auto). apply map_nth. Qed.
Lemma c88_coeff vs h : Forall (valid A) vs -> Forall (of_grade A 1) vs ->
  exists w, prod_list (k_wedge k A) A vs = Ok w /\ valid A w /\
    forall I, (I < 2 ^ N.of_nat (length sg))%N -> mv_get_by_idx w I = Ok (
      let g := gens (length sg) I in
      if length g =? length vs then det (length vs) (fun a b => rd (nth a vs h) (2 ^ N.of_nat (nth b g 0)%nat)) else r0).
Proof.
  intros Hv Hg. destruct (wedges_give' vs Hv) as (w & Ew & Vw & Fw). exists w. split; [exact Ew|]. split; [exact Vw|].
  intros I HI. rewrite <- (declared_dim sg A D) in *. rewrite Fw by auto. f_equal. cbv zeta. pose proof (vecs_of k A vs Hg) as Hvs. destruct (Nat.eqb_spec (length (gens d I)) (length vs)) as [El|El].
  - rewrite (fwedge_det d (map rd vs) I HI Hvs) by (rewrite map_length; auto). rewrite map_length. apply det_ext. intros a b Ha Hb. rewrite (nth_rd vs h a Ha). reflexivity.
  - apply (homog_fwedge d (map rd vs) Hvs I HI). rewrite map_length, (popcount_bitsum d) by auto. rewrite <- length_gens. exact El.
Qed.
End API.

Section APIF.
Context {T : Type} {RO : RingOps T} {L : RingLaws T} {CL : CommLaws T} {DV : DivOps T} {FL : FieldLaws T} {m : Mode} {H : HashOrder}.
Variables (k : kind) (sg : list tok) (A : algebra).
Hypothesis D : declared sg A.
Hypothesis Hs : supports k A.
Hypothesis Hk : k <> KQuat.
Hypothesis two : radd (r1 : T) r1 <> r0.
Local Notation Sk := (store k T).
Local Notation d := (a_dim A).
Implicit Types vs us : list Sk.

Lemma ip_dot (x y : Sk) : valid A x -> valid A y -> ip A x y = dotv d (a_imag A) (a_proj A) (rd x) (rd y).
Proof. intros Hx Hy. unfold ip. rewrite (v_vdot A sg D x y) by auto. reflexivity. Qed.
Lemma gram_api us vs (h : Sk) : length us = length vs -> Forall (valid A) us -> Forall (of_grade A 1) us -> Forall (valid A) vs -> Forall (of_grade A 1) vs ->
  gp d (a_imag A) (a_proj A) (frev (fwedge d (map rd us))) (fwedge d (map rd vs)) 0%N = det (length vs) (fun a b => ip A (nth a us h) (nth b vs h)).
Proof.
  intros El Hu Gu Hv Gv. rewrite (gram d _ _ two) by (rewrite ?map_length; auto; apply vecs_of; auto). rewrite map_length, El.
  apply det_ext. intros a b Ha Hb. rewrite (nth_rd k us h) by lia. rewrite (nth_rd k vs h) by lia. symmetry. apply ip_dot; [apply (proj1 (Forall_forall _ _) Hu)|apply (proj1 (Forall_forall _ _) Hv)]; apply nth_In; lia.
Qed.
Lemma c88_gram us vs h : length us = length vs -> Forall (valid A) us -> Forall (of_grade A 1) us -> Forall (valid A) vs -> Forall (of_grade A 1) vs ->
  (forall u v, In u us -> In v vs -> mv_vdot A u v = Ok (ip A u v)) /\
  exists x y r, prod_list (k_wedge k A) A us = Ok x /\ prod_list (k_wedge k A) A vs = Ok y /\ mv_rev A x = Ok r /\
    mv_vdot A r y = Ok (det (length vs) (fun a b => ip A (nth a us h) (nth b vs h))).
Proof.
  intros El Hu Gu Hv Gv. split.
  - intros u v Iu Iv. unfold ip. rewrite (v_vdot A sg D u v); auto; [apply (proj1 (Forall_forall _ _) Hu u Iu)|apply (proj1 (Forall_forall _ _) Hv v Iv)].
  - destruct (wedges_give' k sg A D Hs Hk us Hu) as (x & Ex & Vx & Fx). destruct (wedges_give' k sg A D Hs Hk vs Hv) as (y & Ey & Vy & Fy).
    destruct (g_rev A x Vx) as (r & Er & Vr & Fr). exists x, y, r. repeat split; auto. rewrite (v_vdot A sg D r y) by auto. f_equal.
    rewrite <- (gram_api us vs h El Hu Gu Hv Gv). apply gp_ext; [apply pow2_pos| |].
    + intros i Hi. unfold rd at 1. rewrite Fr by auto. unfold frev. unfold rd at 1. rewrite Fx by auto. reflexivity.
    + intros i Hi. unfold rd at 1. rewrite Fy by auto. reflexivity.
Qed.
Lemma c88_mag2 vs h : Forall (valid A) vs -> Forall (of_grade A 1) vs ->
  exists x, prod_list (k_wedge k A) A vs = Ok x /\ mv_mag2 A x = Ok (det (length vs) (fun a b => ip A (nth a vs h) (nth b vs h))).
Proof.
  intros Hv Gv. destruct (wedges_give' k sg A D Hs Hk vs Hv) as (x & Ex & Vx & Fx). exists x. split; [exact Ex|].
  rewrite (v_mag2 A sg D x Vx). f_equal. rewrite <- (gram_api vs vs h eq_refl Hv Gv Hv Gv). apply gp_ext; [apply pow2_pos| |].
  - intros i Hi. unfold frev. unfold rd at 1. rewrite Fx by auto. reflexivity.
  - intros i Hi. unfold rd at 1. rewrite Fx by auto. reflexivity.
Qed.
End APIF.
