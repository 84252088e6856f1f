(** Compositional forms of the operation lemmas, for reasoning about sequences of calls. *)
From Verif Require Export P_Prog.
Local Open Scope nat_scope.

Section Comp.
Context {T : Type} {RO : RingOps T} {W : NumLaws T} {L : RingLaws T} {m : Mode}.
Context {S : Type} {St : Storage T S} {SL : StorageLaws T S}.
Variable A : algebra.
Variable sg : list tok.
Hypothesis D : declared sg A.
Local Notation d := (a_dim A).
Implicit Types x y : S.

Lemma h_Ok x f : valid A x -> feq d (rd x) f -> gives A (Ok x) f.
Proof. intros. eapply gives_ext; [apply gives_Ok; auto|auto]. Qed.
Lemma h_add x y f g : valid A x -> valid A y -> feq d (rd x) f -> feq d (rd y) g -> gives A (mv_add x y) (fadd f g).
Proof. intros ? ? Hf Hg. eapply gives_ext; [apply g_add; auto|]. intros i Hi. unfold fadd. rewrite Hf, Hg; auto. Qed.
Lemma h_sub x y f g : valid A x -> valid A y -> feq d (rd x) f -> feq d (rd y) g -> gives A (mv_sub x y) (fsub f g).
Proof. intros ? ? Hf Hg. eapply gives_ext; [apply g_sub; auto|]. intros i Hi. unfold fsub. rewrite Hf, Hg; auto. Qed.
Lemma h_neg x f : valid A x -> feq d (rd x) f -> gives A (mv_neg A x) (fneg f).
Proof. intros ? Hf. eapply gives_ext; [apply (g_neg A sg D); auto|]. intros i Hi. unfold fneg. rewrite Hf; auto. Qed.
Lemma h_scale x t f : valid A x -> feq d (rd x) f -> gives A (mv_scale A x t) (fun i => rmul (f i) t).
Proof. intros ? Hf. eapply gives_ext; [apply g_scale; auto|]. intros i Hi. cbv beta. rewrite Hf; auto. Qed.
Lemma h_divs {DV : DivOps T} x t f : rdiv r0 t = r0 -> valid A x -> feq d (rd x) f -> gives A (mv_divs A x t) (fun i => rdiv (f i) t).
Proof. intros ? ? Hf. eapply gives_ext; [apply g_divs; auto|]. intros i Hi. cbv beta. rewrite Hf; auto. Qed.
Lemma h_mul x y f g : valid A x -> valid A y -> feq d (rd x) f -> feq d (rd y) g ->
  gives A (mv_mul A x y) (gp d (a_imag A) (a_proj A) f g).
Proof. intros ? ? Hf Hg. eapply gives_ext; [apply (g_mul A sg D); auto|]. apply gp_feq; auto. Qed.
Lemma h_wedge x y f g : valid A x -> valid A y -> feq d (rd x) f -> feq d (rd y) g ->
  gives A (naive_wedge A x y) (gp d 0 (ones d) f g).
Proof. intros ? ? Hf Hg. eapply gives_ext; [apply (g_wedge A sg D); auto|]. apply gp_feq; auto. Qed.
Lemma h_meet x y f g : valid A x -> valid A y -> feq d (rd x) f -> feq d (rd y) g ->
  gives A (naive_meet A x y) (fmeet A f g).
Proof. intros ? ? Hf Hg. eapply gives_ext; [apply (g_meet A sg D); auto|]. apply fmeet_ext; auto. Qed.
Lemma h_flip x f : valid A x -> feq d (rd x) f -> gives A (mv_flip A x) (alpha f).
Proof. intros ? Hf. eapply gives_ext; [apply g_flip; auto|]. intros i Hi. unfold alpha. rewrite Hf; auto. Qed.
Lemma h_flip_subspace x mask f : valid A x -> feq d (rd x) f -> gives A (mv_flip_subspace A x mask) (alpham mask f).
Proof. intros ? Hf. eapply gives_ext; [apply g_flip_subspace; auto|]. intros i Hi. unfold alpham. rewrite Hf; auto. Qed.
Lemma h_rev x f : valid A x -> feq d (rd x) f -> gives A (mv_rev A x) (frev f).
Proof. intros ? Hf. eapply gives_ext; [apply g_rev; auto|]. intros i Hi. unfold frev. rewrite Hf; auto. Qed.
Lemma h_revc {CJ : ConjOps T} x f : rconj (T := T) r0 = r0 -> valid A x -> feq d (rd x) f ->
  gives A (mv_revc A x) (frev (fun i => rconj (f i))).
Proof. intros ? ? Hf. eapply gives_ext; [apply (g_revc A sg D); auto|]. intros i Hi. unfold frev. rewrite Hf; auto. Qed.
Lemma h_dual x f : valid A x -> feq d (rd x) f -> gives A (mv_dual A x) (fdual A f).
Proof. intros ? Hf. eapply gives_ext; [apply (g_dual A sg D); auto|]. apply fdual_ext; auto. Qed.
Lemma h_undual x f : valid A x -> feq d (rd x) f -> gives A (mv_undual A x) (fundual A f).
Proof. intros ? Hf. eapply gives_ext; [apply (g_undual A sg D); auto|]. apply fundual_ext; auto. Qed.
Lemma h_pow x n f : valid A x -> feq d (rd x) f -> gives A (mv_pow A x n) (fpow A f n).
Proof. intros ? Hf. eapply gives_ext; [apply (g_pow A sg D); auto|]. apply fpow_ext; auto. Qed.
Lemma h_grade x n f : valid A x -> feq d (rd x) f ->
  gives A (mv_grade_extract A x n) (fun k => if Nat.eqb (popcount k) n then f k else r0).
Proof. intros ? Hf. eapply gives_ext; [apply g_grade_extract; auto|]. intros i Hi. cbv beta. rewrite Hf; auto. Qed.
Lemma h_set x i v f : (i < pow2 d)%N -> valid A x -> feq d (rd x) f ->
  gives A (Ok (mv_set_by_idx x i v)) (fun j => if (j =? i)%N then v else f j).
Proof. intros ? ? Hf. eapply gives_ext; [apply g_set; auto|]. intros j Hj. cbv beta. rewrite Hf; auto. Qed.

(** Scalar results inside a sequence. *)
Lemma h_val {X} (r : res X) v (k : X -> res S) f : r = Ok v -> gives A (k v) f -> gives A (bind r k) f.
Proof. intros ->. auto. Qed.

Lemma valid_of (x : S) : valid A x -> st_dim_ok (StorageLaws := SL) d.
Proof. apply valid_dim. Qed.
Lemma agree_gives_intro r s (f : N -> T) : gives A (r : res S) f -> gives A s f -> agree A r s.
Proof. intros. eapply agree_intro; eauto. apply feq_refl. Qed.
End Comp.

Lemma h_dense_wedge {T} {RO : RingOps T} {W : NumLaws T} {L : RingLaws T} {m : Mode} A sg (D : declared sg A) (x y : arr T) f g :
  valid A x -> valid A y -> feq (a_dim A) (rd x) f -> feq (a_dim A) (rd y) g ->
  gives A (dense_wedge A x y) (gp (a_dim A) 0 (ones (a_dim A)) f g).
Proof. intros ? ? Hf Hg. eapply gives_ext; [apply (g_dense_wedge A sg D); auto|]. apply gp_feq; auto. Qed.

Lemma h_kwedge {T} {RO : RingOps T} {W : NumLaws T} {L : RingLaws T} {m : Mode} {H : HashOrder} A sg (D : declared sg A) k (x y : store k T) f g :
  k <> KQuat -> valid A x -> valid A y -> feq (a_dim A) (rd x) f -> feq (a_dim A) (rd y) g ->
  gives A (k_wedge k A x y) (gp (a_dim A) 0 (ones (a_dim A)) f g).
Proof.
  intros Hk Hx Hy Hf Hg. destruct k; [apply (h_dense_wedge A sg D x y)|apply (h_wedge A sg D x y)|congruence]; auto.
Qed.
Lemma h_kmeet {T} {RO : RingOps T} {W : NumLaws T} {L : RingLaws T} {m : Mode} {H : HashOrder} A sg (D : declared sg A) k (x y : store k T) f g :
  k <> KQuat -> valid A x -> valid A y -> feq (a_dim A) (rd x) f -> feq (a_dim A) (rd y) g ->
  gives A (k_meet k A x y) (fmeet A f g).
Proof.
  intros Hk Hx Hy Hf Hg. destruct k; [|apply (h_meet A sg D x y); auto|congruence].
  eapply gives_ext; [apply (g_dense_meet A sg D x y); auto|]. apply fmeet_ext; auto.
Qed.

(** [gv D]: find what a sequence of calls gives. *)
Ltac gside := first [eassumption | apply feq_refl | apply valid_of with (1 := ltac:(eassumption))].
Ltac gv D :=
  match goal with
  | |- gives _ (bind _ _) _ => eapply gives_bind; [gv D | let z := fresh "z" in let Hz := fresh "Hz" in let Hf := fresh "Hf" in intros z Hz Hf; gv D]
  | |- gives _ (mv_add _ _) _ => eapply h_add; gside
  | |- gives _ (mv_sub _ _) _ => eapply h_sub; gside
  | |- gives _ (mv_neg _ _) _ => eapply (h_neg _ _ D); gside
  | |- gives _ (mv_scale _ _ _) _ => eapply h_scale; gside
  | |- gives _ (mv_divs _ _ _) _ => eapply h_divs; gside
  | |- gives _ (mv_mul _ _ _) _ => eapply (h_mul _ _ D); gside
  | |- gives _ (naive_wedge _ _ _) _ => eapply (h_wedge _ _ D); gside
  | |- gives _ (naive_meet _ _ _) _ => eapply (h_meet _ _ D); gside
  | |- gives _ (k_wedge _ _ _ _) _ => eapply (h_kwedge _ _ D); gside
  | |- gives _ (k_meet _ _ _ _) _ => eapply (h_kmeet _ _ D); gside
  | |- gives _ (mv_flip _ _) _ => eapply h_flip; gside
  | |- gives _ (mv_flip_subspace _ _ _) _ => eapply h_flip_subspace; gside
  | |- gives _ (mv_rev _ _) _ => eapply h_rev; gside
  | |- gives _ (mv_revc _ _) _ => eapply (h_revc _ _ D); gside
  | |- gives _ (mv_dual _ _) _ => eapply (h_dual _ _ D); gside
  | |- gives _ (mv_undual _ _) _ => eapply (h_undual _ _ D); gside
  | |- gives _ (mv_pow _ _ _) _ => eapply (h_pow _ _ D); gside
  | |- gives _ (mv_grade_extract _ _ _) _ => eapply h_grade; gside
  | |- gives _ (mv_zero _) _ => eapply g_default; gside
  | |- gives _ (mv_default _) _ => eapply g_default; gside
  | |- gives _ (mv_one _) _ => eapply g_one; gside
  | |- gives _ (mv_from_scalar _ _) _ => eapply g_from_scalar; gside
  | |- gives _ (Ok (mv_set_by_idx _ _ _)) _ => eapply h_set; gside
  | |- gives _ (Ok _) _ => eapply h_Ok; gside
  end.
(** Reduce an agreement of two sequences to an equation between coefficient functions. *)
Ltac ag D := eapply agree_intro; [gv D | gv D | ].

Section AddLaws.
Context {T : Type} {RO : RingOps T} {W : NumLaws T} {L : RingLaws T} {m : Mode} {H : HashOrder}.
Variables (k : kind) (sg : list tok) (A : algebra).
Hypothesis D : declared sg A.
Local Notation d := (a_dim A).
Implicit Types x y z : store k T.

Lemma add_laws x y z : valid A x -> valid A y -> valid A z ->
  agree A (mv_add x y) (mv_add y x) /\
  agree A (u <- mv_add x y ;; mv_add u z) (v <- mv_add y z ;; mv_add x v) /\
  agree A (o <- mv_zero A ;; mv_add x o) (Ok x) /\
  agree A (n <- mv_neg A x ;; mv_add x n) (mv_zero A) /\
  agree A (mv_sub x y) (n <- mv_neg A y ;; mv_add x n) /\
  agree A (n <- mv_neg A x ;; mv_neg A n) (Ok x).
Proof.
  intros Hx Hy Hz. assert (HD := valid_of A x Hx). repeat split; ag D; intros i Hi; unfold fadd, fsub, fneg.
  - apply add_comm.
  - symmetry. apply add_assoc.
  - apply add_0_r.
  - apply add_neg_r.
  - apply sub_def.
  - apply neg_neg.
Qed.
End AddLaws.
