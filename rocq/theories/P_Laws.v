(** Operations and laws in the vocabulary of [Spec]. *)
From Verif Require Export P_Spec.
Local Open Scope nat_scope.

Section Laws.
Context {T : Type} {RO : RingOps T} {W : NumLaws T} {L : RingLaws T} {m : Mode}.

Lemma zact_sign s (x : T) : zact (sign_i8 s) x = act s x.
Proof. destruct s; reflexivity. Qed.

Lemma single_del j (c : T) : single j c = del j c.
Proof. reflexivity. Qed.

Lemma spec_mul_gp q d Q P (x y : N -> T) : metric q d Q P -> feq d (spec_mul q d x y) (gp d Q P x y).
Proof.
  intros Hq k Hk. unfold spec_mul, gp. rewrite <- (sumI_xor_target d (gsign d Q P)) by auto.
  apply sumI_ext. intros i Hi. apply sumI_ext. intros j Hj.
  destruct (N.lxor i j =? k)%N; auto. rewrite (csign_ok q d Q P) by auto. apply zact_sign.
Qed.

Section One.
Context {S : Type} {St : Storage T S} {SL : StorageLaws T S}.

Lemma rd_coef d (x : S) i : st_wf d x -> (i < pow2 d)%N -> rd x i = st_coef x i.
Proof. intros Hx Hi. unfold rd, mv_get_by_idx. rewrite (st_get_ok d) by auto. reflexivity. Qed.

Lemma rd_feq d (x : S) : st_wf d x -> feq d (rd x) (st_coef x).
Proof. intros Hx i Hi. apply (rd_coef d); auto. Qed.

Variable A : algebra.
Local Notation d := (a_dim A).

Lemma gives_iff r f : gives A r f <->
  exists z : S, r = Ok z /\ st_wf d z /\ forall k, (k < pow2 d)%N -> st_coef z k = f k.
Proof.
  unfold gives, valid. split; intros (z & E & Hz & H); exists z; split; auto; split; auto; intros k Hk.
  - specialize (H k Hk). unfold mv_get_by_idx in H. rewrite (st_get_ok d) in H by auto. congruence.
  - unfold mv_get_by_idx. rewrite (st_get_ok d) by auto. f_equal. auto.
Qed.

Lemma gives_ext r f g : gives A r f -> feq d f g -> gives A (r : res S) g.
Proof. intros (z & E & Hz & H) Hfg. exists z. split; auto. split; auto. intros k Hk. rewrite H by auto. f_equal. auto. Qed.

Lemma gives_Ok (x : S) : valid A x -> gives A (Ok x) (rd x).
Proof.
  intros Hx. exists x. split; auto. split; auto. intros k Hk. unfold rd, mv_get_by_idx.
  rewrite (st_get_ok d) by auto. reflexivity.
Qed.

Lemma gives_bind (r : res S) {S'} {St' : Storage T S'} {SL' : StorageLaws T S'} (k : S -> res S') f g :
  gives A r f -> (forall z, valid A z -> feq d (rd z) f -> gives A (k z) g) -> gives A (bind r k) g.
Proof.
  intros (z & -> & Hz & H) Hk. simpl. apply Hk; auto. intros i Hi. unfold rd. rewrite H by auto. reflexivity.
Qed.

Lemma gives_rd r f (z : S) : gives A r f -> r = Ok z -> valid A z /\ feq d (rd z) f.
Proof.
  intros (z' & E & Hz & H) E'. assert (z' = z) by congruence. subst. split; auto.
  intros i Hi. unfold rd. rewrite H; auto.
Qed.

Lemma agree_intro r s f g : gives A (r : res S) f -> gives A s g -> feq d f g -> agree A r s.
Proof.
  intros Hr Hs Hfg. apply gives_iff in Hr, Hs.
  destruct Hr as (x & Ex & Hx & Hcx), Hs as (y & Ey & Hy & Hcy).
  exists x, y. split; auto. split; auto. split; auto. split; auto.
  assert (G : forall i, (i < pow2 d)%N -> st_coef x i = st_coef y i).
  { intros i Hi. rewrite Hcx, Hcy; auto. }
  split.
  - apply (eqb_ok A); auto.
  - intros k Hk. rewrite !(rd_coef d) by auto. auto.
Qed.

Lemma agree_gives r s f : agree A r s -> gives A (s : res S) f -> gives A r f.
Proof.
  intros (x & y & -> & -> & Hx & Hy & _ & He) Hs. exists x. split; auto. split; auto.
  intros k Hk. destruct (gives_rd _ _ y Hs eq_refl) as [_ Hf].
  destruct (gives_Ok x Hx) as (x' & E & _ & H). injection E as <-. rewrite H by auto. f_equal.
  rewrite He by auto. auto.
Qed.

Variable sg : list tok.
Hypothesis D : declared sg A.
Let AOK := declared_ok sg A D.
Local Notation Q := (a_imag A).
Local Notation P := (a_proj A).
Local Notation gpA := (gp d Q P).

Lemma valid_dim x : valid A x -> st_dim_ok d.
Proof. apply st_wf_dim. Qed.
Hint Resolve valid_dim : core.

Ltac fin H := let z := fresh "z" in let E := fresh in let Hz := fresh in let Hc := fresh in
  destruct H as (z & E & Hz & Hc); apply gives_iff; exists z; split; [exact E|]; split; [exact Hz|].

Lemma g_default : st_dim_ok (StorageLaws := SL) d -> gives A (mv_default A) (fun _ => r0).
Proof. intros HD. fin (default_ok (S := S) A HD). intros; auto. Qed.

Lemma g_from_scalar s : st_dim_ok (StorageLaws := SL) d -> gives A (mv_from_scalar A s) (del 0 s).
Proof. intros HD. fin (from_scalar_ok (S := S) A HD s). intros; auto. Qed.

Lemma g_one : st_dim_ok (StorageLaws := SL) d -> gives A (mv_one A) (del 0 r1).
Proof. apply g_from_scalar. Qed.

Lemma g_add x y : valid A x -> valid A y -> gives A (mv_add x y) (fadd (rd x) (rd y)).
Proof.
  intros Hx Hy. fin (add_ok A x y Hx Hy). intros k Hk. unfold fadd. rewrite !(rd_coef d) by auto. auto.
Qed.
Lemma g_sub x y : valid A x -> valid A y -> gives A (mv_sub x y) (fsub (rd x) (rd y)).
Proof.
  intros Hx Hy. fin (sub_ok A x y Hx Hy). intros k Hk. unfold fsub. rewrite !(rd_coef d) by auto. auto.
Qed.
Lemma g_neg x : valid A x -> gives A (mv_neg A x) (fneg (rd x)).
Proof.
  intros Hx. fin (neg_ok A AOK (valid_dim x Hx) x Hx). intros k Hk. unfold fneg. rewrite !(rd_coef d) by auto. auto.
Qed.
Lemma g_scale x t : valid A x -> gives A (mv_scale A x t) (fun k => rmul (rd x k) t).
Proof.
  intros Hx. fin (scale_ok A (valid_dim x Hx) x t Hx). intros k Hk. rewrite !(rd_coef d) by auto. auto.
Qed.
Lemma g_divs {DV : DivOps T} x t : valid A x -> rdiv r0 t = r0 -> gives A (mv_divs A x t) (fun k => rdiv (rd x k) t).
Proof.
  intros Hx H0. fin (divs_ok A (valid_dim x Hx) x t Hx H0). intros k Hk. rewrite !(rd_coef d) by auto. auto.
Qed.
Lemma g_mul x y : valid A x -> valid A y -> gives A (mv_mul A x y) (gpA (rd x) (rd y)).
Proof.
  intros Hx Hy. fin (mul_ok A AOK (valid_dim x Hx) x y Hx Hy). intros k Hk.
  rewrite (gp_ext d Q P (rd x) (st_coef x) (rd y) (st_coef y)) by (auto; apply rd_feq; auto). auto.
Qed.
Lemma g_wedge x y : valid A x -> valid A y -> gives A (naive_wedge A x y) (gp d 0 (ones d) (rd x) (rd y)).
Proof.
  intros Hx Hy. fin (wedge_ok A AOK (valid_dim x Hx) x y Hx Hy). intros k Hk.
  rewrite (gp_ext d 0 (ones d) (rd x) (st_coef x) (rd y) (st_coef y)) by (auto; apply rd_feq; auto).
  rewrite <- wp_gp. auto.
Qed.
Lemma g_flip x : valid A x -> gives A (mv_flip A x) (alpha (rd x)).
Proof.
  intros Hx. fin (flip_ok A (valid_dim x Hx) x Hx). intros k Hk. unfold alpha. rewrite !(rd_coef d) by auto. auto.
Qed.
Definition alpham (mask : N) (x : N -> T) (i : N) : T := sgb (par (N.land i mask)) (x i).
Lemma g_flip_subspace x mask : valid A x -> gives A (mv_flip_subspace A x mask) (alpham mask (rd x)).
Proof.
  intros Hx. fin (flip_subspace_ok A (valid_dim x Hx) x mask Hx). intros k Hk. unfold alpham. rewrite !(rd_coef d) by auto. auto.
Qed.
Definition frev (x : N -> T) (i : N) : T := sgb (rbit (popcount i)) (x i).
Lemma g_rev x : valid A x -> gives A (mv_rev A x) (frev (rd x)).
Proof.
  intros Hx. fin (rev_ok A (valid_dim x Hx) x Hx). intros k Hk. unfold frev. rewrite !(rd_coef d) by auto. auto.
Qed.
Lemma g_revc {C : ConjOps T} x : rconj r0 = r0 -> valid A x -> gives A (mv_revc A x) (frev (fun k => rconj (rd x k))).
Proof.
  intros H0 Hx. fin (revc_ok A AOK (valid_dim x Hx) x H0 Hx). intros k Hk. unfold frev. rewrite !(rd_coef d) by auto. auto.
Qed.
Definition cpl (k : N) : N := N.ldiff (ones d) k.
Definition fdual (x : N -> T) (k : N) : T := sgb (beta d k (cpl k)) (x (cpl k)).
Definition fundual (x : N -> T) (k : N) : T := sgb (beta d (cpl k) k) (x (cpl k)).
Lemma cpl_lt k : (cpl k < pow2 d)%N.
Proof. apply cmpl_lt. Qed.
Lemma cpl_invol k : (k < pow2 d)%N -> cpl (cpl k) = k.
Proof. apply cmpl_invol. Qed.
Lemma g_dual x : valid A x -> gives A (mv_dual A x) (fdual (rd x)).
Proof.
  intros Hx. fin (dual_ok A AOK (valid_dim x Hx) x Hx). intros k Hk. unfold fdual.
  rewrite !(rd_coef d) by (auto; apply cpl_lt). auto.
Qed.
Lemma g_undual x : valid A x -> gives A (mv_undual A x) (fundual (rd x)).
Proof.
  intros Hx. fin (undual_ok A AOK (valid_dim x Hx) x Hx). intros k Hk. unfold fundual.
  rewrite !(rd_coef d) by (auto; apply cpl_lt). auto.
Qed.
Lemma g_set x i v : valid A x -> (i < pow2 d)%N ->
  gives A (Ok (mv_set_by_idx x i v)) (fun j => if (j =? i)%N then v else rd x j).
Proof.
  intros Hx Hi. destruct (st_set_ok d x i v Hx) as [H1 H2]. apply gives_iff. eexists. split; [reflexivity|].
  split; [exact H1|]. intros k Hk. rewrite (rd_coef d) by auto. unfold mv_set_by_idx. rewrite H2.
  apply N.ltb_lt in Hi. rewrite Hi, andb_true_r, N.eqb_sym. reflexivity.
Qed.
Lemma g_pow x n : valid A x -> gives A (mv_pow A x n) (fpow A (rd x) n).
Proof.
  intros Hx. fin (pow_ok A AOK (valid_dim x Hx) x n Hx). intros k Hk. rewrite H1 by auto.
  clear -Hx Hk L. revert k Hk. induction n as [|n IH]; intros k Hk; simpl; auto.
  apply gp_ext; auto. apply feq_sym, rd_feq; auto.
Qed.

Lemma g_grade_extract x g : valid A x ->
  gives A (mv_grade_extract A x g) (fun k => if Nat.eqb (popcount k) g then rd x k else r0).
Proof.
  intros Hx. fin (grade_extract_as_ok (S := S) (S' := S) A (valid_dim x Hx) x g Hx). intros k Hk.
  rewrite !(rd_coef d) by auto. auto.
Qed.

Lemma v_vsdot x y : valid A x -> valid A y -> mv_vsdot x y = Ok (sumI d (fun i => rmul (rd x i) (rd y i))).
Proof.
  intros Hx Hy. rewrite (vsdot_ok A x y Hx Hy). f_equal. apply sumI_ext. intros i Hi.
  rewrite !(rd_coef d) by auto. reflexivity.
Qed.
Lemma v_vdot x y : valid A x -> valid A y -> mv_vdot A x y = Ok (gpA (rd x) (rd y) 0%N).
Proof.
  intros Hx Hy. rewrite (vdot_ok A AOK x y Hx Hy). f_equal. rewrite <- gp_scalar.
  apply gp_ext; auto using pow2_pos; apply feq_sym, rd_feq; auto.
Qed.
Lemma v_mag2 x : valid A x -> mv_mag2 A x = Ok (gpA (frev (rd x)) (rd x) 0%N).
Proof.
  intros Hx. rewrite (mag2_ok A AOK x Hx). f_equal.
  change (sumI d (fun i => act (gsign d Q P i i) (rmul (frev (st_coef x) i) (st_coef x i))) = gpA (frev (rd x)) (rd x) 0%N).
  rewrite <- gp_scalar. apply gp_ext; auto using pow2_pos; try apply feq_sym, rd_feq; auto.
  intros i Hi. unfold frev. rewrite (rd_coef d); auto.
Qed.
Lemma v_cmag2 {C : ConjOps T} x : rconj r0 = r0 -> valid A x ->
  mv_cmag2 A x = Ok (gpA (frev (fun k => rconj (rd x k))) (rd x) 0%N).
Proof.
  intros H0 Hx. rewrite (cmag2_ok A AOK (valid_dim x Hx) x H0 Hx). f_equal.
  change (sumI d (fun i => act (gsign d Q P i i) (rmul (frev (fun k => rconj (st_coef x k)) i) (st_coef x i)))
    = gpA (frev (fun k => rconj (rd x k))) (rd x) 0%N).
  rewrite <- gp_scalar. apply gp_ext; auto using pow2_pos; try apply feq_sym, rd_feq; auto.
  intros i Hi. unfold frev. rewrite (rd_coef d); auto.
Qed.
Lemma v_scalar x : valid A x -> mv_scalar_part x = Ok (rd x 0%N).
Proof.
  intros Hx. unfold mv_scalar_part, rd. destruct (mv_get_by_idx x 0) eqn:E; auto;
  unfold mv_get_by_idx in E; rewrite (st_get_ok d) in E by (auto using pow2_pos); discriminate.
Qed.

End One.
End Laws.
