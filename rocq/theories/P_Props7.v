(** Lemmas behind C52 and C53. *)
From Verif Require Export P_Props6 M_Nested.
Local Open Scope nat_scope.

Section Nest.
Context {T : Type} {RO : RingOps T} {L : RingLaws T} {m : Mode} {H : HashOrder}.
Variables (sg : list tok) (A : algebra).
Hypothesis D : declared sg A.
Local Notation d := (a_dim A).

Definition nv (x : nested T A) : store KDense T := proj1_sig x.
Lemma fits_valid (x : store KDense T) : valid A x <-> fits A x = true.
Proof.
  unfold valid, fits. cbn. unfold arr_wf. rewrite Bool.andb_true_iff, !Nat.eqb_eq.
  pose proof (ok_dim A (declared_ok _ _ D)). intuition.
Qed.
Lemma nested_eq (x y : nested T A) : proj1_sig x = proj1_sig y -> x = y.
Proof.
  destruct x as [x p], y as [y q]. cbn. intros E. subst y. f_equal. apply Eqdep_dec.UIP_dec, Bool.bool_dec.
Qed.
Lemma settle_ok r (z : arr T) : r = Ok z -> fits A z = true -> proj1_sig (settle A r) = z.
Proof. intros -> E. cbn. destruct (Bool.bool_dec _ _); [reflexivity|congruence]. Qed.
Lemma settle_gives r f : gives (S := store KDense T) A r f -> r = Ok (nv (settle A r)) /\ feq d (rd (nv (settle A r))) f.
Proof.
  intros (z & E & Hz & F). assert (E' : proj1_sig (settle A r) = z) by (apply settle_ok; auto; apply fits_valid; auto).
  unfold nv. rewrite E'. split; auto. intros i Hi. unfold rd. rewrite F; auto.
Qed.
Lemma nested_ext (x y : nested T A) : feq d (rd (nv x)) (rd (nv y)) -> x = y.
Proof.
  intros E. apply nested_eq. destruct x as [x p], y as [y q]. unfold nv in E; cbn [proj1_sig] in *.
  pose proof (proj2 (fits_valid x) p) as Vx. pose proof (proj2 (fits_valid y) q) as Vy.
  assert (E' : feq d (lc (arr_data x)) (lc (arr_data y))).
  { intros i Hi. pose proof (E i Hi) as Ei. rewrite (rd_coef d _ i Vx Hi), (rd_coef d _ i Vy Hi) in Ei. exact Ei. }
  destruct Vx as (_ & Dx & Lx), Vy as (_ & Dy & Ly).
  destruct x as [dx lx], y as [dy ly]. cbn in *. subst dx dy. f_equal. apply (list_lc lx ly d); auto.
Qed.
Lemma nv_valid (x : nested T A) : valid A (nv x).
Proof. apply fits_valid. exact (proj2_sig x). Qed.

Lemma no_add x y : mv_add (nv x) (nv y) = Ok (nv (radd (RingOps := nested_ops A) x y)) /\ feq d (rd (nv (radd (RingOps := nested_ops A) x y))) (fadd (rd (nv x)) (rd (nv y))).
Proof. apply settle_gives. apply h_add; auto using nv_valid, feq_refl. Qed.
Lemma no_sub x y : mv_sub (nv x) (nv y) = Ok (nv (rsub (RingOps := nested_ops A) x y)) /\ feq d (rd (nv (rsub (RingOps := nested_ops A) x y))) (fsub (rd (nv x)) (rd (nv y))).
Proof. apply settle_gives. apply h_sub; auto using nv_valid, feq_refl. Qed.
Lemma no_mul x y : mv_mul A (nv x) (nv y) = Ok (nv (rmul (RingOps := nested_ops A) x y)) /\
  feq d (rd (nv (rmul (RingOps := nested_ops A) x y))) (gp d (a_imag A) (a_proj A) (rd (nv x)) (rd (nv y))).
Proof. apply settle_gives. apply (h_mul A sg D); auto using nv_valid, feq_refl. Qed.
Lemma no_neg x : mv_neg A (nv x) = Ok (nv (rneg (RingOps := nested_ops A) x)) /\ feq d (rd (nv (rneg (RingOps := nested_ops A) x))) (fneg (rd (nv x))).
Proof. apply settle_gives. apply (h_neg A sg D); auto using nv_valid, feq_refl. Qed.
Lemma no_dim : st_dim_ok (S := store KDense T) d.
Proof. apply (supports_dim sg A KDense D). exact I. Qed.
Lemma no_0 : mv_zero A = Ok (nv (r0 (RingOps := nested_ops A))) /\ feq d (rd (nv (r0 (RingOps := nested_ops A)))) (fun _ => r0).
Proof. apply settle_gives. pose proof no_dim. gv D. Qed.
Lemma no_1 : mv_one A = Ok (nv (r1 (RingOps := nested_ops A))) /\ feq d (rd (nv (r1 (RingOps := nested_ops A)))) (del 0 r1).
Proof. apply settle_gives. pose proof no_dim. gv D. Qed.

Ltac nexp := repeat match goal with
  | |- context[rd (nv (radd ?a ?b)) ?i] => rewrite (proj2 (no_add a b) i) by auto
  | |- context[rd (nv (rsub ?a ?b)) ?i] => rewrite (proj2 (no_sub a b) i) by auto
  | |- context[rd (nv (rneg ?a)) ?i] => rewrite (proj2 (no_neg a) i) by auto
  | |- context[rd (nv (rmul ?a ?b)) ?i] => rewrite (proj2 (no_mul a b) i) by auto
  | |- context[rd (nv r0) ?i] => rewrite (proj2 no_0 i) by auto
  | |- context[rd (nv r1) ?i] => rewrite (proj2 no_1 i) by auto
  end.
Lemma nested_laws : RingLaws (nested T A) (O := nested_ops A).
Proof.
  constructor.
  1-10: intros; apply nested_ext; intros i Hi; nexp; unfold fadd, fsub, fneg; nexp.
  - apply add_comm.
  - apply add_assoc.
  - apply add_0_l.
  - apply add_neg_r.
  - apply sub_def.
  - transitivity (gp d (a_imag A) (a_proj A) (rd (nv a)) (gp d (a_imag A) (a_proj A) (rd (nv b)) (rd (nv c))) i).
    + apply gp_ext; auto using feq_refl. apply no_mul.
    + rewrite <- gp_assoc by auto. apply gp_ext; auto using feq_refl. apply feq_sym, no_mul.
  - transitivity (gp d (a_imag A) (a_proj A) (del 0 r1) (rd (nv a)) i); [apply gp_ext; auto using feq_refl; apply no_1|apply gp_1_l].
  - transitivity (gp d (a_imag A) (a_proj A) (rd (nv a)) (del 0 r1) i); [apply gp_ext; auto using feq_refl; apply no_1|apply gp_1_r; auto].
  - transitivity (gp d (a_imag A) (a_proj A) (fadd (rd (nv a)) (rd (nv b))) (rd (nv c)) i); [apply gp_ext; auto using feq_refl; apply no_add|].
    rewrite gp_add_l. reflexivity.
  - transitivity (gp d (a_imag A) (a_proj A) (rd (nv a)) (fadd (rd (nv b)) (rd (nv c))) i); [apply gp_ext; auto using feq_refl; apply no_add|].
    rewrite gp_add_r. reflexivity.
  - intros a. change (ris0 a) with (mv_is_zero (nv a)). pose proof (nv_valid a) as Va. rewrite (is_zero_ok A (nv a) Va). split.
    + intros E. apply nested_ext. intros i Hi. nexp. rewrite (rd_coef d _ i Va Hi). apply E; auto.
    + intros -> i Hi. rewrite <- (rd_coef d _ i (nv_valid _) Hi). apply no_0; auto.
  - intros a b. change (reqb a b) with (mv_eqb (nv a) (nv b)). rewrite (eqb_ok A (nv a) (nv b) (nv_valid a) (nv_valid b)). split.
    + intros E. apply nested_ext. intros i Hi. rewrite !(rd_coef d _ i (nv_valid _) Hi). auto.
    + intros ->. auto.
Qed.
End Nest.

Lemma tower_laws {m : Mode} {H : HashOrder} T (RO : RingOps T) (L : RingLaws T) l : Forall (fun A => exists sg, declared sg A) l ->
  @RingLaws (projT1 (tower T RO l)) (projT2 (tower T RO l)).
Proof.
  induction 1 as [|A l (sg & D) _ IH]; [exact L|]. cbn [tower projT1 projT2].
  exact (@nested_laws _ (projT2 (tower T RO l)) IH m H sg A D).
Qed.

Lemma nested_calls_thm {T} {RO : RingOps T} {L : RingLaws T} {m : Mode} {H : HashOrder} sg A : declared sg A ->
  let v (x : nested T A) : arr T := proj1_sig x in
  let O := nested_ops A in
  (forall x y, mv_add (v x) (v y) = Ok (v (radd x y))) /\ (forall x y, mv_sub (v x) (v y) = Ok (v (rsub x y))) /\
  (forall x y, mv_mul A (v x) (v y) = Ok (v (rmul x y))) /\ (forall x, mv_neg A (v x) = Ok (v (rneg x))) /\
  mv_zero A = Ok (v r0) /\ mv_one A = Ok (v r1) /\
  (forall z : store KDense T, valid A z -> exists x, v x = z).
Proof.
  intros D v O. split; [intros; apply (no_add sg A D)|]. split; [intros; apply (no_sub sg A D)|].
  split; [intros; apply (no_mul sg A D)|]. split; [intros; apply (no_neg sg A D)|].
  split; [apply (no_0 sg A D)|]. split; [apply (no_1 sg A D)|].
  intros z Hz. exists (exist _ z (proj1 (fits_valid sg A D z) Hz)). reflexivity.
Qed.

(** C52 *)
Lemma below_64_thm {T} {RO : RingOps T} {L : RingLaws T} {m : Mode} {H : HashOrder} (k : kind) sg A : declared sg A -> supports k A ->
  gives A (mv_zero A : res (store k T)) (fun _ => r0) /\
  gives A (mv_one A : res (store k T)) (single 0%N r1) /\
  (exists l : list (store k T), mv_basis A = Ok l /\ length l = a_dim A /\
     forall i, i < a_dim A -> exists e, nth_error l i = Some e /\ gives A (Ok e) (single (2 ^ N.of_nat i)%N r1)) /\
  (forall l, (forall i c, In (i, c) l -> (i < 2 ^ N.of_nat (a_dim A))%N) ->
     gives A (mv_from_indexed_iter A l : res (store k T)) (last_write l)).
Proof.
  intros D Hs. pose proof (supports_dim (T := T) sg A k D Hs) as HD. split; [gv D|]. split; [gv D|]. split.
  - destruct (basis_gives k sg A D Hs) as (l & E & Hl & Hb). exists l. split; auto. split; auto. intros i Hi.
    destruct (Hb i Hi) as (e & Ee & Ve & Fe). exists e. split; auto. apply h_Ok; auto.
  - intros l Hl. apply (from_indexed_thm k sg A l D Hs). exact Hl.
Qed.

Lemma at_64_thm {T} {RO : RingOps T} {L : RingLaws T} {m : Mode} {H : HashOrder} sg names A :
  declare_algebra sg names = Some A -> length sg = 64 ->
  (checks = true -> mv_zero A = Panic (A := store KSparse T) /\ mv_one A = Panic (A := store KSparse T) /\ mv_basis A = Panic (A := list (store KSparse T))) /\
  (checks = false ->
    (exists l : list (store KSparse T), mv_basis A = Ok l /\ length l = 64 /\ Forall (fun e => mv_is_zero e = true) l) /\
    (forall i c, (0 < i)%N -> mv_from_indexed_iter A [(i, c)] = Err IndexOutOfBounds (A := store KSparse T))).
Proof.
  intros E Hl. assert (Ed : a_dim A = 64) by (rewrite <- Hl; apply declare_inv in E; tauto).
  split; intros Hc.
  - assert (Z : mv_zero A = Panic (A := store KSparse T)).
    { unfold mv_zero, mv_default. rewrite Ed. cbn. unfold sps_new, shl. rewrite Hc. reflexivity. }
    split; auto. split.
    + unfold mv_one, mv_from_scalar. unfold mv_zero in Z. rewrite Z. reflexivity.
    + unfold mv_basis. rewrite Ed. change (seq 0 64) with (0 :: seq 1 63). cbn [mapM]. rewrite Z. reflexivity.
  - assert (Z : mv_zero A = Ok (mkSps 64 1 hm_seed [] : store KSparse T)).
    { unfold mv_zero, mv_default. rewrite Ed. cbn. unfold sps_new, shl. rewrite Hc. reflexivity. }
    split.
    + exists (repeat (mkSps 64 1 hm_seed [] : store KSparse T) 64). split; [|split; [reflexivity|]].
      * unfold mv_basis. rewrite Ed. assert (G : forall l, Forall (fun n => n < 64) l ->
          mapM (fun n => z <- mv_zero (S := store KSparse T) A ;; i <- shl 1 n ;; Ok (mv_set_by_idx z i r1)) l = Ok (repeat (mkSps 64 1 hm_seed [] : store KSparse T) (length l))).
        { induction 1 as [|n l Hn _ IH]; [reflexivity|]. cbn [mapM]. rewrite IH, Z, shl_1 by auto. cbn [bind].
          assert (Es : mv_set_by_idx (mkSps 64 1 hm_seed [] : store KSparse T) (pow2 n) r1 = mkSps 64 1 hm_seed []).
          { unfold mv_set_by_idx. cbn. unfold sps_set. cbn [sps_size]. assert (B : (pow2 n <? 1)%N = false) by (apply N.ltb_ge; pose proof (pow2_pos n); lia).
            rewrite B. reflexivity. }
          rewrite Es. reflexivity. }
        rewrite G; [rewrite seq_length; reflexivity|]. apply Forall_forall. intros x Hx. apply in_seq in Hx. lia.
      * apply Forall_forall. intros x Hx. apply repeat_spec in Hx. subst x. unfold mv_is_zero. cbn. unfold sps_enum. cbn.
        pose proof (hm_order_perm T hm_seed []) as Hp. apply Permutation_nil in Hp. rewrite Hp. reflexivity.
    + intros i c Hi. unfold mv_from_indexed_iter. unfold mv_zero in Z. rewrite Z. cbn [bind foldM fst snd].
      rewrite Ed. unfold shl. rewrite Hc. cbn [Nat.ltb Nat.leb].
      assert (Em : N.modulo (N.shiftl 1 (N.of_nat (64 mod 64))) (pow2 64) = 1%N) by reflexivity. rewrite Em. cbn [bind].
      assert (B : (1 <=? i)%N = true) by (apply N.leb_le; lia). rewrite B. reflexivity.
Qed.
