(** Symmetries of the exponential, and its independence of the storage. *)
From Coq Require Import Permutation.
From Verif Require Export P_Exp.
Local Open Scope nat_scope.

Section Scale.
Context {T F : Type} {RO : RingOps T} {L : RingLaws T} {RF : RingOps F} {EO : ExpOps F} {NF : NormF T F} {MS : MaxSym T F} {m : Mode}.
Local Notation mx := (fun (a : F) (c : T) => e_max (norm_f c) a).
Lemma fold_mx_in (l : list T) : forall a c, fold_left mx l (e_max (norm_f c) a) = e_max (norm_f c) (fold_left mx l a).
Proof. induction l as [|v l IH]; intros a c; cbn [fold_left]; [reflexivity|]. rewrite (max_swap (norm_f v)). apply IH. Qed.
Lemma fold_mx_perm (l l' : list T) : Permutation l l' -> forall a, fold_left mx l a = fold_left mx l' a.
Proof. induction 1; intros a0; cbn [fold_left]; auto; [rewrite max_swap; reflexivity|congruence]. Qed.
Lemma fold_mx_nz (l : list T) : fold_left mx l r1 = fold_left mx (filter (fun c => negb (ris0 c)) l) r1.
Proof.
  induction l as [|v l IH]; [reflexivity|]. cbn [fold_left filter]. destruct (is0_dec v) as [->|Hv].
  - rewrite max_norm_0, is0_r0. exact IH.
  - rewrite (proj2 (is0_false v)) by auto. cbn [negb fold_left]. rewrite !fold_mx_in, IH. reflexivity.
Qed.
Lemma fold_mx_pt (f g : N -> T) l : (forall i, In i l -> norm_f (F := F) (f i) = norm_f (g i)) -> forall a, fold_left mx (map f l) a = fold_left mx (map g l) a.
Proof. induction l as [|i l IH]; intros E a; cbn [map fold_left]; [reflexivity|]. rewrite E by (left; auto). apply IH. intros; apply E; right; auto. Qed.

Lemma map_filter_snd (l : list (N * T)) : filter (fun c => negb (ris0 c)) (map snd l) = map snd (filter (fun ic => negb (ris0 (snd ic))) l).
Proof. induction l as [|[i c] l IH]; [reflexivity|]. cbn [map filter snd]. destruct (ris0 c); cbn [negb map snd]; rewrite IH; reflexivity. Qed.
Lemma NoDup_fst_filter (l : list (N * T)) p : NoDup (map fst l) -> NoDup (filter p l).
Proof. intros H. apply NoDup_filter. eapply NoDup_map_inv; exact H. Qed.
Lemma enum_fold d (f : N -> T) l : enum_of d f (fun _ => true) l ->
  fold_left mx (map snd l) r1 = fold_left mx (map f (idxs d)) r1.
Proof.
  intros (HN & Hin & Hall). rewrite fold_mx_nz, (fold_mx_nz (map f _)), map_filter_snd.
  replace (map f (idxs d)) with (map snd (map (fun i => (i, f i)) (idxs d))) by (rewrite map_map; reflexivity). rewrite map_filter_snd.
  apply fold_mx_perm, Permutation_map, NoDup_Permutation.
  - apply NoDup_fst_filter; auto.
  - apply NoDup_fst_filter. rewrite map_map. cbn [fst]. rewrite map_id. apply NoDup_idxs.
  - intros [i c]. rewrite !filter_In. cbn [snd]. split; intros [Hi Hc]; split; auto.
    + destruct (Hin i c Hi) as (Hi' & _ & ->). apply in_map_iff. exists i. split; auto. apply in_idxs; auto.
    + apply in_map_iff in Hi. destruct Hi as (j & E & Hj). inversion E; subst. apply Hall; auto; [apply in_idxs; auto|].
      intros E0. rewrite E0, is0_r0 in Hc. discriminate.
Qed.
Lemma fold_snd (l : list (N * T)) : forall a, fold_left (fun mxv ic => e_max (norm_f (snd ic)) mxv) l a = fold_left mx (map snd l) a.
Proof. induction l as [|ic l IH]; intros a; [reflexivity|apply IH]. Qed.
End Scale.

Section Sym.
Context {T F : Type} {RO : RingOps T} {L : RingLaws T} {RF : RingOps F} {LF : RingLaws F} {CF : CommLaws F} {DV : DivOps F} {FL : FieldLaws F} {FRl : FormallyReal F}.
Context {EO : ExpOps F} {EL : EpsLaws F} {NF : NormF T F} {FF : FromF T F} {MS : MaxSym T F} {m : Mode}.
Variables (sg : list tok) (A : algebra).
Hypothesis D : declared sg A.
Local Notation d := (a_dim A).
Local Notation gpA := (gp d (a_imag A) (a_proj A)).

Definition fscale (f : N -> T) : F :=
  e_ceil (e_max (fold_left (fun a c => e_max (norm_f c) a) (map f (idxs d)) r1) (e_sqrt (norm_f (gpA (frev f) f 0%N)))).
Section One.
Context {S : Type} {St : Storage T S} {SL : StorageLaws T S}.
Implicit Types x y : S.
Lemma exp_scale_eq x f : valid A x -> feq d (rd x) f -> mv_exp_scale (F := F) A x = Ok (fscale f).
Proof.
  intros Hx Hf. unfold mv_exp_scale, fscale. rewrite (v_mag2 A sg D x Hx). cbn [bind]. f_equal. f_equal. f_equal.
  - rewrite fold_snd, (enum_fold d (st_coef x)) by (apply st_enum_ok, Hx). apply fold_mx_pt. intros i Hi. apply in_idxs in Hi.
    rewrite <- (rd_coef d x i Hx Hi), Hf by auto. reflexivity.
  - f_equal. f_equal. apply gp_ext; auto using pow2_pos. intros i Hi. unfold frev. rewrite Hf; auto.
Qed.
Definition fexp (f : N -> T) : N -> T := fpow A (tay (F := F) A (fun i => rmul (f i) (from_f (rdiv r1 (fscale f)))) 18) (e_usize (fscale f)).
Lemma h_exp fuel x f : valid A x -> feq d (rd x) f -> 18 < fuel -> gives A (mv_exp (F := F) A fuel x) (fexp f).
Proof.
  intros Hx Hf Hfu. eapply gives_ext; [apply (exp_gives sg A D fuel x _ Hx Hfu (exp_scale_eq x f Hx Hf))|].
  apply fpow_ext, tay_ext. intros i Hi. rewrite Hf; auto.
Qed.
End One.

Lemma norm_sgb b (c : T) : norm_f (F := F) (sgb b c) = norm_f c.
Proof. destruct b; [apply norm_neg|reflexivity]. Qed.
Lemma fscale_sg (b : N -> bool) (f : N -> T) : fscale (fun i => sgb (b i) (f i)) = fscale f.
Proof.
  unfold fscale. f_equal. f_equal.
  - apply fold_mx_pt. intros i _. apply norm_sgb.
  - f_equal. f_equal. rewrite !gp_scalar. apply sumI_ext. intros i Hi. f_equal. unfold frev. rewrite !sgb_mul_l, !sgb_mul_r, !sgb_invol. destruct (b i); cbn [sgb]; rewrite ?neg_neg; reflexivity.
Qed.

Lemma del_sgb b (c : T) i : b 0%N = false -> sgb (b i) (del 0 c i) = del 0 c i.
Proof. intros Hb. unfold del. destruct (N.eqb_spec i 0) as [->|]; [rewrite Hb; reflexivity|]. destruct (b i); [apply neg_0|reflexivity]. Qed.
Lemma frev_pow {CT : CommLaws T} (f : N -> T) n : feq d (frev (fpow A f n)) (fpow A (frev f) n).
Proof.
  induction n as [|n IH]; intros i Hi; [apply (del_sgb (fun i => rbit (popcount i))); reflexivity|]. cbn [fpow]. rewrite frev_gp by auto.
  transitivity (gpA (frev f) (fpow A (frev f) n) i); [apply gp_ext; auto using feq_refl|]. apply fpow_comm; auto.
Qed.
Lemma alpha_pow (f : N -> T) n : feq d (alpha (fpow A f n)) (fpow A (alpha f) n).
Proof.
  induction n as [|n IH]; intros i Hi; [apply (del_sgb (fun i => par i)); reflexivity|]. cbn [fpow]. rewrite alpha_gp by auto. apply gp_ext; auto using feq_refl.
Qed.
Lemma frev_tay {CT : CommLaws T} (f : N -> T) n : feq d (frev (tay (F := F) A f n)) (tay (F := F) A (frev f) n).
Proof.
  induction n as [|n IH]; intros i Hi; [apply (del_sgb (fun i => rbit (popcount i))); reflexivity|]. cbn [tay]. unfold fadd. rewrite <- IH, <- frev_pow by auto. unfold frev. rewrite sgb_add, sgb_mul_l. reflexivity.
Qed.
Lemma alpha_tay (f : N -> T) n : feq d (alpha (tay (F := F) A f n)) (tay (F := F) A (alpha f) n).
Proof.
  induction n as [|n IH]; intros i Hi; [apply (del_sgb (fun i => par i)); reflexivity|]. cbn [tay]. unfold fadd. rewrite <- IH, <- alpha_pow by auto. unfold alpha. rewrite sgb_add, sgb_mul_l. reflexivity.
Qed.
Lemma frev_exp {CT : CommLaws T} (f : N -> T) : feq d (frev (fexp f)) (fexp (frev f)).
Proof.
  unfold fexp. rewrite (fscale_sg (fun i => rbit (popcount i)) f : fscale (frev f) = fscale f).
  eapply feq_trans; [apply frev_pow|]. apply fpow_ext. eapply feq_trans; [apply frev_tay|]. apply tay_ext. intros i Hi. unfold frev. symmetry. apply sgb_mul_l.
Qed.
Lemma alpha_exp (f : N -> T) : feq d (alpha (fexp f)) (fexp (alpha f)).
Proof.
  unfold fexp. rewrite (fscale_sg (fun i => par i) f : fscale (alpha f) = fscale f).
  eapply feq_trans; [apply alpha_pow|]. apply fpow_ext. eapply feq_trans; [apply alpha_tay|]. apply tay_ext. intros i Hi. unfold alpha. symmetry. apply sgb_mul_l.
Qed.
Section Thm.
Context {S : Type} {St : Storage T S} {SL : StorageLaws T S}.
Implicit Types x y : S.
Theorem exp_rev {CT : CommLaws T} fuel x : valid A x -> 18 < fuel ->
  agree A (y <- mv_rev A x ;; mv_exp (F := F) A fuel y) (e <- mv_exp (F := F) A fuel x ;; mv_rev A e).
Proof.
  intros Hx Hfu. eapply agree_intro.
  - eapply gives_bind; [apply (g_rev A x Hx)|]. intros y Hy Hy'. apply (h_exp fuel y _ Hy Hy' Hfu).
  - eapply gives_bind; [apply (h_exp fuel x _ Hx (feq_refl _ _) Hfu)|]. intros e He He'. apply (h_rev A e _ He He').
  - apply feq_sym, frev_exp.
Qed.
Theorem exp_flip fuel x : valid A x -> 18 < fuel ->
  agree A (y <- mv_flip A x ;; mv_exp (F := F) A fuel y) (e <- mv_exp (F := F) A fuel x ;; mv_flip A e).
Proof.
  intros Hx Hfu. eapply agree_intro.
  - eapply gives_bind; [apply (g_flip A x Hx)|]. intros y Hy Hy'. apply (h_exp fuel y _ Hy Hy' Hfu).
  - eapply gives_bind; [apply (h_exp fuel x _ Hx (feq_refl _ _) Hfu)|]. intros e He He'. apply (h_flip A e _ He He').
  - apply feq_sym, alpha_exp.
Qed.
End Thm.
Theorem exp_storages {S S'} {St : Storage T S} {SL : StorageLaws T S} {St' : Storage T S'} {SL' : StorageLaws T S'} fuel (x : S) (y : S') :
  valid A x -> valid A y -> 18 < fuel -> (forall i, (i < pow2 d)%N -> rd x i = rd y i) ->
  exists u v, mv_exp (F := F) A fuel x = Ok u /\ mv_exp (F := F) A fuel y = Ok v /\ valid A u /\ valid A v /\
    forall i, (i < pow2 d)%N -> rd u i = rd v i.
Proof.
  intros Hx Hy Hfu E. destruct (proj1 (gives_iff _ _ _) (h_exp fuel x (rd y) Hx E Hfu)) as (u & Eu & Hu & Hcu).
  destruct (proj1 (gives_iff _ _ _) (h_exp fuel y (rd y) Hy (feq_refl _ _) Hfu)) as (v & Ev & Hv & Hcv).
  exists u, v. split; auto. split; auto. split; auto. split; auto. intros i Hi. rewrite !(rd_coef d) by auto. rewrite Hcu, Hcv by auto. reflexivity.
Qed.
End Sym.
