(** The exponential of multivectors. *)
From Verif Require Export Spec_Exp P_Props6 P_Props9 P_Props10.
Local Open Scope nat_scope.

(** *** Factorials *)
Section Fact.
Context {F : Type} {RF : RingOps F} {LF : RingLaws F} {CF : CommLaws F} {DV : DivOps F} {FL : FieldLaws F} {FRl : FormallyReal F} {EO : ExpOps F} {EL : EpsLaws F}.
Fixpoint nfact (k : nat) : N := match k with O => 1 | S k => nfact k * N.of_nat (S k) end%N.
Lemma nat_f_mul a b : nat_f (F := F) (a * b) = rmul (nat_f a) (nat_f b).
Proof.
  induction b as [|b IH]; [rewrite Nat.mul_0_r; cbn; symmetry; apply mul_0_r|]. rewrite Nat.mul_succ_r, nat_f_add, IH. cbn [nat_f]. rewrite mul_add_r, mul_1_r. reflexivity.
Qed.
Lemma nat_f_1 : nat_f (F := F) 1 = r1.
Proof. cbn. apply add_0_l. Qed.
Lemma fact_nat k : fact_f (F := F) k = nat_f (N.to_nat (nfact k)).
Proof.
  induction k as [|k IH]; [symmetry; apply nat_f_1|]. cbn [fact_f]. rewrite IH, <- nat_f_mul. f_equal. cbn [nfact]. rewrite N2Nat.inj_mul, Nat2N.id. reflexivity.
Qed.
Lemma nfact_pos k : (0 < nfact k)%N.
Proof. induction k as [|k IH]; [reflexivity|]. cbn [nfact]. apply N.mul_pos_pos; lia. Qed.
Lemma fact_nz k : fact_f k <> (r0 : F).
Proof. rewrite fact_nat. apply nat_f_nz. pose proof (nfact_pos k). lia. Qed.
Lemma div_unique (a b c : F) : b <> r0 -> rmul a b = c -> rdiv c b = a.
Proof. intros Hb <-. apply div_cancel; auto. Qed.
Lemma coeff_step k : rdiv (rdiv r1 (fact_f k)) (nat_f (S k)) = rdiv r1 (fact_f (S k) : F).
Proof.
  apply div_unique; [apply nat_f_nz; lia|]. symmetry. apply div_unique; [apply fact_nz|]. cbn [fact_f].
  rewrite <- mul_assoc, (mul_comm (nat_f (S k))). apply div_mul. apply (fact_nz (S k)).
Qed.
Lemma eps_fact k : e_gt_eps (rdiv r1 (fact_f k : F)) = (nfact k <? 2 ^ 52)%N.
Proof. apply gt_eps_recip. rewrite <- fact_nat. apply div_mul, fact_nz. Qed.
Lemma eps_small k : k < 18 -> e_gt_eps (rdiv r1 (fact_f k : F)) = true.
Proof. intros Hk. rewrite eps_fact. do 18 (destruct k as [|k]; [reflexivity|]). lia. Qed.
Lemma eps_18 : e_gt_eps (rdiv r1 (fact_f 18 : F)) = false.
Proof. rewrite eps_fact. reflexivity. Qed.
Lemma div_one_one : rdiv r1 (fact_f 0) = (r1 : F).
Proof. apply div_unique; [apply fact_nz|]. cbn. apply mul_1_l. Qed.
End Fact.

Section ExpMV.
Context {T F : Type} {RO : RingOps T} {L : RingLaws T} {RF : RingOps F} {LF : RingLaws F} {CF : CommLaws F} {DV : DivOps F} {FL : FieldLaws F} {FRl : FormallyReal F}.
Context {EO : ExpOps F} {EL : EpsLaws F} {NF : NormF T F} {FF : FromF T F} {m : Mode}.
Context {S : Type} {St : Storage T S} {SL : StorageLaws T S}.
Variables (sg : list tok) (A : algebra).
Hypothesis D : declared sg A.
Local Notation d := (a_dim A).
Local Notation gpA := (gp d (a_imag A) (a_proj A)).
Implicit Types x y : S.

Fixpoint tay (f : N -> T) (n : nat) : N -> T :=
  match n with
  | O => del 0 r1
  | Datatypes.S k => fadd (tay f k) (fun j => rmul (fpow A f n j) (from_f (rdiv r1 (fact_f (F := F) n))))
  end.
Lemma tay_ext (f g : N -> T) n : feq d f g -> feq d (tay f n) (tay g n).
Proof.
  intros E. induction n as [|n IH]; [apply feq_refl|]. intros i Hi. cbn [tay]. unfold fadd. rewrite (IH i Hi), (fpow_ext A f g (Datatypes.S n) E i Hi). reflexivity.
Qed.
Lemma taylor_gives y f n : valid A y -> feq d (rd y) f -> gives A (taylor (F := F) A y n) (tay f n).
Proof.
  intros Hy Hf. pose proof (valid_of A y Hy) as HD. induction n as [|n IH]; [apply g_one; auto|]. cbn [taylor].
  eapply gives_bind; [exact IH|]. intros t Ht Ht'. eapply gives_bind; [apply (h_pow A sg D y _ f Hy Hf)|]. intros p Hp Hp'.
  eapply gives_bind; [apply (h_scale A _ _ _ Hp Hp')|]. intros q Hq Hq'. apply (h_add A _ _ _ _ Ht Hq Ht' Hq').
Qed.
Lemma fpow_1 (f : N -> T) : feq d (fpow A f 1) f.
Proof. intros i Hi. cbn [fpow]. apply gp_1_l. Qed.

Lemma exp_loop_gives y f : valid A y -> feq d (rd y) f -> forall r k fuel s p, k + r = 18 -> r < fuel ->
  valid A s -> feq d (rd s) (tay f k) -> valid A p -> feq d (rd p) (fpow A f (Datatypes.S k)) ->
  gives A (mv_exp_loop A fuel y (rdiv r1 (fact_f (F := F) k)) (Datatypes.S k) s p) (tay f 18).
Proof.
  intros Hy Hf. induction r as [|r IH]; intros k fuel s p Hk Hfu Hs Hs' Hp Hp'; destruct fuel as [|fuel]; try lia; cbn [mv_exp_loop].
  - replace k with 18 in * by lia. rewrite eps_18. eapply gives_ext; [apply gives_Ok; auto|exact Hs'].
  - rewrite eps_small by lia. rewrite coeff_step, Nat.add_1_r. eapply gives_bind; [apply (h_scale A _ _ _ Hp Hp')|]. intros q Hq Hq'.
    eapply gives_bind; [apply (h_add A _ _ _ _ Hs Hq Hs' Hq')|]. intros s2 Hs2 Hs2'. eapply gives_bind; [apply (h_mul A sg D _ _ _ _ Hp Hy Hp' Hf)|]. intros p2 Hp2 Hp2'.
    apply IH; auto; lia.
Qed.

Lemma exp_scale_ok x : valid A x -> exists c, mv_exp_scale (F := F) A x = Ok c.
Proof. intros Hx. unfold mv_exp_scale. rewrite (v_mag2 A sg D x Hx). eexists; reflexivity. Qed.

Lemma exp_gives fuel x (c : F) : valid A x -> 18 < fuel -> mv_exp_scale A x = Ok c ->
  gives A (mv_exp (F := F) A fuel x) (fpow A (tay (fun i => rmul (rd x i) (from_f (rdiv r1 c))) 18) (e_usize c)).
Proof.
  intros Hx Hfu Ec. pose proof (valid_of A x Hx) as HD. unfold mv_exp. eapply gives_bind; [apply g_one; auto|]. intros o Ho Ho'. rewrite Ec. cbn [bind].
  eapply gives_bind; [apply (g_scale A _ _ Hx)|]. intros y Hy Hy'. eapply gives_bind.
  - rewrite <- div_one_one. apply (exp_loop_gives y _ Hy Hy' 18 0 fuel o y); auto; try lia. eapply feq_trans; [exact Hy'|]. apply feq_sym, fpow_1.
  - intros z Hz Hz'. apply (h_pow A sg D _ _ _ Hz Hz').
Qed.

Lemma exp_taylor fuel x (c : F) : valid A x -> 18 < fuel -> mv_exp_scale A x = Ok c ->
  agree A (mv_exp (F := F) A fuel x)
    (y <- mv_scale A x (from_f (rdiv r1 c)) ;; t <- taylor (F := F) A y 18 ;; mv_pow A t (e_usize c)).
Proof.
  intros Hx Hfu Ec. eapply agree_gives_intro; [apply (exp_gives fuel x c Hx Hfu Ec)|]. eapply gives_bind; [apply (g_scale A _ _ Hx)|]. intros y Hy Hy'.
  eapply gives_bind; [apply (taylor_gives _ _ _ Hy Hy')|]. intros z Hz Hz'. apply (h_pow A sg D _ _ _ Hz Hz').
Qed.

(** The scale bounds the norms. *)
Lemma fold_max_ge {ML : MaxLaws F} (l : list (N * T)) : forall a,
  (a = fold_left (fun mx ic => e_max (norm_f (snd ic)) mx) l a \/ f_le a (fold_left (fun mx ic => e_max (norm_f (snd ic)) mx) l a)) /\
  forall i c, In (i, c) l -> f_le (norm_f c) (fold_left (fun mx ic => e_max (norm_f (snd ic)) mx) l a).
Proof.
  induction l as [|[j v] l IH]; intros a; cbn [fold_left]; [split; [left; auto|intros i c []]|]. cbn [snd]. destruct (IH (e_max (norm_f v) a)) as [H1 H2]. split.
  - right. destruct H1 as [<-|H1]; [apply f_le_max_r|]. eapply f_le_trans; [apply f_le_max_r|exact H1].
  - intros i c [E|Hi]; [|eapply H2; eauto]. inversion E; subst. destruct H1 as [<-|H1]; [apply f_le_max_l|]. eapply f_le_trans; [apply f_le_max_l|exact H1].
Qed.
Lemma exp_scale_bound {ML : MaxLaws F} x mg : valid A x -> mv_mag2 A x = Ok mg -> exists c : F, mv_exp_scale A x = Ok c /\ f_le r1 c /\
  (forall i, (i < pow2 d)%N -> rd x i <> r0 -> f_le (norm_f (rd x i)) c) /\ f_le (e_sqrt (norm_f mg)) c.
Proof.
  intros Hx Em. unfold mv_exp_scale. rewrite Em. cbn [bind]. eexists. split; [reflexivity|]. destruct (fold_max_ge (mv_coeff_enumerate x) r1) as [H1 H2].
  set (u := fold_left _ _ _) in *. pose proof (f_le_ceil (e_max u (e_sqrt (norm_f mg)))) as Hc. pose proof (f_le_trans _ _ _ (f_le_max_l u (e_sqrt (norm_f mg))) Hc) as Hu. split; [|split].
  - destruct H1 as [->|H1]; [exact Hu|]. eapply f_le_trans; eauto.
  - intros i Hi Hn. eapply f_le_trans; [|exact Hu]. apply (H2 i). destruct (st_enum_ok d x Hx) as (_ & _ & H3). rewrite (rd_coef d) in * by auto. apply H3; auto.
  - eapply f_le_trans; [apply f_le_max_r|exact Hc].
Qed.

Theorem c54_taylor {ML : MaxLaws F} fuel x mg : valid A x -> 18 < fuel -> mv_mag2 A x = Ok mg ->
  exists c : F, f_le r1 c /\ (forall i, (i < pow2 d)%N -> rd x i <> r0 -> f_le (norm_f (rd x i)) c) /\ f_le (e_sqrt (norm_f mg)) c /\
  agree A (mv_exp (F := F) A fuel x)
    (y <- mv_scale A x (from_f (rdiv r1 c)) ;; t <- taylor (F := F) A y 18 ;; mv_pow A t (e_usize c)).
Proof.
  intros Hx Hfu Em. destruct (exp_scale_bound x mg Hx Em) as (c & Ec & H1 & H2 & H3). exists c. repeat (split; auto). apply exp_taylor; auto.
Qed.

(** *** Exact values *)
Local Notation del1 := (del 0 r1).
Lemma fpow_one n : feq d (fpow A (del1 : N -> T) n) del1.
Proof.
  induction n as [|n IH]; [apply feq_refl|]. intros i Hi. cbn [fpow]. rewrite gp_1_r by auto. auto.
Qed.
Lemma fpow_zero_S n (f : N -> T) : feq d f (fun _ => r0) -> feq d (fpow A f (Datatypes.S n)) (fun _ => r0).
Proof. intros E i Hi. cbn [fpow]. rewrite (gp_ext d _ _ _ (fpow A f n) _ (fun _ => r0)); auto using feq_refl. apply gp_0_r. Qed.
Lemma tay_zero f n : feq d f (fun _ => r0) -> feq d (tay f n) del1.
Proof.
  intros E. induction n as [|n IH]; [apply feq_refl|]. intros i Hi. cbn [tay]. unfold fadd. rewrite IH, (fpow_zero_S n f E), mul_0_l by auto. apply add_0_r.
Qed.
Theorem c54_zero fuel : st_dim_ok (StorageLaws := SL) d -> 18 < fuel -> agree A (z <- (mv_zero A : res S) ;; mv_exp (F := F) A fuel z) (mv_one A).
Proof.
  intros HD Hfu. eapply agree_gives_intro; [|apply g_one; auto]. eapply gives_bind; [apply (g_default A HD)|]. intros z Hz Hz'.
  destruct (exp_scale_ok z Hz) as (c & Ec). eapply gives_ext; [apply (exp_gives fuel z c Hz Hfu Ec)|].
  eapply feq_trans; [apply fpow_ext, (tay_zero _ 18)|apply fpow_one]. intros i Hi. cbv beta. rewrite Hz' by auto. apply mul_0_l.
Qed.

(** x * x = 0 *)
Lemma fpow_ge2 (f : N -> T) n : feq d (gpA f f) (fun _ => r0) -> feq d (fpow A f (Datatypes.S (Datatypes.S n))) (fun _ => r0).
Proof.
  intros E. induction n as [|n IH].
  - intros i Hi. cbn [fpow]. rewrite <- (E i Hi). apply gp_ext; auto using feq_refl. apply (fpow_1 f).
  - intros i Hi. change (gpA (fpow A f (Datatypes.S (Datatypes.S n))) f i = r0). rewrite (gp_ext d _ _ _ (fun _ => r0) _ f); auto using feq_refl. apply gp_0_l.
Qed.
Context {CT : CommLaws T} {FRM : FromLaws T F}.
Lemma tay_nil f n : feq d (gpA f f) (fun _ => r0) -> feq d (tay f (Datatypes.S n)) (fadd del1 f).
Proof.
  intros E. induction n as [|n IH].
  - intros i Hi. cbn [tay]. unfold fadd. f_equal. rewrite (fpow_1 f i Hi). cbn [fact_f]. rewrite nat_f_1, mul_1_l.
    replace (rdiv r1 r1) with (r1 : F) by (symmetry; apply div_unique; [apply one_neq_zero|apply mul_1_l]). rewrite from_one. apply mul_1_r.
  - intros i Hi. change (fadd (tay f (Datatypes.S n)) (fun j => rmul (fpow A f (Datatypes.S (Datatypes.S n)) j) (from_f (rdiv r1 (fact_f (F := F) (Datatypes.S (Datatypes.S n)))))) i = fadd del1 f i).
    unfold fadd at 1. rewrite IH, (fpow_ge2 f n E), mul_0_l by auto. apply add_0_r.
Qed.
Lemma nil_pow (f : N -> T) n : feq d (gpA f f) (fun _ => r0) -> feq d (fpow A (fadd del1 f) n) (fadd del1 (fun i => rmul (f i) (from_f (nat_f (F := F) n)))).
Proof.
  intros E. induction n as [|n IH].
  - intros i Hi. cbn [fpow nat_f]. unfold fadd. replace (from_f (r0 : F)) with (r0 : T); [rewrite mul_0_r; symmetry; apply add_0_r|].
    assert (Hz : radd (from_f (T := T) (r0 : F)) (from_f (r0 : F)) = from_f (r0 : F)) by (rewrite <- from_add, add_0_l; reflexivity).
    apply (f_equal (fun u => radd u (rneg (from_f (r0 : F))))) in Hz. rewrite <- add_assoc, add_neg_r, add_0_r in Hz. auto.
  - intros i Hi. cbn [fpow nat_f]. rewrite (gp_ext d _ _ _ (fadd del1 (fun i => rmul (f i) (from_f (nat_f (F := F) n)))) _ (fadd del1 f)); auto using feq_refl.
    rewrite gp_add_l, !gp_add_r. unfold fadd. rewrite from_add, from_one, mul_add_r, mul_1_r. rewrite !gp_1_l, gp_1_r by auto.
    replace (gpA (fun i => rmul (f i) (from_f (nat_f n))) f i) with (r0 : T).
    + rewrite add_0_r, <- add_assoc. f_equal. apply add_comm.
    + symmetry. rewrite (gp_ext d _ _ _ (fun j => rmul (from_f (nat_f n)) (f j)) _ f); auto using feq_refl; [|intros j _; apply mul_comm].
      rewrite gp_scale_l, E by auto. apply mul_0_r.
Qed.
Theorem c58_nil {ML : MaxLaws F} fuel x (c : F) : valid A x -> 18 < fuel -> agree A (mv_mul A x x) (mv_zero A) ->
  mv_exp_scale A x = Ok c -> nat_f (e_usize c) = c ->
  agree A (mv_exp (F := F) A fuel x) (o <- mv_one A ;; mv_add o x).
Proof.
  intros Hx Hfu Hn Ec Hm. pose proof (valid_of A x Hx) as HD.
  assert (Hc : c <> r0) by (apply f_one_le; destruct (exp_scale_bound x _ Hx (v_mag2 A sg D x Hx)) as (c' & Ec' & H1 & _); rewrite Ec in Ec'; injection Ec' as <-; exact H1).
  assert (E : feq d (gpA (rd x) (rd x)) (fun _ => r0)).
  { destruct (g_mul A sg D x x Hx Hx) as (z & Ez & Hz & Hz'). destruct Hn as (z1 & z2 & E1 & E2 & V1 & V2 & Hq). rewrite Ez in E1. inversion E1; subst z1.
    destruct (g_default A HD) as (o & Eo & Ho & Ho'). unfold mv_zero in E2. rewrite Eo in E2. inversion E2; subst z2. destruct Hq as [_ Hq]. intros i Hi. specialize (Hz' i Hi). specialize (Ho' i Hi). specialize (Hq i Hi). unfold rd in Hq at 1 2. rewrite Hz', Ho' in Hq. exact Hq. }
  set (t := from_f (T := T) (rdiv r1 c)). set (f := fun i => rmul (rd x i) t).
  assert (Ef : feq d (gpA f f) (fun _ => r0)).
  { intros i Hi. unfold f. rewrite gp_scale_r. rewrite (gp_ext d _ _ _ (fun j => rmul t (rd x j)) _ (rd x)); auto using feq_refl; [|intros j _; apply mul_comm].
    rewrite gp_scale_l, E by auto. rewrite mul_0_r. apply mul_0_l. }
  assert (Et : rmul t (from_f (nat_f (e_usize c))) = r1).
  { unfold t. rewrite <- from_mul, Hm, div_mul by auto. apply from_one. }
  eapply agree_gives_intro; [eapply gives_ext; [apply (exp_gives fuel x c Hx Hfu Ec)|]|].
  - eapply feq_trans; [apply fpow_ext, (tay_nil f 17 Ef)|]. apply nil_pow; auto.
  - eapply gives_bind; [apply g_one; auto|]. intros o Ho Ho'. eapply gives_ext; [apply (h_add A _ _ _ _ Ho Hx Ho' (feq_refl _ _))|].
    intros i Hi. unfold fadd. f_equal. unfold f. rewrite <- mul_assoc, Et. symmetry. apply mul_1_r.
Qed.
(** x commutes with exp(x). *)
Lemma fpow_comm (f : N -> T) n : feq d (gpA f (fpow A f n)) (gpA (fpow A f n) f).
Proof.
  intros i Hi. transitivity (fpow A f (1 + n) i); [|reflexivity]. rewrite fpow_add by auto. apply gp_ext; auto using feq_refl. apply feq_sym, fpow_1.
Qed.
Lemma comm_pow (f g : N -> T) n : feq d (gpA f g) (gpA g f) -> feq d (gpA f (fpow A g n)) (gpA (fpow A g n) f).
Proof.
  intros E. induction n as [|n IH]; intros i Hi; cbn [fpow]; [rewrite gp_1_l, gp_1_r by auto; reflexivity|].
  transitivity (gpA (gpA f (fpow A g n)) g i); [symmetry; apply gp_assoc; auto|]. transitivity (gpA (gpA (fpow A g n) f) g i); [apply gp_ext; auto using feq_refl|].
  transitivity (gpA (fpow A g n) (gpA f g) i); [apply gp_assoc; auto|]. transitivity (gpA (fpow A g n) (gpA g f) i); [apply gp_ext; auto using feq_refl|]. symmetry. apply gp_assoc; auto.
Qed.
Lemma gp_smul_l (f g : N -> T) t i : (i < pow2 d)%N -> gpA (fun j => rmul (f j) t) g i = rmul (gpA f g i) t.
Proof.
  intros Hi. rewrite (gp_ext d _ _ _ (fun j => rmul t (f j)) _ g); auto using feq_refl; [|intros j _; apply mul_comm]. rewrite gp_scale_l. apply mul_comm.
Qed.
Lemma comm_tay (f : N -> T) t n : feq d (gpA f (tay (fun j => rmul (f j) t) n)) (gpA (tay (fun j => rmul (f j) t) n) f).
Proof.
  assert (E : feq d (gpA f (fun j => rmul (f j) t)) (gpA (fun j => rmul (f j) t) f)) by (intros i Hi; rewrite gp_scale_r, gp_smul_l by auto; reflexivity).
  induction n as [|n IH]; intros i Hi; cbn [tay]; [rewrite gp_1_l, gp_1_r by auto; reflexivity|].
  rewrite gp_add_l, gp_add_r. f_equal; auto. rewrite gp_scale_r, gp_smul_l by auto. f_equal. apply (comm_pow _ _ (Datatypes.S n) E i Hi).
Qed.
Theorem c58_commutes fuel x : valid A x -> 18 < fuel ->
  agree A (e <- mv_exp (F := F) A fuel x ;; mv_mul A x e) (e <- mv_exp (F := F) A fuel x ;; mv_mul A e x).
Proof.
  intros Hx Hfu. destruct (exp_scale_ok x Hx) as (c & Ec). eapply agree_intro.
  - eapply gives_bind; [apply (exp_gives fuel x c Hx Hfu Ec)|]. intros e He He'. apply (h_mul A sg D _ _ _ _ Hx He (feq_refl _ _) He').
  - eapply gives_bind; [apply (exp_gives fuel x c Hx Hfu Ec)|]. intros e He He'. apply (h_mul A sg D _ _ _ _ He Hx He' (feq_refl _ _)).
  - apply comm_pow, comm_tay.
Qed.
End ExpMV.

Section ExpFFT.
Context {F : Type} {RF : RingOps F} {LF : RingLaws F} {CF : CommLaws F} {DV : DivOps F} {FL : FieldLaws F} {FRl : FormallyReal F} {EO : ExpOps F} {EL : EpsLaws F} {md : Mode} {HO : HashOrder}.
Variables (sg : list tok) (A : algebra).
Hypothesis D : declared sg A.
Hypothesis Hl : length sg < 63.
Implicit Types a y s p : fftrepr F.

Lemma kept_add a b : repr_shape (F := F) sg a -> repr_shape sg b -> exists z, fr_add a b = Ok z /\ repr_shape sg z.
Proof. intros Ha Hb. apply (t_add_shape sg A D Hl); auto. Qed.
Lemma kept_pow a k : repr_shape (F := F) sg a -> exists z, fr_pow A a k = Ok z /\ repr_shape sg z.
Proof. intros Ha. apply (c45_kept sg A D Hl a a r0 r0 k Ha Ha). Qed.
Lemma kept_scale a t : repr_shape (F := F) sg a -> repr_shape sg (fr_scale_r a t) /\ repr_shape sg (fr_div_r a t).
Proof. intros Ha. destruct (c45_kept sg A D Hl a a r0 t 0 Ha Ha) as (_ & _ & _ & _ & _ & _ & _ & _ & H1 & _ & H2). auto. Qed.
Lemma pow_1 a : fr_pow A a 1 = Ok a.
Proof. reflexivity. Qed.
Lemma pow_succ a k p : repr_shape (F := F) sg a -> fr_pow A a k = Ok p -> exists q, fr_mul p a = Ok q /\ fr_pow A a (S k) = Ok q.
Proof.
  intros Ha Ep. destruct (t_pow sg A D Hl a k 1 Ha) as (_ & (z & E1 & E2)). rewrite Nat.add_1_r in E1. rewrite Ep in E2. cbn [bind] in E2. rewrite pow_1 in E2. cbn [bind] in E2. exists z. auto.
Qed.
Lemma taylor_shape y n : repr_shape sg y -> exists t, taylor_fft A y n = Ok t /\ repr_shape sg t.
Proof.
  intros Hy. induction n as [|n (t & Et & Ht)]; cbn [taylor_fft].
  - destruct (t_one sg A D Hl y Hy) as (o & Eo & Ho & _). exists o. auto.
  - rewrite Et. cbn [bind]. destruct (kept_pow y (S n) Hy) as (p & Ep & Hp). rewrite Ep. cbn [bind]. apply kept_add; auto. apply kept_scale; auto.
Qed.
Lemma exp_loop_fft y : repr_shape sg y -> forall r k fuel s p, k + r = 18 -> r < fuel ->
  taylor_fft A y k = Ok s -> fr_pow A y (S k) = Ok p ->
  exp_loop fuel y (rdiv r1 (fact_f k)) (S k) s p = taylor_fft A y 18.
Proof.
  intros Hy. induction r as [|r IH]; intros k fuel s p Hk Hfu Es Ep; destruct fuel as [|fuel]; try lia; cbn [exp_loop].
  - replace k with 18 in * by lia. rewrite eps_18. auto.
  - rewrite eps_small by lia. rewrite coeff_step, Nat.add_1_r. destruct (taylor_shape y (S k) Hy) as (t & Et & Ht).
    assert (E : fr_add s (fr_scale_r p (rdiv r1 (fact_f (S k)))) = Ok t) by (rewrite <- Et; cbn [taylor_fft]; rewrite Es; cbn [bind]; rewrite Ep; reflexivity).
    rewrite E. cbn [bind]. destruct (pow_succ y (S k) p Hy Ep) as (q & Eq & Eq'). rewrite Eq. cbn [bind]. apply IH; auto; lia.
Qed.
Lemma scale_fft_ok a : repr_shape sg a -> exists mg, fr_mag2 A a = Ok mg.
Proof.
  intros Ha. destruct (c45_kept sg A D Hl a a r0 r0 0 Ha Ha) as (_ & _ & _ & _ & (z & Ez & Hz) & _). unfold fr_mag2. rewrite Ez. cbn [bind].
  destruct (t_mul_shape sg A D Hl z a Hz Ha) as (p & Ep & Hp). rewrite Ep. cbn [bind]. destruct (shape_rep sg A D Hl p Hp) as (x & Hx).
  unfold fr_ntrace. rewrite (trace_ok sg A p _ Hx). eexists; reflexivity.
Qed.
Lemma fold_max_ge2 {ML : MaxLaws F} (l : list (cplx F)) : forall a : F,
  (a = fold_left (fun mx ci => e_max (e_norm ci) mx) l a \/ f_le a (fold_left (fun mx ci => e_max (e_norm ci) mx) l a)) /\
  forall c, In c l -> f_le (e_norm c) (fold_left (fun mx ci => e_max (e_norm ci) mx) l a).
Proof.
  induction l as [|v l IH]; intros a; cbn [fold_left]; [split; [left; auto|intros c []]|]. destruct (IH (e_max (e_norm v) a)) as [H1 H2]. split.
  - right. destruct H1 as [<-|H1]; [apply f_le_max_r|]. eapply f_le_trans; [apply f_le_max_r|exact H1].
  - intros c [<-|Hi]; [|eapply H2; eauto]. destruct H1 as [<-|H1]; [apply f_le_max_l|]. eapply f_le_trans; [apply f_le_max_l|exact H1].
Qed.
Theorem c54_fft {ML : MaxLaws F} fuel a : repr_shape sg a -> 18 < fuel -> exists (c : F) mg, fr_mag2 A a = Ok mg /\
  f_le r1 c /\ (forall mt e, In mt (t_mats a) -> In e (m_data mt) -> f_le (e_norm e) c) /\ f_le (e_sqrt (e_norm mg)) c /\
  both_ok (fr_exp A fuel a) (t <- taylor_fft A (fr_div_r a c) 18 ;; fr_pow A t (e_usize c)).
Proof.
  intros Ha Hfu. destruct (scale_fft_ok a Ha) as (mg & Em). destruct (fold_max_ge2 (flat_map m_data (t_mats a)) r1) as [H1 H2].
  set (u := fold_left _ _ _) in *. exists (e_ceil (e_max u (e_sqrt (e_norm mg)))), mg. split; auto. set (c := e_ceil _) in *.
  pose proof (f_le_ceil (e_max u (e_sqrt (e_norm mg)))) as Hc. fold c in Hc. pose proof (f_le_trans _ _ _ (f_le_max_l u (e_sqrt (e_norm mg))) Hc) as Hu. split; [|split; [|split]].
  - destruct H1 as [->|H1]; [exact Hu|]. eapply f_le_trans; eauto.
  - intros mt e Hm He. eapply f_le_trans; [|exact Hu]. apply H2. apply in_flat_map. eauto.
  - eapply f_le_trans; [apply f_le_max_r|exact Hc].
  - unfold fr_exp, exp_scale. destruct (t_one sg A D Hl a Ha) as (o & Eo & Ho & _). rewrite Eo. cbn [bind]. rewrite Em. cbn [bind]. fold u. fold c.
    destruct (kept_scale a c Ha) as [_ Hy]. pose proof (exp_loop_fft (fr_div_r a c) Hy 18 0 fuel o (fr_div_r a c) eq_refl ltac:(lia) Eo (pow_1 _)) as El.
    rewrite div_one_one in El. rewrite El. destruct (taylor_shape _ 18 Hy) as (t & Et & Ht). rewrite Et. cbn [bind]. destruct (kept_pow t (e_usize c) Ht) as (z & Ez & Hz). exists z. auto.
Qed.
(** exp of zero. *)
Lemma map_rep {X Y} (g : X -> Y) v n : map g (repeat v n) = repeat (g v) n.
Proof. induction n as [|n IH]; [reflexivity|]. cbn [repeat map]. rewrite IH. reflexivity. Qed.
Lemma map_zero (g : cplx F -> cplx F) o : g r0 = r0 -> fr_zero A = Ok o -> a3_map g o = o.
Proof.
  intros Hg. rewrite (fr_zero_eq sg A D Hl). intros E. injection E as <-. unfold a3_map, a3_zeros. cbn [t_mats t_nr t_nc]. f_equal.
  rewrite map_rep. f_equal. unfold m_map, m_zeros. cbn [m_nr m_nc m_data]. f_equal. rewrite map_rep. f_equal. exact Hg.
Qed.
Theorem c54_fft_zero {ML : MaxLaws F} fuel : 18 < fuel ->
  both_ok (z <- fr_zero A ;; fr_exp A fuel z) (fr_one A).
Proof.
  intros Hfu. destruct (zero_rep (F := F) sg A D Hl) as (o & Eo & Ho). pose proof (rep_shape sg A D _ _ Ho) as So. rewrite Eo. cbn [bind].
  destruct (c54_fft fuel o So Hfu) as (c & mg & _ & Hc & _ & _ & (r & Er & Er')). exists r. split; [exact Er|]. rewrite <- Er'. symmetry.
  unfold fr_div_r. rewrite (map_zero _ o) by (auto; unfold c_divr; cbn; f_equal; apply div_unique; try apply mul_0_l; apply f_one_le; exact Hc).
  destruct (t_one sg A D Hl o So) as (e & Ee & Se & _). destruct (t_zero sg A D Hl o So) as (o' & Eo' & _ & Hao & _ & _ & Hmo & _).
  rewrite Eo in Eo'. injection Eo' as <-.
  assert (Hp : forall n, fr_pow A o (S n) = Ok o).
  { induction n as [|n IH]; [reflexivity|]. destruct (pow_succ o (S n) o So IH) as (q & E1 & E2). rewrite E2, <- E1. exact Hmo. }
  assert (Ht : forall n, taylor_fft A o n = Ok e).
  { induction n as [|n IH]; [exact Ee|]. cbn [taylor_fft]. rewrite IH. cbn [bind]. rewrite Hp. cbn [bind]. unfold fr_scale_r.
    rewrite (map_zero _ o) by (auto; unfold c_mulr; cbn; f_equal; apply mul_0_l). destruct (t_zero sg A D Hl e Se) as (o2 & Eo2 & _ & _ & H2 & _). rewrite Eo in Eo2. injection Eo2 as <-. exact H2. }
  rewrite Ht, Ee. cbn [bind]. clear Er'. induction (e_usize c) as [|n IH]; [exact Ee|]. destruct (pow_succ e n e Se IH) as (q & E1 & E2). rewrite E2, <- E1.
  destruct (t_one sg A D Hl e Se) as (e' & Ee' & _ & H1 & _). rewrite Ee in Ee'. injection Ee' as <-. exact H1.
Qed.
End ExpFFT.

(** *** The norm of quaternions *)
Section QuatNorm.
Context {F : Type} {RF : RingOps F} {LF : RingLaws F} {CF : CommLaws F} {EO : ExpOps F} {NF : NormF F F} {m : Mode} {H : HashOrder}.
Local Notation QA := QuaternionAlgebra.
Add Ring TR9 : comm_ring_theory.
Definition qsum (q : qst F) : F := (q_0 q * q_0 q + q_1 q * q_1 q + q_2 q * q_2 q + q_3 q * q_3 q)%rg.
Lemma quat_norm_val (q : store KQuat F) : (forall c : F, rmul (norm_f c) (norm_f c) = rmul c c) -> quat_norm q = Ok (e_sqrt (qsum q)).
Proof. intros Hn. destruct q as [a b c e]. unfold quat_norm, qsum. cbn. rewrite !Hn, add_0_l. reflexivity. Qed.
Lemma quat_norm_sqrt (q : store KQuat F) : (forall c : F, rmul (norm_f c) (norm_f c) = rmul c c) ->
  both_ok (quat_norm q) (p <- mv_mul QA q (quat_conj q : store KQuat F) ;; s <- mv_scalar_part p ;; Ok (e_sqrt s)).
Proof.
  intros Hn. rewrite quat_norm_val by auto. destruct (quat_norm_thm q (qsum q) eq_refl) as [-> _]. cbn. eexists; split; reflexivity.
Qed.
Lemma qsum_mult (p q : store KQuat F) : exists r : store KQuat F, mv_mul QA p q = Ok r /\ qsum r = rmul (qsum p) (qsum q).
Proof.
  destruct p as [a b c e], q as [a' b' c' e']. assert (E : e = rneg (rneg e)) by (rewrite neg_neg; auto). assert (E' : e' = rneg (rneg e')) by (rewrite neg_neg; auto). rewrite E, E', quat_mul_thm.
  eexists. split; [reflexivity|]. unfold qsum. cbn [q_0 q_1 q_2 q_3]. ring.
Qed.
Lemma quat_norm_mult (p q : store KQuat F) : (forall c : F, rmul (norm_f c) (norm_f c) = rmul c c) ->
  (forall u v : F, e_sqrt (rmul u v) = rmul (e_sqrt u) (e_sqrt v)) ->
  both_ok (r <- mv_mul QA p q ;; quat_norm r) (u <- quat_norm p ;; v <- quat_norm q ;; Ok (rmul u v)).
Proof.
  intros Hn Hs. destruct (qsum_mult p q) as (r & -> & E). cbn [bind]. rewrite !quat_norm_val by auto. cbn [bind]. rewrite E, Hs. eexists; split; reflexivity.
Qed.
End QuatNorm.
