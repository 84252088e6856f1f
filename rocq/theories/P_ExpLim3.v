(** exp against the partial sums of the exponential series: the algebra. *)
From Verif Require Export P_ExpLim2 P_Round7.
From Coq Require Import QArith Lqa Lia.
Local Open Scope Qc_scope.
Lemma nat_natq n : nat_f (F := Qc) n = natq n.
Proof. induction n as [|n IH]; [reflexivity|]. cbn [nat_f]. rewrite IH, natq_S. reflexivity. Qed.
Lemma fact_qfact k : fact_f (F := Qc) k = qfact k.
Proof. induction k as [|k IH]; [reflexivity|]. cbn [fact_f qfact]. rewrite IH, nat_natq. reflexivity. Qed.

Section Poly.
Context {T : Type} {RO : RingOps T} {L : RingLaws T} {CT : CommLaws T} {FF : FromF T Qc} {FRM : FromLaws T Qc} {SZ : SizeLaws T}.
Variables (sg : list tok) (A : algebra).
Hypothesis D : declared sg A.
Local Notation d := (a_dim A).
Local Notation gpA := (gp d (a_imag A) (a_proj A)).
Local Open Scope rg_scope.

Lemma from0 : from_f (T := T) (0%Qc : Qc) = 0.
Proof.
  assert (Hz : radd (from_f (T := T) (r0 : Qc)) (from_f (r0 : Qc)) = from_f (r0 : Qc)) by (rewrite <- from_add, add_0_l; reflexivity).
  apply (f_equal (fun u => radd u (rneg (from_f (r0 : Qc))))) in Hz. rewrite <- add_assoc, add_neg_r, add_0_r in Hz. exact Hz.
Qed.
Definition dq (c : Qc) : N -> T := del 0 (from_f c).
Fixpoint evp (l : list Qc) (f : N -> T) : N -> T := match l with [] => fun _ => 0 | c :: l => fadd (dq c) (gpA f (evp l f)) end.
Lemma del_add (a b : T) i : del 0 (a + b) i = del 0 a i + del 0 b i.
Proof. unfold del. destruct (i =? 0)%N; [reflexivity|]. symmetry. apply add_0_l. Qed.
Lemma del_sc (a b : T) i : del 0 (a * b) i = del 0 a i * b.
Proof. unfold del. destruct (i =? 0)%N; [reflexivity|]. symmetry. apply mul_0_l. Qed.
Lemma del_gp (a : T) (y : N -> T) i : gpA (del 0 a) y i = y i * a.
Proof.
  rewrite gp_del_l by apply pow2_pos. rewrite N.lxor_0_l, gsign_0_l. apply mul_comm.
Qed.
Lemma evp_add f l : forall m, feq d (evp (padd l m) f) (fadd (evp l f) (evp m f)).
Proof.
  induction l as [|a l IH]; intros m i Hi; [cbn [padd evp]; unfold fadd; symmetry; apply add_0_l|]. destruct m as [|b m]; [cbn [padd evp]; unfold fadd; symmetry; apply add_0_r|].
  cbn [padd evp]. unfold fadd at 1 2. rewrite (gp_ext d _ _ f f (evp (padd l m) f) (fadd (evp l f) (evp m f)) i Hi (feq_refl _ _) (IH m)), gp_add_r. unfold dq.
  change (a + b)%Qc with (radd a b). rewrite from_add, del_add. unfold fadd. abel.
Qed.
Lemma evp_cmul f a l : feq d (evp (cmul a l) f) (fun i => evp l f i * from_f a).
Proof.
  unfold cmul. induction l as [|b l IH]; intros i Hi; cbn [map evp]; [symmetry; apply mul_0_l|]. unfold fadd.
  rewrite (gp_ext d _ _ f f _ _ i Hi (feq_refl _ _) IH), gp_scale_r. unfold dq. change (a * b)%Qc with (rmul a b). rewrite from_mul, (mul_comm (from_f a)), del_sc. symmetry. apply mul_add_l.
Qed.
Lemma evp_mul f l m : feq d (evp (pmul l m) f) (gpA (evp l f) (evp m f)).
Proof.
  induction l as [|c l IH]; intros i Hi; cbn [pmul evp]; [symmetry; apply gp_0_l|]. rewrite (evp_add f _ _ i Hi). unfold fadd at 1. rewrite (evp_cmul f c m i Hi). cbn [evp]. unfold fadd at 1.
  rewrite gp_add_l. unfold dq. rewrite del_gp, from0. f_equal. unfold del. replace (if (i =? 0)%N then 0 else 0) with (0 : T) by (destruct (i =? 0)%N; reflexivity). rewrite add_0_l.
  rewrite gp_assoc by auto. apply gp_ext; auto using feq_refl.
Qed.
Lemma evp_1 f : feq d (evp [1%Qc] f) (del 0 1).
Proof. intros i Hi. cbn [evp]. unfold fadd, dq. rewrite gp_0_r, add_0_r. change 1%Qc with (r1 : Qc). rewrite from_one. reflexivity. Qed.
Lemma evp_pow f l n : feq d (evp (ppow l n) f) (fpow A (evp l f) n).
Proof.
  induction n as [|n IH]; cbn [ppow fpow]; [apply evp_1|]. intros i Hi. rewrite (evp_mul f _ _ i Hi). apply gp_ext; auto using feq_refl.
Qed.
Lemma evp_sc f a l : feq d (evp (psc a l) f) (evp l (fun i => f i * from_f a)).
Proof.
  induction l as [|c l IH]; intros i Hi; cbn [psc evp]; [reflexivity|]. unfold fadd. f_equal. rewrite gp_smul_l by auto.
  rewrite (gp_ext d _ _ f f _ _ i Hi (feq_refl _ _) (evp_cmul f a _)), gp_scale_r. f_equal. apply gp_ext; auto using feq_refl.
Qed.
Lemma evp_app f l c : feq d (evp (l ++ [c]) f) (fadd (evp l f) (fun i => fpow A f (length l) i * from_f c)).
Proof.
  induction l as [|b l IH]; intros i Hi; cbn [app evp length fpow]; unfold fadd.
  - rewrite gp_0_r, add_0_r, add_0_l. unfold dq. rewrite <- del_sc, mul_1_l. reflexivity.
  - rewrite (gp_ext d _ _ f f _ _ i Hi (feq_refl _ _) IH), gp_add_r, gp_scale_r, add_assoc. f_equal. f_equal. apply (fpow_comm A f (length l) i Hi).
Qed.
Lemma evp_Ex f n : feq d (evp (Ex n) f) (tay (F := Qc) A f n).
Proof.
  induction n as [|n IH].
  - change (Ex 0) with ((1 / qfact 0)%Qc :: nil). replace (1 / qfact 0)%Qc with 1%Qc by (cbn [qfact]; field; discriminate). apply evp_1.
  - intros i Hi. rewrite Ex_S, (evp_app f _ _ i Hi). cbn [tay]. unfold fadd. rewrite (IH i Hi), len_Ex, fact_qfact. reflexivity.
Qed.
Lemma pow_spec f n : feq d (spec_pow (sq sg) d f n) (fpow A f n).
Proof.
  induction n as [|n IH]; [intros i Hi; reflexivity|]. intros i Hi. cbn [spec_pow fpow]. rewrite (spec_mul_gp _ _ _ _ _ _ (declared_metric sg A D) i Hi). apply gp_ext; auto using feq_refl.
Qed.
Lemma sum_spec f K : feq d (exp_sum (sq sg) d f K) (evp (Ex K) f).
Proof.
  eapply feq_trans; [|apply feq_sym, evp_Ex]. induction K as [|K IH]; [intros i Hi; reflexivity|]. intros i Hi. cbn [exp_sum tay]. unfold fadd. rewrite (IH i Hi), (pow_spec f (Datatypes.S K) i Hi), fact_qfact. reflexivity.
Qed.

(** Sizes. *)
Local Open Scope Qc_scope.
Lemma total_ext (f g : N -> T) : feq d f g -> total d f = total d g.
Proof. intros E. apply sumI_ext. intros i Hi. rewrite (E i Hi). reflexivity. Qed.
Lemma total_pos (f : N -> T) : 0 <= total d f.
Proof. apply qI_pos. intros. apply size_pos. Qed.
Lemma total_add (f g : N -> T) : total d (fadd f g) <= total d f + total d g.
Proof. unfold total. change Qcplus with (@radd Qc QcOps). rewrite <- sumI_add. apply qI_le. intros i _. apply size_add. Qed.
Lemma total_dq c : total d (dq c) = Qcabs c.
Proof.
  unfold total, dq. rewrite (sumI_single d _ 0%N); [unfold del; cbn [N.eqb]; apply size_from|apply pow2_pos|]. intros j _ Hj. rewrite del_neq by auto. apply size_0.
Qed.
Lemma size_act s (a : T) : size (act s a) <= size a.
Proof. destruct s; cbn [act]; [rewrite size_0; apply size_pos|apply Qcle_refl|rewrite size_neg; apply Qcle_refl]. Qed.
Lemma size_sum {X} (f : X -> T) l : size (suml f l) <= suml (fun x => size (f x)) l.
Proof.
  induction l as [|a l IH]; cbn [suml]; [rewrite size_0; apply Qcle_refl|]. eapply Qcle_trans; [apply size_add|]. apply Qcplus_le_compat; [apply Qcle_refl|exact IH].
Qed.
Lemma total_mul (f g : N -> T) : total d (gpA f g) <= total d f * total d g.
Proof.
  apply Qcle_trans with (sumI d (fun k => sumI d (fun i => size (f i) * size (g (N.lxor i k))))).
  - apply qI_le. intros k Hk. eapply Qcle_trans; [apply size_sum|]. apply qI_le. intros i Hi. eapply Qcle_trans; [apply size_act|apply size_mul].
  - unfold total. change Qcmult with (@rmul Qc QcOps). rewrite sumI_swap, sumI_mul_r. apply qI_le. intros i Hi. rewrite <- sumI_mul_l. rewrite <- (sumI_lxor_l d i (fun k => size (g k)) Hi). apply Qcle_refl.
Qed.
Lemma total_ev f l : (forall k, 0 <= cf l k) -> total d (evp l f) <= evq l (total d f).
Proof.
  induction l as [|c l IH]; intros H; cbn [evp evq].
  - unfold total. rewrite sumI_0; [apply Qcle_refl|]. intros. apply size_0.
  - eapply Qcle_trans; [apply total_add|]. apply Qcplus_le_compat; [rewrite total_dq, Qcabs_pos; [apply Qcle_refl|apply (H O)]|].
    eapply Qcle_trans; [apply total_mul|]. apply qmul_le; [apply total_pos|]. apply IH. intros k. apply (H (Datatypes.S k)).
Qed.
Lemma total_sub_sym (f g : N -> T) : total d (fun i => rsub (f i) (g i)) = total d (fun i => rsub (g i) (f i)).
Proof. apply sumI_ext. intros i _. rewrite <- size_neg. f_equal. abel. Qed.

(** The power of the scaled polynomial against a partial sum. *)
Lemma scaling f n s K : (0 < s)%nat -> (n * s <= K)%nat ->
  total d (fun i => rsub (fpow A (tay (F := Qc) A (fun j => rmul (f j) (from_f (1 / natq s))) n) s i) (exp_sum (sq sg) d f K i)) <= exp_num K (total d f) - exp_num n (total d f / natq s) ^ s.
Proof.
  intros Hs HK. rewrite total_sub_sym, <- evq_rest. eapply Qcle_trans; [|apply total_ev, rest_pos; auto]. 
  rewrite (total_ext _ (evp (rest n s K) f)); [apply Qcle_refl|]. intros i Hi. unfold rest. rewrite (evp_add f _ _ i Hi). unfold fadd. rewrite (evp_cmul f _ _ i Hi), (sum_spec f K i Hi).
  rewrite (evp_pow f _ _ i Hi). assert (E : fpow A (evp (psc (1 / natq s) (Ex n)) f) s i = fpow A (tay (F := Qc) A (fun j => rmul (f j) (from_f (1 / natq s))) n) s i).
  { apply fpow_ext; auto. eapply feq_trans; [apply evp_sc|apply evp_Ex]. }
  rewrite E. assert (F1 : from_f (T := T) (- (1)) = rneg r1).
  { assert (Z : radd (from_f (T := T) (- (1))) (from_f 1) = r0) by (rewrite <- from_add; change (radd (- (1)) 1) with (- (1) + 1); replace (- (1) + 1) with 0 by ring; apply from0).
    change (from_f 1) with (from_f (T := T) (r1 : Qc)) in Z. rewrite from_one in Z. rewrite <- (add_0_r (from_f (- (1)))), <- (add_neg_r r1), add_assoc, Z. apply add_0_l. }
  rewrite F1, mul_neg_r, mul_1_r. apply sub_def.
Qed.
End Poly.

Section Exp.
Context {T : Type} {RO : RingOps T} {L : RingLaws T} {CT : CommLaws T} {FF : FromF T Qc} {FRM : FromLaws T Qc} {SZ : SizeLaws T}.
Context {EO : ExpOps Qc} {EL : EpsLaws Qc} {ML : MaxLaws Qc} {NF : NormF T Qc} {m : Mode}.
Context {S : Type} {St : Storage T S} {SL : StorageLaws T S}.
Variables (sg : list tok) (A : algebra).
Hypothesis D : declared sg A.
Local Notation d := (a_dim A).
Implicit Types x y : S.
Theorem c74_exact fuel x (c : Qc) : valid A x -> (18 < fuel)%nat -> mv_exp_scale A x = Ok c -> nat_f (e_usize c) = c ->
  exists z, mv_exp (F := Qc) A fuel x = Ok z /\ valid A z /\
  forall K, (18 * e_usize c <= K)%nat ->
    total d (fun i => rsub (rd z i) (exp_sum (sq sg) d (rd x) K i)) <= exp_num K (total d (rd x)) - exp_num 18 (total d (rd x) / c) ^ e_usize c.
Proof.
  intros Hx Hf Ec Hs. destruct (exp_gives sg A D fuel x c Hx Hf Ec) as (z & Ez & Hz & Hz'). exists z. split; [exact Ez|]. split; [exact Hz|]. intros K HK.
  assert (Hc : c <> 0) by (change (c <> r0); apply f_one_le; destruct (exp_scale_bound A x _ Hx (v_mag2 A sg D x Hx)) as (c' & Ec' & H1 & _); rewrite Ec in Ec'; injection Ec' as <-; exact H1).
  assert (Hs0 : (0 < e_usize c)%nat) by (destruct (e_usize c); [exfalso; apply Hc; rewrite <- Hs; reflexivity|lia]).
  rewrite nat_natq in Hs. pose proof (scaling sg A D (rd x) 18 (e_usize c) K Hs0 HK) as B. rewrite Hs in B. erewrite total_ext; [exact B|]. intros i Hi. cbv beta. f_equal.
  unfold rd at 1. rewrite (Hz' i Hi). reflexivity.
Qed.
Theorem c74_bound fuel x (c : Qc) n : valid A x -> (18 < fuel)%nat -> mv_exp_scale A x = Ok c -> nat_f (e_usize c) = c -> total d (rd x) <= nat_f n * c ->
  exists z, mv_exp (F := Qc) A fuel x = Ok z /\ valid A z /\
  forall K, (18 * e_usize c <= K)%nat ->
    total d (fun i => rsub (rd z i) (exp_sum (sq sg) d (rd x) K i)) <= c * ((total d (rd x) / c) ^ 19 / qfact 19) * Q2Qc (3 # 1) ^ (n * e_usize c).
Proof.
  intros Hx Hf Ec Hs Hn. destruct (c74_exact fuel x c Hx Hf Ec Hs) as (z & Ez & Hz & B). exists z. split; [exact Ez|]. split; [exact Hz|]. intros K HK. specialize (B K HK).
  assert (Hc : c <> 0) by (change (c <> r0); apply f_one_le; destruct (exp_scale_bound A x _ Hx (v_mag2 A sg D x Hx)) as (c' & Ec' & H1 & _); rewrite Ec in Ec'; injection Ec' as <-; exact H1).
  assert (Hs0 : (0 < e_usize c)%nat) by (destruct (e_usize c); [exfalso; apply Hc; rewrite <- Hs; reflexivity|lia]).
  rewrite nat_natq in Hs, Hn. eapply Qcle_trans; [exact B|]. apply (rest_bound 18 (e_usize c) K (total d (rd x)) c n Hs0 Hs (total_pos A _) HK Hn).
Qed.
End Exp.
