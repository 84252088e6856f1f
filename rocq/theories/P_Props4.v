(** Lemmas behind C18 (labels), C19, C25 - C28, C30. *)
From Verif Require Export P_Props3.
From Coq Require Import String.
Import List ListNotations.
Local Open Scope nat_scope.

Lemma filter_rev {X} (f : X -> bool) l : filter f (rev l) = rev (filter f l).
Proof.
  induction l as [|a l IH]; [reflexivity|]. cbn [rev filter]. rewrite filter_app, IH. cbn [filter].
  destruct (f a); cbn [rev]; [reflexivity|apply app_nil_r].
Qed.

(** *** Labels *)
Section Labels.
Context {m : Mode}.
Variable A : algebra.
Variable sg : list tok.
Hypothesis D : declared sg A.

Lemma label_of_ok (nm : nat -> string) I l : (forall i, i < a_dim A -> a_name A i = Ok (nm i)) ->
  (forall i, In i l -> i < a_dim A) -> (I < pow2 (a_dim A))%N ->
  label_of A l I = Ok (join "^" (map nm (filter (fun i => N.testbit I (N.of_nat i)) l))).
Proof.
  intros Hn Hl HI. unfold label_of.
  assert (G : forall acc, foldM (fun acc i =>
             h <- has_bit I i ;;
             if h : bool then nm <- a_name A i ;; Ok (acc ++ [nm])%list else Ok acc) l acc
     = Ok (acc ++ map nm (filter (fun i => N.testbit I (N.of_nat i)) l))%list).
  { induction l as [|i l IH]; intros acc; cbn [foldM filter map]; [rewrite app_nil_r; reflexivity|].
    assert (Hi : i < a_dim A) by (apply Hl; left; auto).
    rewrite has_bit_ok by (pose proof (ok_dim A (declared_ok _ _ D)); lia). cbn [bind].
    destruct (N.testbit I (N.of_nat i)).
    - rewrite Hn by auto. cbn [bind]. rewrite IH by (intros; apply Hl; right; auto).
      cbn [map]. rewrite <- app_assoc. reflexivity.
    - cbn [bind]. apply IH. intros; apply Hl; right; auto. }
  rewrite G. reflexivity.
Qed.

Lemma label_thm (nm : nat -> string) I : (forall i, i < a_dim A -> a_name A i = Ok (nm i)) -> (I < pow2 (a_dim A))%N ->
  blade_label A I = Ok (join "^" (map nm (gens (a_dim A) I))) /\
  blade_label_rev A I = Ok (join "^" (map nm (rev (gens (a_dim A) I)))).
Proof.
  intros Hn HI. unfold blade_label, blade_label_rev. split; rewrite (label_of_ok nm) by
    (auto; intros i Hi; (apply in_seq in Hi || apply in_rev, in_seq in Hi); lia).
  - reflexivity.
  - unfold gens. rewrite <- filter_rev, rev_involutive. reflexivity.
Qed.
End Labels.

(** *** The universal property *)
Section Universal.
Context {R : Type} {RO : RingOps R} {LR : RingLaws R}.
Context {T : Type} {RT : RingOps T} {L : RingLaws T}.
Variables (g : nat -> R) (sg : list tok) (phi : T -> R).
Hypothesis Hg : satisfies g sg.
Local Notation n := (length sg).
Hypothesis Hphi : scalars_hom g n phi.
Local Open Scope rg_scope.

Definition unitz (z : Z) : Prop := (z = 1 \/ z = 0 \/ z = -1)%Z.
Lemma sq_unit i : unitz (sq sg i).
Proof. unfold sq, unitz. destruct (nth_error sg i) as [[| |]|]; auto. Qed.
Lemma zact_mul_l s (x y : R) : zact s x * y = zact s (x * y).
Proof. unfold zact. destruct (s =? 1)%Z; auto. destruct (s =? -1)%Z; [apply mul_neg_l|apply mul_0_l]. Qed.
Lemma zact_mul_r s (x y : R) : x * zact s y = zact s (x * y).
Proof. unfold zact. destruct (s =? 1)%Z; auto. destruct (s =? -1)%Z; [apply mul_neg_r|apply mul_0_r]. Qed.
Lemma zact_zact s t (x : R) : unitz s -> unitz t -> zact s (zact t x) = zact (s * t) x.
Proof. intros [-> | [-> | -> ]] [-> | [-> | -> ]]; cbn; auto; rewrite ?neg_0, ?neg_neg; auto. Qed.
Lemma unitz_mul s t : unitz s -> unitz t -> unitz (s * t).
Proof. unfold unitz. intros [-> | [-> | -> ]] [-> | [-> | -> ]]; cbn; auto. Qed.
Lemma unitz_opp s : unitz s -> unitz (- s).
Proof. unfold unitz. intros [-> | [-> | -> ]]; cbn; auto. Qed.
Lemma zact_opp s (x : R) : unitz s -> zact (- s) x = - zact s x.
Proof. intros [-> | [-> | -> ]]; cbn; rewrite ?neg_0, ?neg_neg; auto. Qed.

Lemma insert_pg i w : i < n -> (forall j, In j w -> j < n) ->
  let r := insert_gen (sq sg) i w in
  unitz (fst r) /\ (forall j, In j (snd r) -> j < n) /\ g i * pg g w = zact (fst r) (pg g (snd r)).
Proof.
  intros Hi. induction w as [|j w IH]; intros Hw; cbn [insert_gen].
  - cbn. split; [left; auto|]. split; [intros j [<-|[]]; auto|]. reflexivity.
  - destruct (Nat.ltb_spec j i).
    + cbn. split; [left; auto|]. split; [intros l [<-|Hl]; auto|]. reflexivity.
    + destruct (Nat.eqb_spec i j) as [<-|Hne].
      * cbn [fst snd pg]. split; [apply sq_unit|]. split; [intros; apply Hw; right; auto|].
        rewrite mul_assoc, (proj1 Hg) by auto. rewrite zact_mul_l, mul_1_l. reflexivity.
      * assert (Hj : j < n) by (apply Hw; left; auto).
        destruct (IH (fun l Hl => Hw l (or_intror Hl))) as (I1 & I2 & I3).
        destruct (insert_gen (sq sg) i w) as [s w']. cbn [fst snd pg] in *.
        split; [apply unitz_opp; auto|]. split; [intros l [<-|Hl]; auto|].
        rewrite mul_assoc, (proj2 Hg i j) by auto. rewrite mul_neg_l, <- mul_assoc, I3, zact_mul_r, zact_opp by auto. reflexivity.
Qed.

Lemma reduce_pg w : (forall j, In j w -> j < n) ->
  let r := reduce (sq sg) w in
  unitz (fst r) /\ (forall j, In j (snd r) -> j < n) /\ pg g w = zact (fst r) (pg g (snd r)).
Proof.
  induction w as [|i w IH]; intros Hw; cbn [reduce].
  - cbn. split; [left; auto|]. split; auto; intros j [].
  - destruct (IH (fun l Hl => Hw l (or_intror Hl))) as (I1 & I2 & I3). destruct (reduce (sq sg) w) as [s w']. cbn [fst snd] in *.
    destruct (insert_pg i w' (Hw i (or_introl eq_refl)) I2) as (J1 & J2 & J3). destruct (insert_gen (sq sg) i w') as [t w'']. cbn [fst snd pg] in *.
    split; [apply unitz_mul; auto|]. split; auto. rewrite I3, zact_mul_r, J3, zact_zact by auto. reflexivity.
Qed.

Lemma pg_app u v : pg g (u ++ v) = pg g u * pg g v.
Proof. induction u as [|i u IH]; cbn [app pg]; [rewrite mul_1_l; reflexivity|]. rewrite IH, <- mul_assoc. reflexivity. Qed.

Lemma pg_blades Q P a b : metric (sq sg) n Q P -> (a < pow2 n)%N -> (b < pow2 n)%N ->
  pg g (gens n a) * pg g (gens n b) = act (gsign n Q P a b) (pg g (gens n (N.lxor a b))).
Proof.
  intros Hm Ha Hb. rewrite <- pg_app. destruct (reduce_pg (gens n a ++ gens n b)) as (_ & _ & E).
  - intros j Hj. apply in_app_or in Hj. destruct Hj as [Hj|Hj]; apply in_gens in Hj; tauto.
  - rewrite E, (reduce_product (sq sg) n Q P) by auto. cbn [fst snd]. apply zact_sign.
Qed.

Lemma phi_0 : phi r0 = r0.
Proof.
  destruct Hphi as (Ha & _). apply (add_cancel_l (phi r0)). rewrite <- Ha, !add_0_r. reflexivity.
Qed.
Lemma phi_neg a : phi (rneg a) = rneg (phi a).
Proof.
  destruct Hphi as (Ha & _). apply neg_unique. rewrite <- Ha, add_neg_r. apply phi_0.
Qed.
Lemma phi_act s a : phi (act s a) = act s (phi a).
Proof. destruct s; cbn; auto using phi_0, phi_neg. Qed.
Lemma phi_sum {X} (f : X -> T) l : phi (suml f l) = suml (fun i => phi (f i)) l.
Proof.
  induction l as [|i l IH]; cbn [suml]; [apply phi_0|]. destruct Hphi as (Ha & _). rewrite Ha, IH. reflexivity.
Qed.
Lemma phi_pg a w : (forall j, In j w -> j < n) -> phi a * pg g w = pg g w * phi a.
Proof.
  destruct Hphi as (_ & _ & _ & Hc). induction w as [|i w IH]; intros Hw; cbn [pg].
  - rewrite mul_1_l, mul_1_r. reflexivity.
  - rewrite mul_assoc, Hc by (apply Hw; left; auto). rewrite <- mul_assoc, IH by (intros; apply Hw; right; auto).
    rewrite <- mul_assoc. reflexivity.
Qed.

Lemma extend_gp Q P x y : metric (sq sg) n Q P ->
  extend g n phi (gp n Q P x y) = extend g n phi x * extend g n phi y.
Proof.
  intros Hm. destruct Hphi as (Pa & Pm & P1 & Pc). unfold extend. rewrite sumI_mul_r.
  transitivity (sumI n (fun i => sumI n (fun k => act (gsign n Q P i (N.lxor i k)) (phi (x i * y (N.lxor i k))) * pg g (gens n k)))).
  { rewrite <- sumI_swap. apply sumI_ext. intros k Hk. unfold gp, sumI. rewrite phi_sum, suml_mul_r. apply suml_ext.
    intros i _. rewrite phi_act. reflexivity. }
  apply sumI_ext. intros i Hi. rewrite sumI_mul_l. rewrite (sumI_lxor_l n i) by auto. apply sumI_ext. intros j Hj.
  rewrite lxor_cancel, act_mul_l, Pm.
  rewrite <- (mul_assoc (phi (x i)) (pg g (gens n i))).
  rewrite (mul_assoc (pg g (gens n i)) (phi (y j))).
  rewrite <- phi_pg by (intros l Hl; apply in_gens in Hl; tauto).
  rewrite <- (mul_assoc (phi (y j))), (pg_blades Q P) by auto. rewrite !act_mul_r, <- mul_assoc. reflexivity.
Qed.

Lemma extend_add x y : extend g n phi (fadd x y) = extend g n phi x + extend g n phi y.
Proof.
  destruct Hphi as (Pa & _). unfold extend. rewrite <- sumI_add. apply sumI_ext. intros i Hi. unfold fadd.
  rewrite Pa, mul_add_l. reflexivity.
Qed.
Lemma extend_del a c : (a < pow2 n)%N -> extend g n phi (del a c) = phi c * pg g (gens n a).
Proof.
  intros Ha. unfold extend. rewrite (sumI_single n _ a Ha).
  - rewrite del_eq. reflexivity.
  - intros i _ Hne. rewrite del_neq by auto. rewrite phi_0, mul_0_l. reflexivity.
Qed.
Lemma extend_ext x y : feq n x y -> extend g n phi x = extend g n phi y.
Proof. intros E. apply sumI_ext. intros i Hi. rewrite E; auto. Qed.
End Universal.

Lemma filter_none {X} (f : X -> bool) l : (forall x, In x l -> f x = false) -> filter f l = [].
Proof. induction l as [|a l IH]; intros Hl; [reflexivity|]. cbn. rewrite Hl by (left; auto). apply IH. intros; apply Hl; right; auto. Qed.
Lemma gens_pow2 n i : i < n -> gens n (pow2 i) = [i].
Proof.
  intros Hi. induction n as [|n IH]; [lia|]. rewrite gens_S, testbit_pow2.
  destruct (N.eqb_spec (N.of_nat n) (N.of_nat i)) as [E|E].
  - assert (n = i) by lia. subst i. f_equal. unfold gens. apply filter_none. intros j Hj. apply in_rev, in_seq in Hj.
    rewrite testbit_pow2. apply N.eqb_neq. lia.
  - apply IH. lia.
Qed.

Lemma universal_thm {R} {RO : RingOps R} {LR : RingLaws R} {T} {RT : RingOps T} {L : RingLaws T} {m : Mode} {H : HashOrder}
  (k : kind) sg A (g : nat -> R) (phi : T -> R) (x y : store k T) :
  declared sg A -> satisfies g sg -> scalars_hom g (length sg) phi -> valid A x -> valid A y ->
  let F := extend g (length sg) phi in
  (forall z, mv_mul A x y = Ok z -> F (rd z) = rmul (F (rd x)) (F (rd y))) /\
  (forall z, mv_add x y = Ok z -> F (rd z) = radd (F (rd x)) (F (rd y))) /\
  (forall z : store k T, mv_one A = Ok z -> F (rd z) = r1) /\
  (forall (l : list (store k T)) i e, mv_basis A = Ok l -> nth_error l i = Some e -> F (rd e) = g i).
Proof.
  intros D Hg Hp Hx Hy F. pose proof (declared_dim _ _ D) as Hd. assert (HD := valid_of A x Hx).
  assert (HM := declared_metric _ _ D). rewrite Hd in HM.
  split; [|split; [|split]].
  - intros z E. destruct (gives_rd A _ _ z (g_mul A sg D x y Hx Hy) E) as (_ & Ef). rewrite Hd in Ef.
    unfold F. rewrite (extend_ext g sg phi _ _ Ef). rewrite (extend_gp g sg phi Hg Hp _ _ _ _ HM). reflexivity.
  - intros z E. destruct (gives_rd A _ _ z (g_add A x y Hx Hy) E) as (_ & Ef). rewrite Hd in Ef.
    unfold F. rewrite (extend_ext g sg phi _ _ Ef). apply extend_add; auto.
  - intros z E. destruct (gives_rd A _ _ z (g_one A HD) E) as (_ & Ef). rewrite Hd in Ef.
    unfold F. rewrite (extend_ext g sg phi _ _ Ef), extend_del by (auto; apply pow2_pos).
    rewrite gens_0. cbn. rewrite mul_1_r. apply Hp.
  - intros l i e E Ei. destruct (basis_ok A (declared_ok _ _ D) HD) as (l' & E' & Hl & Hb). rewrite E in E'. injection E' as <-.
    assert (Hi : i < a_dim A) by (rewrite <- Hl; apply nth_error_Some; congruence).
    destruct (Hb i Hi) as (e' & E1 & He & Hc). rewrite Ei in E1. injection E1 as <-.
    assert (Ef : feq (length sg) (rd e) (del (pow2 i) r1)).
    { intros j Hj. rewrite (rd_coef (a_dim A) e j) by (auto; rewrite Hd; auto). apply Hc. }
    rewrite Hd in Hi. unfold F. rewrite (extend_ext g sg phi _ _ Ef), extend_del by (auto; apply pow2_lt; auto).
    rewrite gens_pow2 by auto. cbn. rewrite mul_1_r. replace (phi r1) with (r1 : R) by (symmetry; apply Hp). apply mul_1_l.
Qed.

(** *** Involutions, grades, scalar products, powers *)
Lemma rbit_tri n : rbit n = Nat.odd (Nat.div2 (n * (n - 1))).
Proof.
  assert (G : forall q r, r < 4 -> rbit (4 * q + r) = Nat.odd (Nat.div2 ((4 * q + r) * (4 * q + r - 1)))).
  { intros q r Hr. 
    assert (E : exists c, (4 * q + r) * (4 * q + r - 1) = 2 * (2 * c + (if Nat.leb 2 r then 1 else 0))).
    { destruct r as [|[|[|[|]]]]; [| | | |lia]; cbn [Nat.leb].
      - destruct q; [exists 0; reflexivity|]. exists (S q * (4 * q + 3)). nia.
      - exists (q * (4 * q + 1)). nia.
      - exists (q * (4 * q + 3)). nia.
      - exists (4 * q * q + 5 * q + 1). nia. }
    destruct E as (c & ->). rewrite Nat.div2_double. rewrite Nat.odd_add, Nat.odd_mul.
    unfold rbit. replace ((4 * q + r) mod 4) with r by (rewrite Nat.add_comm, Nat.mul_comm, Nat.mod_add, Nat.mod_small; lia).
    destruct r as [|[|[|[|]]]]; [| | | |lia]; reflexivity. }
  pose proof (Nat.div_mod n 4 ltac:(lia)) as E. pose proof (Nat.mod_upper_bound n 4 ltac:(lia)) as B.
  rewrite E. apply G; auto.
Qed.

Section Laws5.
Context {T : Type} {RO : RingOps T} {W : NumLaws T} {L : RingLaws T} {m : Mode} {H : HashOrder}.
Variables (k : kind) (sg : list tok) (A : algebra).
Hypothesis D : declared sg A.
Local Notation d := (a_dim A).
Local Notation Q := (a_imag A).
Local Notation P := (a_proj A).
Implicit Types x y z : store k T.

Lemma rev_coef_thm x : valid A x ->
  gives A (mv_rev A x) (fun i => msign (Nat.div2 (popcount i * (popcount i - 1))) (rd x i)) /\
  agree A (u <- mv_rev A x ;; mv_rev A u) (Ok x).
Proof.
  intros Hx. split.
  - eapply gives_ext; [gv D|]. intros i Hi. unfold frev, msign, sgb. rewrite rbit_tri. reflexivity.
  - ag D. intros i Hi. apply frev_invol.
Qed.
Lemma rev_fix_thm x r : r <= 1 -> valid A x -> of_grade A r x -> agree A (mv_rev A x) (Ok x).
Proof.
  intros Hr Hx Hg. ag D. intros i Hi. unfold frev. destruct (Nat.eq_dec (popcount i) r) as [E|E].
  - rewrite E. destruct r as [|[|]]; [reflexivity|reflexivity|lia].
  - rewrite Hg by auto. apply sgb_0.
Qed.
Lemma rev_add_thm x y : valid A x -> valid A y ->
  agree A (s <- mv_add x y ;; mv_rev A s) (u <- mv_rev A x ;; v <- mv_rev A y ;; mv_add u v).
Proof. intros Hx Hy. ag D. intros i Hi. unfold frev, fadd. apply sgb_add. Qed.
Lemma rev_mul_thm {CL : CommLaws T} x y : valid A x -> valid A y ->
  agree A (p <- mv_mul A x y ;; mv_rev A p) (u <- mv_rev A x ;; v <- mv_rev A y ;; mv_mul A v u).
Proof. intros Hx Hy. ag D. intros i Hi. apply frev_gp; auto. Qed.

Lemma revc_mul_thm {CJ : ConjOps T} x y : anti_conj (rconj (T := T)) -> valid A x -> valid A y ->
  agree A (p <- mv_mul A x y ;; mv_revc A p) (u <- mv_revc A x ;; v <- mv_revc A y ;; mv_mul A v u) /\
  agree A (u <- mv_revc A x ;; mv_revc A u) (Ok x).
Proof.
  intros Hc Hx Hy. assert (H0 := ac_0 _ Hc). split; ag D; intros i Hi.
  - apply (frevc_gp _ _ _ (rconj (T := T))); auto.
  - apply (frevc_invol (rconj (T := T))); auto.
Qed.

Lemma flip_coef_thm x : valid A x ->
  gives A (mv_flip A x) (fun i => msign (popcount i) (rd x i)) /\
  agree A (u <- mv_flip A x ;; mv_flip A u) (Ok x) /\
  agree A (mv_flip A x) (mv_flip_subspace A x (2 ^ N.of_nat d - 1)).
Proof.
  intros Hx. split; [|split].
  - eapply gives_ext; [gv D|]. intros i Hi. reflexivity.
  - ag D. intros i Hi. apply alpha_invol.
  - ag D. intros i Hi. rewrite (alpha_alpham d) by auto. rewrite ones_pow2. reflexivity.
Qed.
Lemma flip_mul_thm x y : valid A x -> valid A y ->
  agree A (p <- mv_mul A x y ;; mv_flip A p) (u <- mv_flip A x ;; v <- mv_flip A y ;; mv_mul A u v) /\
  agree A (s <- mv_add x y ;; mv_flip A s) (u <- mv_flip A x ;; v <- mv_flip A y ;; mv_add u v).
Proof.
  intros Hx Hy. split; ag D; intros i Hi; [apply alpha_gp; auto|]. unfold alpha, fadd. apply sgb_add.
Qed.
Lemma flips_coef_thm x mask : valid A x ->
  gives A (mv_flip_subspace A x mask) (fun i => msign (popcount (N.land i mask)) (rd x i)) /\
  agree A (u <- mv_flip_subspace A x mask ;; mv_flip_subspace A u mask) (Ok x).
Proof.
  intros Hx. split.
  - eapply gives_ext; [gv D|]. intros i Hi. reflexivity.
  - ag D. intros i Hi. apply alpham_invol.
Qed.
Lemma flips_mul_thm x y mask : valid A x -> valid A y ->
  agree A (p <- mv_mul A x y ;; mv_flip_subspace A p mask)
          (u <- mv_flip_subspace A x mask ;; v <- mv_flip_subspace A y mask ;; mv_mul A u v) /\
  agree A (s <- mv_add x y ;; mv_flip_subspace A s mask)
          (u <- mv_flip_subspace A x mask ;; v <- mv_flip_subspace A y mask ;; mv_add u v).
Proof.
  intros Hx Hy. split; ag D; intros i Hi; [apply alpham_gp|]. unfold alpham, fadd. apply sgb_add.
Qed.

(** *** Grades *)
Lemma grade_thm x r : valid A x ->
  gives A (mv_grade_extract A x r) (fun i => if Nat.eqb (popcount i) r then rd x i else r0) /\
  agree A (g <- mv_grade_extract A x r ;; mv_grade_extract A g r) (mv_grade_extract A x r) /\
  (forall s, s <> r -> agree A (g <- mv_grade_extract A x r ;; mv_grade_extract A g s) (mv_zero A)) /\
  agree A (z <- mv_zero A ;; foldM (fun acc r => g <- mv_grade_extract A x r ;; mv_add acc g) (seq 0 (S d)) z) (Ok x).
Proof.
  intros Hx. assert (HD := valid_of A x Hx). split; [gv D|]. split; [|split].
  - ag D. intros i Hi. cbv beta. destruct (Nat.eqb (popcount i) r); auto.
  - intros s Hs. ag D. intros i Hi. cbv beta. destruct (Nat.eqb_spec (popcount i) s), (Nat.eqb_spec (popcount i) r); auto; lia.
  - assert (G : forall n z f, valid A z -> feq d (rd z) f ->
      gives A (foldM (fun acc r => g <- mv_grade_extract A x r ;; mv_add acc g) (seq n (S d - n)) z)
        (fun i => if Nat.leb n (popcount i) then radd (f i) (rd x i) else f i)).
    { intros n. remember (S d - n) as c eqn:Ec. revert n Ec. induction c as [|c IH]; intros n Ec z f Hz Hf; cbn [seq foldM].
      - eapply gives_ext; [apply gives_Ok; auto|]. intros i Hi. cbv beta. rewrite Hf by auto.
        pose proof (popcount_le d i Hi). destruct (Nat.leb_spec n (popcount i)); auto; lia.
      - eapply gives_bind; [gv D|]. intros z' Hz' Hf'. eapply gives_ext; [apply IH; [lia|exact Hz'|exact Hf']|].
        intros i Hi. cbv beta. unfold fadd. destruct (Nat.leb_spec (S n) (popcount i)), (Nat.leb_spec n (popcount i)), (Nat.eqb_spec (popcount i) n);
          try lia; rewrite ?add_0_r; auto. }
    eapply agree_intro; [eapply gives_bind; [apply g_default; auto|]; intros z Hz Hf; specialize (G 0 z _ Hz Hf); rewrite Nat.sub_0_r in G; exact G|apply gives_Ok; auto|].
    intros i Hi. cbn. apply add_0_l.
Qed.

(** *** Scalar products *)
Lemma vdot_thm x y : valid A x -> valid A y ->
  (exists v, mv_vdot A x y = Ok v) /\
  mv_vdot A x y = (p <- mv_mul A x y ;; mv_scalar_part p) /\
  mv_vsdot x y = Ok (sumI d (fun i => rmul (rd x i) (rd y i))).
Proof.
  intros Hx Hy. rewrite (v_vdot A sg D x y) by auto. split; [eauto|]. split; [|apply v_vsdot with (A := A); auto].
  destruct (g_mul A sg D x y Hx Hy) as (z & E & Hz & Hf). rewrite E. cbn [bind]. unfold mv_scalar_part. rewrite Hf by apply pow2_pos. reflexivity.
Qed.
Lemma mag2_thm x : valid A x ->
  (exists v, mv_mag2 A x = Ok v) /\
  mv_mag2 A x = (r <- mv_rev A x ;; p <- mv_mul A r x ;; mv_scalar_part p).
Proof.
  intros Hx. rewrite (v_mag2 A sg D x) by auto. split; [eauto|].
  assert (G : gives A (r <- mv_rev A x ;; mv_mul A r x) (gp d Q P (frev (rd x)) (rd x))) by gv D.
  destruct G as (z & E & Hz & Hf). destruct (mv_rev A x) as [r| |]; try discriminate. cbn [bind] in *. rewrite E. cbn [bind].
  unfold mv_scalar_part. rewrite Hf by apply pow2_pos. reflexivity.
Qed.
Lemma cmag2_thm {CJ : ConjOps T} x : rconj (T := T) r0 = r0 -> valid A x ->
  (exists v, mv_cmag2 A x = Ok v) /\
  mv_cmag2 A x = (r <- mv_revc A x ;; p <- mv_mul A r x ;; mv_scalar_part p).
Proof.
  intros H0 Hx. rewrite (v_cmag2 A sg D x) by auto. split; [eauto|].
  assert (G : gives A (r <- mv_revc A x ;; mv_mul A r x) (gp d Q P (frev (fun i => rconj (rd x i))) (rd x))) by gv D.
  destruct G as (z & E & Hz & Hf). destruct (mv_revc A x) as [r| |]; try discriminate. cbn [bind] in *. rewrite E. cbn [bind].
  unfold mv_scalar_part. rewrite Hf by apply pow2_pos. reflexivity.
Qed.

(** *** Powers *)
Lemma times_gives x n : valid A x -> gives A (times A x n) (fpow A (rd x) n).
Proof.
  intros Hx. assert (HD := valid_of A x Hx). induction n as [|n IH]; cbn [times fpow]; [apply g_one; auto|].
  eapply gives_bind; [exact IH|]. intros z Hz Hf. eapply (h_mul A sg D); eauto using feq_refl.
Qed.
Lemma pow_thm x a b : valid A x ->
  agree A (mv_pow A x a) (times A x a) /\
  agree A (mv_pow A x (a + b)) (u <- mv_pow A x a ;; v <- mv_pow A x b ;; mv_mul A u v).
Proof.
  intros Hx. split.
  - eapply agree_intro; [gv D|apply times_gives; auto|apply feq_refl].
  - ag D. apply fpow_add.
Qed.
End Laws5.
