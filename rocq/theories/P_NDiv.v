(** Division algebras as coefficients (C80), and [matrix_inv] over them. *)
From Verif Require Export P_Props7 M_NDiv.
From Verif Require Import P_Float P_Gauss.
Local Open Scope nat_scope.

Lemma ok_inj {X} (a b : X) : Ok a = Ok b -> a = b.
Proof. injection 1. auto. Qed.

Section NDiv.
Context {T : Type} {RO : RingOps T} {L : RingLaws T} {CL : CommLaws T} {DV : DivOps T} {FL : FieldLaws T} {m : Mode} {H : HashOrder}.
Variables (sg : list tok) (A : algebra).
Hypothesis D : declared sg A.
Hypothesis HF : formally_real T.
Hypothesis Hsg : sg = [Tminus] \/ sg = [Tminus; Tminus].
#[local] Existing Instance nested_ops.
#[local] Existing Instance nested_div.

Lemma nd_call (x y : nested T A) : mv_div A (nv A x) (nv A y) = Ok (nv A (rdiv x y)).
Proof.
  destruct (s_div A sg D KDense (nv A x) (nv A y)) as (z & E & Hz); [apply (nv_valid sg A D)..|].
  etransitivity; [exact E|]. f_equal. symmetry. unfold nv at 1. change (rdiv x y) with (settle A (mv_div A (proj1_sig x) (proj1_sig y))).
  apply settle_ok; [exact E|]. apply (fits_valid sg A D). exact Hz.
Qed.
Lemma nd_field : FieldLaws (nested T A).
Proof.
  constructor.
  - intros E. pose proof (proj2 (no_1 sg A D) 0%N (pow2_pos _)) as E1. pose proof (proj2 (no_0 sg A D) 0%N (pow2_pos _)) as E0.
    rewrite E in E1. rewrite E0 in E1. unfold del in E1. cbn in E1. apply one_neq_zero. symmetry. exact E1.
  - intros a b Hb. assert (Hz : mv_is_zero (nv A b) = false).
    { destruct (mv_is_zero (nv A b)) eqn:Z0; [|reflexivity]. exfalso. apply Hb. apply (@is0_spec (nested T A) (nested_ops A) (nested_laws sg A D)). exact Z0. }
    destruct (div_real_thm KDense sg A D (nv A a) (nv A b) HF Hsg (nv_valid sg A D a) (nv_valid sg A D b) Hz) as ((u & v & E1 & E2 & Vu & Vv & _ & R) & _).
    rewrite nd_call in E1. pose proof (eq_trans (eq_sym E1) (proj1 (no_mul sg A D (rdiv a b) b))) as E3. injection E3 as ->. injection E2 as <-.
    apply (nested_ext sg A D). intros i Hi. apply R. exact Hi.
Qed.
End NDiv.

Section NComm.
Context {T : Type} {RO : RingOps T} {L : RingLaws T} {CL : CommLaws T} {m : Mode} {H : HashOrder}.
Add Ring TrN : comm_ring_theory.
Lemma nd_comm (A : algebra) : declared [Tminus] A -> @CommLaws (nested T A) (nested_ops A).
Proof.
  intros D. constructor. intros x y. apply (nested_ext [Tminus] A D). intros i Hi.
  rewrite (proj2 (no_mul _ A D x y) i Hi), (proj2 (no_mul _ A D y x) i Hi).
  pose proof (declared_dim _ _ D) as Ed; cbn in Ed. pose proof (uniform_masks Tminus 1 A D) as (E1 & E2). rewrite Ed in *.
  change (pow2 1) with 2%N in Hi. rewrite E1, E2. unfold gp. generalize (rd (nv A x)) (rd (nv A y)). intros f g.
  assert (Ek : i = 0%N \/ i = 1%N) by lia; destruct Ek as [-> | -> ]; rewrite !sumI_S, !sumI_O; gsv; cbn [act]; xyv f; xyv g; ring.
Qed.
End NComm.

Section NQuat.
Context {T : Type} {RO : RingOps T} {L : RingLaws T} {m : Mode} {H : HashOrder}.
Local Notation QA := QuaternionAlgebra.
Local Notation qq := (store KQuat T).
Local Notation gpq := (gp 2 (a_imag QA) (a_proj QA)).

Lemma qs_gives (r : res qq) f : gives (S := qq) QA r f -> r = Ok (settle_q r) /\ feq 2 (rd (settle_q r : qq)) f.
Proof. intros (z & -> & Hz & F). split; [reflexivity|]. intros i Hi. cbn [settle_q]. unfold rd. rewrite F by exact Hi. reflexivity. Qed.
Lemma qs_ext (x y : qq) : feq 2 (rd x) (rd y) -> x = y.
Proof.
  intros E. apply qst_eta; [exact (E 0%N eq_refl)|exact (E 1%N eq_refl)|exact (E 2%N eq_refl)|exact (E 3%N eq_refl)].
Qed.
Lemma qo_add (x y : qq) : mv_add x y = Ok (radd (RingOps := quat_ops) x y) /\ feq 2 (rd (radd (RingOps := quat_ops) x y : qq)) (fadd (rd x) (rd y)).
Proof. apply qs_gives. apply (h_add QA); auto using quat_valid, feq_refl. Qed.
Lemma qo_sub (x y : qq) : mv_sub x y = Ok (rsub (RingOps := quat_ops) x y) /\ feq 2 (rd (rsub (RingOps := quat_ops) x y : qq)) (fsub (rd x) (rd y)).
Proof. apply qs_gives. apply (h_sub QA); auto using quat_valid, feq_refl. Qed.
Lemma qo_mul (x y : qq) : mv_mul QA x y = Ok (rmul (RingOps := quat_ops) x y) /\ feq 2 (rd (rmul (RingOps := quat_ops) x y : qq)) (gpq (rd x) (rd y)).
Proof. apply qs_gives. apply (h_mul QA _ quat_declared); auto using quat_valid, feq_refl. Qed.
Lemma qo_neg (x : qq) : mv_neg QA x = Ok (rneg (RingOps := quat_ops) x) /\ feq 2 (rd (rneg (RingOps := quat_ops) x : qq)) (fneg (rd x)).
Proof. apply qs_gives. apply (h_neg QA _ quat_declared); auto using quat_valid, feq_refl. Qed.
Lemma qo_0 : mv_zero QA = Ok (r0 (RingOps := quat_ops) : qq) /\ feq 2 (rd (r0 (RingOps := quat_ops) : qq)) (fun _ => r0).
Proof. split; [reflexivity|]. intros i Hi. change (pow2 2) with 4%N in Hi. assert (E : i = 0%N \/ i = 1%N \/ i = 2%N \/ i = 3%N) by lia. destruct E as [-> | [-> | [-> | -> ]]]; reflexivity. Qed.
Lemma qo_1 : mv_one QA = Ok (r1 (RingOps := quat_ops) : qq) /\ feq 2 (rd (r1 (RingOps := quat_ops) : qq)) (del 0 r1).
Proof. split; [reflexivity|]. intros i Hi. change (pow2 2) with 4%N in Hi. assert (E : i = 0%N \/ i = 1%N \/ i = 2%N \/ i = 3%N) by lia. destruct E as [-> | [-> | [-> | -> ]]]; reflexivity. Qed.

Lemma quat_laws : RingLaws (qst T) (O := quat_ops).
Proof.
  constructor.
  - intros a b. apply qs_ext. intros i Hi. rewrite (proj2 (qo_add a b) i Hi), (proj2 (qo_add b a) i Hi). apply add_comm.
  - intros a b c. apply qs_ext. intros i Hi. rewrite (proj2 (qo_add _ _) i Hi), (proj2 (qo_add (radd a b) c) i Hi). unfold fadd. rewrite (proj2 (qo_add _ _) i Hi), (proj2 (qo_add a b) i Hi). apply add_assoc.
  - intros a. apply qs_ext. intros i Hi. rewrite (proj2 (qo_add _ _) i Hi). unfold fadd. rewrite (proj2 qo_0 i Hi). apply add_0_l.
  - intros a. apply qs_ext. intros i Hi. rewrite (proj2 (qo_add _ _) i Hi). unfold fadd. rewrite (proj2 (qo_neg _) i Hi), (proj2 qo_0 i Hi). apply add_neg_r.
  - intros a b. apply qs_ext. intros i Hi. rewrite (proj2 (qo_sub _ _) i Hi), (proj2 (qo_add a (rneg b)) i Hi). unfold fadd, fsub. rewrite (proj2 (qo_neg b) i Hi). apply sub_def.
  - intros a b c. apply qs_ext. intros i Hi. rewrite (proj2 (qo_mul _ _) i Hi), (proj2 (qo_mul (rmul a b) c) i Hi).
    transitivity (gpq (rd (a : qq)) (gpq (rd (b : qq)) (rd (c : qq))) i).
    + apply gp_ext; auto using feq_refl. apply qo_mul.
    + rewrite <- gp_assoc by exact Hi. apply gp_ext; auto using feq_refl. apply feq_sym, qo_mul.
  - intros a. apply qs_ext. intros i Hi. rewrite (proj2 (qo_mul _ _) i Hi).
    transitivity (gpq (del 0 r1) (rd (a : qq)) i); [apply gp_ext; auto using feq_refl; apply qo_1|apply gp_1_l].
  - intros a. apply qs_ext. intros i Hi. rewrite (proj2 (qo_mul _ _) i Hi).
    transitivity (gpq (rd (a : qq)) (del 0 r1) i); [apply gp_ext; auto using feq_refl; apply qo_1|apply gp_1_r; auto].
  - intros a b c. apply qs_ext. intros i Hi. rewrite (proj2 (qo_mul _ _) i Hi), (proj2 (qo_add _ _) i Hi). unfold fadd. rewrite (proj2 (qo_mul a c) i Hi), (proj2 (qo_mul b c) i Hi).
    transitivity (gpq (fadd (rd (a : qq)) (rd (b : qq))) (rd (c : qq)) i); [apply gp_ext; auto using feq_refl; apply qo_add|]. rewrite gp_add_l. reflexivity.
  - intros a b c. apply qs_ext. intros i Hi. rewrite (proj2 (qo_mul _ _) i Hi), (proj2 (qo_add _ _) i Hi). unfold fadd. rewrite (proj2 (qo_mul a b) i Hi), (proj2 (qo_mul a c) i Hi).
    transitivity (gpq (rd (a : qq)) (fadd (rd (b : qq)) (rd (c : qq))) i); [apply gp_ext; auto using feq_refl; apply qo_add|]. rewrite gp_add_r. reflexivity.
  - intros a. change (ris0 a) with (mv_is_zero (a : qq)). pose proof (quat_valid a) as Va. rewrite (is_zero_ok QA (a : qq) Va). split.
    + intros E. apply qs_ext. intros i Hi. rewrite (proj2 qo_0 i Hi), (rd_coef 2 _ i Va Hi). apply E; auto.
    + intros -> i Hi. rewrite <- (rd_coef 2 _ i (quat_valid _) Hi). apply qo_0; auto.
  - intros a b. change (reqb a b) with (mv_eqb (a : qq) (b : qq)). rewrite (eqb_ok QA (a : qq) (b : qq) (quat_valid a) (quat_valid b)). split.
    + intros E. apply qs_ext. intros i Hi. rewrite !(rd_coef 2 _ i (quat_valid _) Hi). auto.
    + intros ->. auto.
Qed.

Context {CL : CommLaws T} {DV : DivOps T} {FL : FieldLaws T}.
Lemma qd_call (x y : qq) : mv_div QA x y = Ok (rdiv (DivOps := quat_div) x y : qq).
Proof.
  destruct (s_div QA _ quat_declared KQuat x y (quat_valid x) (quat_valid y)) as (z & E & _).
  change (rdiv (DivOps := quat_div) x y) with (settle_q (mv_div QA (x : qq) y)). rewrite E at 2. exact E.
Qed.
Lemma quat_field : formally_real T -> @FieldLaws (qst T) quat_ops quat_div.
Proof.
  intros HF. constructor.
  - intros E. pose proof (f_equal q_0 E) as E0. cbn in E0. apply one_neq_zero. exact E0.
  - intros a b Hb. assert (Hz : mv_is_zero (b : qq) = false).
    { destruct (mv_is_zero (b : qq)) eqn:Z0; [|reflexivity]. exfalso. apply Hb. apply (@is0_spec (qst T) quat_ops quat_laws). exact Z0. }
    destruct (div_real_thm KQuat _ QA quat_declared (a : qq) (b : qq) HF (or_intror eq_refl) (quat_valid a) (quat_valid b) Hz) as ((u & v & E1 & E2 & Vu & Vv & _ & R) & _).
    rewrite qd_call in E1. pose proof (eq_trans (eq_sym E1) (proj1 (qo_mul (rdiv (DivOps := quat_div) a b) b))) as E3. apply ok_inj in E3. apply ok_inj in E2. subst u v.
    apply qs_ext. intros i Hi. apply R. exact Hi.
Qed.
Lemma quat_calls_thm (x y : qst T) :
  mv_add x y = Ok (radd (RingOps := quat_ops) x y) /\ mv_sub x y = Ok (rsub (RingOps := quat_ops) x y) /\
  mv_mul QA x y = Ok (rmul (RingOps := quat_ops) x y) /\ mv_neg QA x = Ok (rneg (RingOps := quat_ops) x) /\
  mv_div QA x y = Ok (rdiv (DivOps := quat_div) x y) /\
  mv_zero QA = Ok (r0 (RingOps := quat_ops)) /\ mv_one QA = Ok (r1 (RingOps := quat_ops)).
Proof.
  split; [apply qo_add|]. split; [apply qo_sub|]. split; [apply qo_mul|]. split; [apply qo_neg|]. split; [apply qd_call|]. split; reflexivity.
Qed.
End NQuat.

Section MInv.
Context {T R : Type} {RO : RingOps T} {L : RingLaws T} {DV : DivOps T} {FL : FieldLaws T} {NC : NormCmp T R} {NZ : NormZero T R}.
Lemma minv_thm (M : mat T) : m_ok M -> exists o, matrix_inv M = Ok o /\ (m_nr M <> m_nc M -> o = None) /\
  forall W, o = Some W -> exists I J, m_dot M W = Ok I /\ identity_mat (m_nr M) I /\ m_dot W M = Ok J /\ identity_mat (m_nr M) J.
Proof.
  intros Hok. destruct (Nat.eq_dec (m_nr M) (m_nc M)) as [En|Hn].
  - assert (HM : mis (m_nr M) (m_nr M) M (m_at M)) by (split; [reflexivity|]; split; [symmetry; exact En|]; split; [exact Hok|reflexivity]).
    destruct (matrix_inv_sound _ M _ HM) as (o & E & B). exists o. split; [exact E|]. split; [congruence|]. intros W ->. destruct (B W eq_refl) as (V & HW & E1 & E2).
    destruct (mis_dot _ _ _ _ _ _ _ HM HW) as (I & EI & HI). destruct (mis_dot _ _ _ _ _ _ _ HW HM) as (J & EJ & HJ).
    exists I, J. split; [exact EI|]. assert (G : forall K X, mis (m_nr M) (m_nr M) K X -> eqn (m_nr M) X delta -> identity_mat (m_nr M) K).
    { intros K X HK HX. pose proof HK as (K1 & K2 & K3 & _). split; [split; [exact K1|split; [exact K2|exact K3]]|]. intros i j Hi Hj. rewrite (mis_get _ _ _ _ i j HK Hi Hj). f_equal. apply HX; assumption. }
    split; [apply (G _ _ HI); exact E2|]. split; [exact EJ|]. apply (G _ _ HJ). exact E1.
  - exists None. split; [|split; [reflexivity|discriminate]]. unfold matrix_inv. destruct (Nat.eqb_spec (m_nr M) (m_nc M)); [contradiction|]. reflexivity.
Qed.
End MInv.
