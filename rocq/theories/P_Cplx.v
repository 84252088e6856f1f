(** Complex numbers over a formally real field, and the phases of the transform. *)
From Verif Require Export P_CliFFT P_Props5 Spec_FFT.
Local Open Scope nat_scope.

Section Cplx.
Context {F : Type} {RO : RingOps F} {L : RingLaws F}.
Local Open Scope rg_scope.

Lemma cplx_ext (a b : cplx F) : c_re a = c_re b -> c_im a = c_im b -> a = b.
Proof. destruct a, b. cbn. intros -> ->. reflexivity. Qed.

#[global] Instance CplxLaws : RingLaws (cplx F).
Proof.
  constructor; intros; try (apply cplx_ext; cbn; rewrite ?add_0_l, ?mul_1_l, ?mul_0_l, ?mul_1_r, ?mul_0_r, ?sub_0_r, ?add_0_l, ?add_0_r; auto; ncring).
  - apply cplx_ext; cbn; dist; rewrite ?mul_assoc; abel.
  - destruct a as [a1 a2]. cbn. rewrite Bool.andb_true_iff, !is0_spec. split; [intros [-> ->]; auto|intros E; inversion E; auto].
  - destruct a as [a1 a2], b as [b1 b2]. cbn. rewrite Bool.andb_true_iff, !reqb_spec. split; [intros [-> ->]; auto|intros E; inversion E; auto].
Qed.
#[global] Instance CplxComm {CL : CommLaws F} : CommLaws (cplx F).
Proof.
  constructor. intros [a b] [c d]. apply cplx_ext; cbn; rewrite (mul_comm a), (mul_comm b), ?(mul_comm a d), ?(mul_comm b c); auto. apply add_comm.
Qed.

Section Field.
Context {CL : CommLaws F} {DV : DivOps F} {FL : FieldLaws F} {FR : FormallyReal F}.

Add Ring CplxR : (comm_ring_theory (T := F)).

Lemma norm_0 (a b : F) : a * a + b * b = 0 -> a = 0 /\ b = 0.
Proof.
  intros E. pose proof (sum_sq [a; b]) as H. cbn [suml] in H. rewrite add_0_r in H. specialize (H E). inversion H as [|? ? H1 H2]. inversion H2. auto.
Qed.
#[global] Instance CplxField : FieldLaws (cplx F).
Proof.
  constructor.
  - intros E. inversion E. apply one_neq_zero; auto.
  - intros [a b] [c d] Hb. cbn. set (n := c * c + d * d).
    assert (Hn : n <> 0). { intros E. apply norm_0 in E as [-> ->]. apply Hb. reflexivity. }
    assert (exists v, v * n = 1 /\ forall a, a / n = a * v) as (v & Hi & Dn).
    { exists (1 / n). split; [apply div_mul; auto|intros; apply div_as_mul; auto]. }
    apply cplx_ext; cbn; rewrite !Dn.
    + transitivity (a * (v * n)); [unfold n; ring|rewrite Hi; ring].
    + transitivity (b * (v * n)); [unfold n; ring|rewrite Hi; ring].
Qed.
End Field.
End Cplx.

#[global] Instance RealConv {F} {RO : RingOps F} {L : RingLaws F} : ConvLaws F F.
Proof.
  constructor; intros; try reflexivity; apply cplx_ext; cbn; rewrite ?mul_0_l, ?mul_0_r, ?add_0_l, ?sub_0_r; reflexivity.
Qed.
#[global] Instance CplxConv {F} {RO : RingOps F} : ConvLaws (cplx F) F.
Proof. constructor; reflexivity. Qed.

Section Conv.
Context {T F : Type} {RT : RingOps T} {LT : RingLaws T} {RF : RingOps F} {LF : RingLaws F} {IC : IntoCplx T F} {FC : FromCplx T F} {CV : ConvLaws T F}.
Local Notation into := (into_complex (T := T) (F := F)).
Lemma into_0 : into r0 = r0.
Proof. apply (add_cancel_l (into r0)). rewrite <- into_add, !add_0_r. reflexivity. Qed.
Lemma into_neg a : into (rneg a) = rneg (into a).
Proof. apply neg_unique. rewrite <- into_add, add_neg_r. apply into_0. Qed.
Lemma into_sub a b : into (rsub a b) = rsub (into a) (into b).
Proof. rewrite !sub_def, into_add, into_neg. reflexivity. Qed.
Lemma into_sgb b a : into (sgb b a) = sgb b (into a).
Proof. destruct b; [apply into_neg|reflexivity]. Qed.
Lemma into_inj a b : into a = into b -> a = b.
Proof. intros E. rewrite <- (from_into (F := F) a), E. apply from_into. Qed.
Lemma into_act s a : into (act s a) = act s (into a).
Proof. destruct s; cbn; [apply into_0|reflexivity|apply into_neg]. Qed.
Lemma into_suml {A} (f : A -> T) l : into (suml f l) = suml (fun x => into (f x)) l.
Proof. induction l; cbn [suml]; [apply into_0|]. rewrite into_add, IHl. reflexivity. Qed.
Lemma into_gp d Q P x y k : into (gp d Q P x y k) = gp d Q P (fun i => into (x i)) (fun i => into (y i)) k.
Proof. unfold gp, sumI. rewrite into_suml. apply suml_ext. intros i _. rewrite into_act, into_mul. reflexivity. Qed.
End Conv.

(** *** Phases *)
Section Phase.
Context {T : Type} {RO : RingOps T} {L : RingLaws T}.
Record is_phase (p : nat -> T) : Prop := {
  ph_0 : p 0 = r1;
  ph_add : forall a b, p (a + b) = rmul (p a) (p b);
  ph_2 : p 2 = rneg r1;
  ph_c : forall a x, rmul (p a) x = rmul x (p a) }.

Definition phi (p : nat -> T) (M : N) (x : N -> T) (i : N) : T := rmul (x i) (p (popcount (N.land i M))).

Lemma ph_even p k : is_phase p -> p (2 * k) = sgb (Nat.odd k) r1.
Proof.
  intros Hp. induction k as [|k IH]; [apply ph_0; auto|]. replace (2 * S k) with (2 + 2 * k) by lia.
  rewrite ph_add, ph_2, IH by auto. rewrite Nat.odd_succ, <- Nat.negb_odd. destruct (Nat.odd k); cbn [sgb negb].
  - rewrite mul_neg_l, mul_neg_r, mul_1_l, neg_neg. reflexivity.
  - rewrite mul_1_r. reflexivity.
Qed.
Lemma popcount_lxor2 a b : popcount a + popcount b = popcount (N.lxor a b) + 2 * popcount (N.land a b).
Proof. pose proof (popcount_lxor a b). lia. Qed.

Lemma phi_gp p d Q P M x y k : is_phase p ->
  gp d Q P (phi p M x) (phi p M y) k = phi p M (gp d (N.lxor Q M) P x y) k.
Proof.
  intros Hp. unfold gp, phi. rewrite sumI_mul_r. apply sumI_ext. intros i Hi. rewrite act_mul_l.
  set (j := N.lxor i k).
  assert (Ej : k = N.lxor i j) by (unfold j; rewrite lxor_cancel; reflexivity).
  replace (rmul (rmul (x i) (p (popcount (N.land i M)))) (rmul (y j) (p (popcount (N.land j M)))))
    with (rmul (rmul (x i) (y j)) (p (popcount (N.land i M) + popcount (N.land j M)))).
  2:{ rewrite ph_add, <- !mul_assoc by auto. f_equal. rewrite !mul_assoc. f_equal. symmetry. apply ph_c. auto. }
  rewrite popcount_lxor2, ph_add, ph_even by auto.
  replace (N.lxor (N.land i M) (N.land j M)) with (N.land k M) by (rewrite Ej; apply N.bits_inj; intros t; rewrite !N.lxor_spec, !N.land_spec, !N.lxor_spec; destruct (N.testbit i t), (N.testbit j t), (N.testbit M t); reflexivity).
  replace (N.land (N.land i M) (N.land j M)) with (N.land (N.land i j) M).
  2:{ apply N.bits_inj. intros t. rewrite !N.land_spec. destruct (N.testbit i t), (N.testbit j t), (N.testbit M t); reflexivity. }
  rewrite sgb_mul_r, mul_1_r, sgb_mul_r. unfold gsign. destruct (N.land (N.land i j) P =? 0)%N; [|reflexivity].
  rewrite !act_of_bool, sgb_sgb. f_equal.
  replace (N.land (N.land i j) (N.lxor Q M)) with (N.lxor (N.land (N.land i j) Q) (N.land (N.land i j) M)).
  2:{ apply N.bits_inj. intros t. rewrite !N.lxor_spec, !N.land_spec, N.lxor_spec. destruct (N.testbit i t), (N.testbit j t), (N.testbit M t), (N.testbit Q t); reflexivity. }
  rewrite par_lxor. unfold par at 3. destruct (beta d i j), (par (N.land (N.land i j) Q)), (Nat.odd (popcount (N.land (N.land i j) M))); reflexivity.
Qed.
Lemma phi_add p M x y k : phi p M (fadd x y) k = radd (phi p M x k) (phi p M y k).
Proof. apply mul_add_l. Qed.
Lemma phi_ext p M d x y : feq d x y -> feq d (phi p M x) (phi p M y).
Proof. intros E i Hi. unfold phi. rewrite E; auto. Qed.
Lemma phi_alpha p M x k : phi p M (alpha x) k = alpha (phi p M x) k.
Proof. unfold phi, alpha. apply sgb_mul_l. Qed.
Lemma phi_alpham p M m x k : phi p M (alpham m x) k = alpham m (phi p M x) k.
Proof. unfold phi, alpham. apply sgb_mul_l. Qed.
Lemma phi_frev p M x k : phi p M (frev x) k = frev (phi p M x) k.
Proof. unfold phi, frev. apply sgb_mul_l. Qed.
Lemma phi_inv p p' M x k : (forall a, rmul (p a) (p' a) = r1) -> phi p' M (phi p M x) k = x k.
Proof. intros E. unfold phi. rewrite <- mul_assoc, E. apply mul_1_r. Qed.
End Phase.

Section IPow.
Context {F : Type} {RO : RingOps F} {L : RingLaws F}.
Definition ipw (k : nat) : cplx F := nth (k mod 4) i_powers r0.
Definition ipn (k : nat) : cplx F := nth (k mod 4) i_neg_powers r0.

Lemma mod4_cases k : k mod 4 = 0 \/ k mod 4 = 1 \/ k mod 4 = 2 \/ k mod 4 = 3.
Proof. pose proof (Nat.mod_upper_bound k 4). lia. Qed.
Ltac cx := apply cplx_ext; cbn; repeat first [rewrite mul_neg_l | rewrite mul_neg_r | rewrite mul_1_l | rewrite mul_1_r | rewrite mul_0_l | rewrite mul_0_r]; abel.
Lemma ipw_phase : is_phase ipw.
Proof.
  constructor; unfold ipw; try reflexivity.
  - intros a b. rewrite Nat.add_mod by lia. destruct (mod4_cases a) as [-> | [-> | [-> | -> ]]], (mod4_cases b) as [-> | [-> | [-> | -> ]]]; cbn [Nat.add Nat.modulo Nat.divmod fst snd Nat.sub nth i_powers]; cx.
  - cbn. cx.
  - intros a x. destruct (mod4_cases a) as [-> | [-> | [-> | -> ]]]; cbn [nth i_powers]; cx.
Qed.
Lemma ipn_phase : is_phase ipn.
Proof.
  constructor; unfold ipn; try reflexivity.
  - intros a b. rewrite Nat.add_mod by lia. destruct (mod4_cases a) as [-> | [-> | [-> | -> ]]], (mod4_cases b) as [-> | [-> | [-> | -> ]]]; cbn [Nat.add Nat.modulo Nat.divmod fst snd Nat.sub nth i_neg_powers]; cx.
  - cbn. cx.
  - intros a x. destruct (mod4_cases a) as [-> | [-> | [-> | -> ]]]; cbn [nth i_neg_powers]; cx.
Qed.
Lemma ipw_ipn a : rmul (ipw a) (ipn a) = r1.
Proof. unfold ipw, ipn. destruct (mod4_cases a) as [-> | [-> | [-> | -> ]]]; cbn [nth i_powers i_neg_powers]; cx. Qed.
Lemma ipn_ipw a : rmul (ipn a) (ipw a) = r1.
Proof. unfold ipw, ipn. destruct (mod4_cases a) as [-> | [-> | [-> | -> ]]]; cbn [nth i_powers i_neg_powers]; cx. Qed.
End IPow.
