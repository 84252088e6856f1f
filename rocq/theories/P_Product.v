(** The geometric product on coefficient functions. *)
From Verif Require Export P_Signs.
Local Open Scope nat_scope.

Section Act.
Context {T : Type} {RO : RingOps T}.
Local Open Scope rg_scope.

Definition act (s : sign) (x : T) : T :=
  match s with Null => 0 | Plus => x | Minus => - x end.

(** A coefficient function with one non-zero entry. *)
Definition del (j : N) (c : T) (i : N) : T := if (i =? j)%N then c else 0.

(** Geometric product of coefficient functions in dimension d, with imaginary mask Q and null mask P. *)
Definition gp (d : nat) (Q P : N) (x y : N -> T) (k : N) : T :=
  sumI d (fun i => act (gsign d Q P i (N.lxor i k)) (x i * y (N.lxor i k))).

Definition fadd (x y : N -> T) (i : N) : T := x i + y i.
Definition fsub (x y : N -> T) (i : N) : T := x i - y i.
Definition fneg (x : N -> T) (i : N) : T := - x i.
(** Grade involution. *)
Definition alpha (x : N -> T) (i : N) : T := sgb (par i) (x i).
End Act.

Definition feq {T} (d : nat) (x y : N -> T) : Prop := forall i, (i < pow2 d)%N -> x i = y i.

Lemma feq_refl {T} d (x : N -> T) : feq d x x.
Proof. intros i _. reflexivity. Qed.
Lemma feq_sym {T} d (x y : N -> T) : feq d x y -> feq d y x.
Proof. intros H i Hi. symmetry. auto. Qed.
Lemma feq_trans {T} d (x y z : N -> T) : feq d x y -> feq d y z -> feq d x z.
Proof. intros H1 H2 i Hi. rewrite H1; auto. Qed.

Lemma lxor_cancel a b : N.lxor a (N.lxor a b) = b.
Proof. rewrite <- N.lxor_assoc, N.lxor_nilpotent, N.lxor_0_l. reflexivity. Qed.
Lemma lxor_cancel_r a b : N.lxor (N.lxor a b) b = a.
Proof. rewrite N.lxor_assoc, N.lxor_nilpotent, N.lxor_0_r. reflexivity. Qed.
Lemma lxor_eq_iff a b k : N.lxor a b = k <-> b = N.lxor a k.
Proof.
  split; intros H.
  - rewrite <- H, lxor_cancel. reflexivity.
  - rewrite H, lxor_cancel. reflexivity.
Qed.

Section GP.
Context {T : Type} {RO : RingOps T} {L : RingLaws T}.
Local Open Scope rg_scope.

Lemma act_0 s : act s 0 = 0.
Proof. destruct s; simpl; auto. apply neg_0. Qed.
Lemma act_add s x y : act s (x + y) = act s x + act s y.
Proof. destruct s; simpl; auto; [symmetry; apply add_0_l|apply neg_add]. Qed.
Lemma act_neg s x : act s (- x) = - act s x.
Proof. destruct s; simpl; auto. symmetry; apply neg_0. Qed.
Lemma act_mul s t x : act s (act t x) = act (sign_mul s t) x.
Proof. destruct s, t; simpl; auto; try apply neg_0. apply neg_neg. Qed.
Lemma act_mul_l s x y : act s x * y = act s (x * y).
Proof. destruct s; simpl; auto; [apply mul_0_l|apply mul_neg_l]. Qed.
Lemma act_mul_r s x y : x * act s y = act s (x * y).
Proof. destruct s; simpl; auto; [apply mul_0_r|apply mul_neg_r]. Qed.
Lemma act_sum s d f : act s (sumI d f) = sumI d (fun i => act s (f i)).
Proof.
  destruct s; simpl; auto; [|symmetry; apply sumI_neg]. symmetry. apply sumI_0. auto.
Qed.
Lemma act_of_bool b x : act (of_bool b) x = sgb b x.
Proof. destruct b; reflexivity. Qed.
Lemma act_plus x : act Plus x = x.
Proof. reflexivity. Qed.

Lemma del_eq j (c : T) : del j c j = c.
Proof. unfold del. rewrite N.eqb_refl. reflexivity. Qed.
Lemma del_neq i j (c : T) : i <> j -> del j c i = 0.
Proof. intros H. unfold del. destruct (N.eqb_spec i j); [contradiction|reflexivity]. Qed.

Lemma sumI_del d j c f : (j < pow2 d)%N -> (forall i, f i 0 = 0) ->
  sumI d (fun i => f i (del j c i)) = f j c.
Proof.
  intros Hj Hf. rewrite (sumI_single d _ j Hj).
  - rewrite del_eq. reflexivity.
  - intros i _ Hne. rewrite del_neq by auto. apply Hf.
Qed.

Variables (d : nat) (Q P : N).

Lemma gp_ext x x' y y' k : (k < pow2 d)%N -> feq d x x' -> feq d y y' -> gp d Q P x y k = gp d Q P x' y' k.
Proof.
  intros Hk Hx Hy. apply sumI_ext. intros i Hi. rewrite Hx, Hy; auto using lxor_lt.
Qed.

Lemma gp_feq x x' y y' : feq d x x' -> feq d y y' -> feq d (gp d Q P x y) (gp d Q P x' y').
Proof. intros Hx Hy k Hk. apply gp_ext; auto. Qed.

Lemma gp_add_l x x' y k : gp d Q P (fadd x x') y k = gp d Q P x y k + gp d Q P x' y k.
Proof.
  unfold gp, fadd. rewrite <- sumI_add. apply sumI_ext. intros. rewrite mul_add_l, act_add. reflexivity.
Qed.
Lemma gp_add_r x y y' k : gp d Q P x (fadd y y') k = gp d Q P x y k + gp d Q P x y' k.
Proof.
  unfold gp, fadd. rewrite <- sumI_add. apply sumI_ext. intros. rewrite mul_add_r, act_add. reflexivity.
Qed.
Lemma gp_neg_l x y k : gp d Q P (fneg x) y k = - gp d Q P x y k.
Proof.
  unfold gp, fneg. rewrite <- sumI_neg. apply sumI_ext. intros. rewrite mul_neg_l, act_neg. reflexivity.
Qed.
Lemma gp_neg_r x y k : gp d Q P x (fneg y) k = - gp d Q P x y k.
Proof.
  unfold gp, fneg. rewrite <- sumI_neg. apply sumI_ext. intros. rewrite mul_neg_r, act_neg. reflexivity.
Qed.
Lemma gp_sub_l x x' y k : gp d Q P (fsub x x') y k = gp d Q P x y k - gp d Q P x' y k.
Proof.
  rewrite sub_def, <- gp_neg_l, <- gp_add_l. apply sumI_ext. intros. unfold fsub, fadd, fneg.
  rewrite sub_def. reflexivity.
Qed.
Lemma gp_sub_r x y y' k : gp d Q P x (fsub y y') k = gp d Q P x y k - gp d Q P x y' k.
Proof.
  rewrite sub_def, <- gp_neg_r, <- gp_add_r. apply sumI_ext. intros. unfold fsub, fadd, fneg.
  rewrite sub_def. reflexivity.
Qed.
Lemma gp_scale_l c x y k : gp d Q P (fun i => c * x i) y k = c * gp d Q P x y k.
Proof.
  unfold gp. rewrite sumI_mul_l. apply sumI_ext. intros. rewrite act_mul_r, mul_assoc. reflexivity.
Qed.
Lemma gp_scale_r c x y k : gp d Q P x (fun i => y i * c) k = gp d Q P x y k * c.
Proof.
  unfold gp. rewrite sumI_mul_r. apply sumI_ext. intros. rewrite act_mul_l, mul_assoc. reflexivity.
Qed.
Lemma gp_0_l y k : gp d Q P (fun _ => 0) y k = 0.
Proof. apply sumI_0. intros. rewrite mul_0_l. apply act_0. Qed.
Lemma gp_0_r x k : gp d Q P x (fun _ => 0) k = 0.
Proof. apply sumI_0. intros. rewrite mul_0_r. apply act_0. Qed.

Lemma gp_del_l a c y k : (a < pow2 d)%N ->
  gp d Q P (del a c) y k = act (gsign d Q P a (N.lxor a k)) (c * y (N.lxor a k)).
Proof.
  intros Ha. unfold gp.
  apply (sumI_del d a c (fun i v => act (gsign d Q P i (N.lxor i k)) (v * y (N.lxor i k)))); auto.
  intros. rewrite mul_0_l. apply act_0.
Qed.
Lemma gp_del_r a c x k : (a < pow2 d)%N -> (k < pow2 d)%N ->
  gp d Q P x (del a c) k = act (gsign d Q P (N.lxor k a) a) (x (N.lxor k a) * c).
Proof.
  intros Ha Hk. unfold gp.
  rewrite (sumI_single d _ (N.lxor k a)); auto using lxor_lt.
  2:{ intros j Hj Hne. rewrite del_neq; [rewrite mul_0_r; apply act_0|].
      intros E. apply Hne. rewrite <- E, N.lxor_comm, lxor_cancel_r. reflexivity. }
  rewrite (N.lxor_comm k a), lxor_cancel_r. rewrite del_eq. reflexivity.
Qed.

Lemma gp_del_del a b u v k : (a < pow2 d)%N ->
  gp d Q P (del a u) (del b v) k = del (N.lxor a b) (act (gsign d Q P a b) (u * v)) k.
Proof.
  intros Ha. rewrite gp_del_l by auto. unfold del.
  destruct (N.eqb_spec (N.lxor a k) b) as [E|E].
  - subst b. rewrite lxor_cancel, N.eqb_refl. reflexivity.
  - destruct (N.eqb_spec k (N.lxor a b)) as [->|]; [|rewrite mul_0_r; apply act_0].
    exfalso. apply E. apply lxor_cancel.
Qed.

Lemma gp_1_l y k : gp d Q P (del 0 1) y k = y k.
Proof.
  rewrite gp_del_l by apply pow2_pos. rewrite N.lxor_0_l, gsign_0_l, mul_1_l. reflexivity.
Qed.
Lemma gp_1_r x k : (k < pow2 d)%N -> gp d Q P x (del 0 1) k = x k.
Proof.
  intros Hk. rewrite gp_del_r by auto using pow2_pos. rewrite N.lxor_0_r, gsign_0_r, mul_1_r. reflexivity.
Qed.

Lemma gp_assoc x y z k : (k < pow2 d)%N ->
  gp d Q P (gp d Q P x y) z k = gp d Q P x (gp d Q P y z) k.
Proof.
  intros Hk. unfold gp at 1 3.
  transitivity (sumI d (fun j => sumI d (fun i =>
     act (sign_mul (gsign d Q P j (N.lxor j k)) (gsign d Q P i (N.lxor i j)))
         (x i * y (N.lxor i j) * z (N.lxor j k))))).
  { apply sumI_ext. intros j Hj. unfold gp. rewrite sumI_mul_r, act_sum.
    apply sumI_ext. intros i Hi. rewrite act_mul_l, act_mul. reflexivity. }
  rewrite sumI_swap. apply sumI_ext. intros i Hi. unfold gp.
  rewrite sumI_mul_l, act_sum.
  rewrite (sumI_lxor_l d i (fun j => act (gsign d Q P i (N.lxor i k)) _)) by auto.
  apply sumI_ext. intros j Hj.
  rewrite <- (N.lxor_assoc (N.lxor i j) i k).
  replace (N.lxor (N.lxor (N.lxor i j) i) k) with (N.lxor j k)
    by (rewrite (N.lxor_comm i j), lxor_cancel_r; reflexivity).
  rewrite act_mul_r, act_mul, mul_assoc. f_equal.
  pose proof (gsign_cocycle d Q P i (N.lxor i j) (N.lxor j k)) as H.
  rewrite lxor_cancel in H. rewrite sign_mul_comm, H, sign_mul_comm. f_equal.
  f_equal. rewrite N.lxor_assoc, lxor_cancel. reflexivity.
Qed.

End GP.
