(** The coefficient interface: operations without laws (what the Rust trait
    [Ring] gives), the laws exact coefficient types satisfy, and finite sums. *)
From Verif Require Export Base.
From Coq Require Export Ring Permutation.

(** src/types.rs:11-39 [trait Ring]: Add, Sub, Neg, Zero, Mul, One, PartialEq. *)
Class RingOps (T : Type) := {
  r0 : T; r1 : T;
  radd : T -> T -> T; rsub : T -> T -> T; rmul : T -> T -> T; rneg : T -> T;
  ris0 : T -> bool;                (* Zero::is_zero *)
  reqb : T -> T -> bool            (* PartialEq::eq *)
}.

(** src/types.rs:41-43 [trait DivRing]: additionally Div. *)
Class DivOps (T : Type) := { rdiv : T -> T -> T }.

Declare Scope rg_scope.
Delimit Scope rg_scope with rg.
Infix "+" := radd : rg_scope.
Infix "-" := rsub : rg_scope.
Infix "*" := rmul : rg_scope.
Notation "- x" := (rneg x) : rg_scope.
Infix "/" := rdiv : rg_scope.
Notation "0" := r0 : rg_scope.
Notation "1" := r1 : rg_scope.

(** Laws of an exact, associative, unital, not necessarily commutative ring. *)
Class RingLaws (T : Type) {O : RingOps T} : Prop := {
  add_comm : forall a b, (a + b = b + a)%rg;
  add_assoc : forall a b c, (a + (b + c) = a + b + c)%rg;
  add_0_l : forall a, (0 + a = a)%rg;
  add_neg_r : forall a, (a + - a = 0)%rg;
  sub_def : forall a b, (a - b = a + - b)%rg;
  mul_assoc : forall a b c, (a * (b * c) = a * b * c)%rg;
  mul_1_l : forall a, (1 * a = a)%rg;
  mul_1_r : forall a, (a * 1 = a)%rg;
  mul_add_l : forall a b c, ((a + b) * c = a * c + b * c)%rg;
  mul_add_r : forall a b c, (a * (b + c) = a * b + a * c)%rg;
  is0_spec : forall a, ris0 a = true <-> a = 0%rg;
  reqb_spec : forall a b, reqb a b = true <-> a = b
}.

Class CommLaws (T : Type) {O : RingOps T} : Prop :=
  { mul_comm : forall a b, (a * b = b * a)%rg }.

(** A commutative field: division is exact whenever the divisor is not zero. *)
Class FieldLaws (T : Type) {O : RingOps T} {D : DivOps T} : Prop := {
  one_neq_zero : (1 <> 0)%rg;
  div_mul : forall a b, b <> 0%rg -> (a / b * b = a)%rg
}.

(** What holds of rounded arithmetic as well: the IEEE 754 formats, with the two zeros
    identified, and pairs (complex numbers) of these.  Addition is not associative, products do
    not distribute, NaN differs from itself and x - x need not be zero. *)
Class NumLaws (T : Type) {O : RingOps T} : Prop := {
  n_add_comm : forall a b, (a + b = b + a)%rg;
  n_add_0_l : forall a, (0 + a = a)%rg;
  n_sub_def : forall a b, (a - b = a + - b)%rg;
  n_neg_neg : forall a, (- - a = a)%rg;
  n_neg_0 : (- 0 = 0)%rg;
  n_neg_add : forall a b, (- (a + b) = - a + - b)%rg;
  n_is0_spec : forall a, ris0 a = true <-> a = 0%rg;
  n_reqb_0 : reqb 0%rg 0%rg = true;
  n_reqb_sym : forall a b, reqb a b = reqb b a
}.

Section Num.
Context {T : Type} {O : RingOps T} {W : NumLaws T}.
Local Open Scope rg_scope.

Lemma add_0_r a : a + 0 = a.
Proof. rewrite n_add_comm. apply n_add_0_l. Qed.
Lemma neg_neg a : - - a = a.
Proof. apply n_neg_neg. Qed.
Lemma neg_0 : - (0 : T) = 0.
Proof. apply n_neg_0. Qed.
Lemma neg_add a b : - (a + b) = - a + - b.
Proof. apply n_neg_add. Qed.
Lemma neg_inj a b : - a = - b -> a = b.
Proof. intros H. rewrite <- (neg_neg a), H. apply neg_neg. Qed.
Lemma neg_eq0 a : - a = 0 -> a = 0.
Proof. intros H. apply neg_inj. rewrite H, neg_0. reflexivity. Qed.
Lemma sub_0_r a : a - 0 = a.
Proof. rewrite n_sub_def, neg_0. apply add_0_r. Qed.
Lemma sub_0_l a : 0 - a = - a.
Proof. rewrite n_sub_def. apply n_add_0_l. Qed.

Lemma is0_r0 : ris0 (0 : T) = true.
Proof. apply n_is0_spec. reflexivity. Qed.
Lemma is0_false a : ris0 a = false <-> a <> 0.
Proof.
  destruct (ris0 a) eqn:E; split; intros H; try discriminate.
  - apply n_is0_spec in E. contradiction.
  - intros ->. rewrite is0_r0 in E. discriminate.
  - reflexivity.
Qed.
Lemma is0_dec (a : T) : {a = 0} + {a <> 0}.
Proof. destruct (ris0 a) eqn:E; [left; apply n_is0_spec; auto|right; apply is0_false; auto]. Qed.

(** Boolean sign: negate when the flag is set. *)
Definition sgb (b : bool) (x : T) : T := if b then - x else x.
Lemma sgb_0 b : sgb b 0 = 0.
Proof. destruct b; simpl; auto. apply neg_0. Qed.
Lemma sgb_add b x y : sgb b (x + y) = sgb b x + sgb b y.
Proof. destruct b; simpl; auto. apply neg_add. Qed.
Lemma sgb_neg b x : sgb b (- x) = - sgb b x.
Proof. destruct b; simpl; auto. Qed.
Lemma sgb_sgb b c x : sgb b (sgb c x) = sgb (xorb b c) x.
Proof. destruct b, c; simpl; auto. apply neg_neg. Qed.
Lemma sgb_invol b x : sgb b (sgb b x) = x.
Proof. destruct b; simpl; auto. apply neg_neg. Qed.
Lemma sgb_inj b x y : sgb b x = sgb b y -> x = y.
Proof. destruct b; simpl; auto. apply neg_inj. Qed.
Lemma sgb_eq0 b x : sgb b x = 0 <-> x = 0.
Proof.
  split; intros H; [|subst; apply sgb_0]. apply (sgb_inj b). rewrite H, sgb_0. reflexivity.
Qed.
End Num.

Section Exact.
Context {T : Type} {O : RingOps T} {L : RingLaws T}.
Local Open Scope rg_scope.
Lemma x_add_0_r a : a + 0 = a.
Proof. rewrite add_comm. apply add_0_l. Qed.
Lemma add_neg_l a : - a + a = 0.
Proof. rewrite add_comm. apply add_neg_r. Qed.
Lemma add_cancel_l a b c : a + b = a + c -> b = c.
Proof.
  intros H. rewrite <- (add_0_l b), <- (add_0_l c), <- (add_neg_l a), <- !add_assoc, H.
  reflexivity.
Qed.
Lemma add_cancel_r a b c : b + a = c + a -> b = c.
Proof. rewrite !(add_comm _ a). apply add_cancel_l. Qed.
Lemma neg_unique a b : a + b = 0 -> b = - a.
Proof. intros H. apply (add_cancel_l a). rewrite H, add_neg_r. reflexivity. Qed.
#[global] Instance RingNum : NumLaws T.
Proof.
  constructor.
  - apply add_comm.
  - apply add_0_l.
  - apply sub_def.
  - intros a. symmetry. apply neg_unique. apply add_neg_l.
  - symmetry. apply neg_unique. apply add_0_l.
  - intros a b. symmetry. apply neg_unique.
    rewrite (add_comm (-a)), add_assoc, <- (add_assoc a), add_neg_r, x_add_0_r.
    apply add_neg_r.
  - apply is0_spec.
  - apply reqb_spec. reflexivity.
  - intros a b. destruct (reqb a b) eqn:E, (reqb b a) eqn:E'; auto.
    + apply reqb_spec in E. subst. rewrite (proj2 (reqb_spec b b) eq_refl) in E'. discriminate.
    + apply reqb_spec in E'. subst. rewrite (proj2 (reqb_spec a a) eq_refl) in E. discriminate.
Qed.
End Exact.

Section NC.
Context {T : Type} {O : RingOps T} {L : RingLaws T}.
Local Open Scope rg_scope.

Lemma mul_0_l a : 0 * a = 0.
Proof. apply (add_cancel_l (0 * a)). rewrite <- mul_add_l, !add_0_r. reflexivity. Qed.
Lemma mul_0_r a : a * 0 = 0.
Proof. apply (add_cancel_l (a * 0)). rewrite <- mul_add_r, !add_0_r. reflexivity. Qed.
Lemma mul_neg_l a b : - a * b = - (a * b).
Proof. apply neg_unique. rewrite <- mul_add_l, add_neg_r. apply mul_0_l. Qed.
Lemma mul_neg_r a b : a * - b = - (a * b).
Proof. apply neg_unique. rewrite <- mul_add_r, add_neg_r. apply mul_0_r. Qed.
Lemma sub_diag a : a - a = 0.
Proof. rewrite sub_def. apply add_neg_r. Qed.
Lemma sub_eq0 a b : a - b = 0 <-> a = b.
Proof.
  split; [|intros ->; apply sub_diag].
  rewrite sub_def. intros H. apply (add_cancel_r (- b)). rewrite H, add_neg_r. reflexivity.
Qed.
Lemma add_swap a b c d : (a + b) + (c + d) = (a + c) + (b + d).
Proof. rewrite !add_assoc. f_equal. rewrite <- !add_assoc. f_equal. apply add_comm. Qed.

Lemma reqb_refl a : reqb a a = true.
Proof. apply reqb_spec. reflexivity. Qed.
Lemma T_eq_dec (a b : T) : {a = b} + {a <> b}.
Proof.
  destruct (reqb a b) eqn:E; [left; apply reqb_spec; auto|right].
  intros ->. rewrite reqb_refl in E. discriminate.
Qed.

Lemma sgb_mul_l b x y : sgb b x * y = sgb b (x * y).
Proof. destruct b; simpl; auto. apply mul_neg_l. Qed.
Lemma sgb_mul_r b x y : x * sgb b y = sgb b (x * y).
Proof. destruct b; simpl; auto. apply mul_neg_r. Qed.

(** Finite sums. *)
Fixpoint suml {A} (f : A -> T) (l : list A) : T :=
  match l with [] => 0 | x :: xs => f x + suml f xs end.

Lemma suml_app {A} (f : A -> T) l m : suml f (l ++ m) = suml f l + suml f m.
Proof.
  induction l as [|x xs IH]; simpl; [symmetry; apply add_0_l|].
  rewrite IH. apply add_assoc.
Qed.
Lemma suml_ext {A} (f g : A -> T) l : (forall x, In x l -> f x = g x) -> suml f l = suml g l.
Proof.
  induction l as [|x xs IH]; intros H; simpl; [reflexivity|].
  rewrite H, IH; simpl; auto. intros; apply H; simpl; auto.
Qed.
Lemma suml_0 {A} (f : A -> T) l : (forall x, In x l -> f x = 0) -> suml f l = 0.
Proof.
  induction l as [|x xs IH]; intros H; simpl; [reflexivity|].
  rewrite H, IH; simpl; auto; [apply add_0_l|]. intros; apply H; simpl; auto.
Qed.
Lemma suml_add {A} (f g : A -> T) l : suml (fun x => f x + g x) l = suml f l + suml g l.
Proof.
  induction l as [|x xs IH]; simpl; [symmetry; apply add_0_l|]. rewrite IH. apply add_swap.
Qed.
Lemma suml_neg {A} (f : A -> T) l : suml (fun x => - f x) l = - suml f l.
Proof.
  induction l as [|x xs IH]; simpl; [symmetry; apply neg_0|]. rewrite IH, neg_add. reflexivity.
Qed.
Lemma suml_sub {A} (f g : A -> T) l : suml (fun x => f x - g x) l = suml f l - suml g l.
Proof.
  rewrite sub_def, <- suml_neg, <- suml_add. apply suml_ext. intros; apply sub_def.
Qed.
Lemma suml_sgb {A} b (f : A -> T) l : suml (fun x => sgb b (f x)) l = sgb b (suml f l).
Proof. destruct b; simpl; [apply suml_neg|reflexivity]. Qed.
Lemma suml_mul_l {A} c (f : A -> T) l : c * suml f l = suml (fun x => c * f x) l.
Proof.
  induction l as [|x xs IH]; simpl; [apply mul_0_r|]. rewrite mul_add_r, IH. reflexivity.
Qed.
Lemma suml_mul_r {A} c (f : A -> T) l : suml f l * c = suml (fun x => f x * c) l.
Proof.
  induction l as [|x xs IH]; simpl; [apply mul_0_l|]. rewrite mul_add_l, IH. reflexivity.
Qed.
Lemma suml_map {A B} (g : B -> A) (f : A -> T) l : suml f (map g l) = suml (fun x => f (g x)) l.
Proof. induction l as [|x xs IH]; simpl; [reflexivity|]. rewrite IH. reflexivity. Qed.
Lemma suml_perm {A} (f : A -> T) l m : Permutation l m -> suml f l = suml f m.
Proof.
  induction 1; simpl; auto.
  - rewrite IHPermutation. reflexivity.
  - rewrite !add_assoc, (add_comm (f y)). reflexivity.
  - congruence.
Qed.
Lemma suml_swap {A B} (f : A -> B -> T) l m :
  suml (fun x => suml (fun y => f x y) m) l = suml (fun y => suml (fun x => f x y) l) m.
Proof.
  induction l as [|x xs IH]; simpl.
  - symmetry. apply suml_0. reflexivity.
  - rewrite IH, suml_add. reflexivity.
Qed.
Lemma suml_filter {A} (p : A -> bool) (f : A -> T) l :
  suml f (filter p l) = suml (fun x => if p x then f x else 0) l.
Proof.
  induction l as [|x xs IH]; simpl; [reflexivity|].
  destruct (p x); simpl; rewrite IH; auto. symmetry; apply add_0_l.
Qed.
Lemma suml_single {A} (f : A -> T) l x :
  NoDup l -> In x l -> (forall y, In y l -> y <> x -> f y = 0) -> suml f l = f x.
Proof.
  induction l as [|y ys IH]; simpl; intros HN Hi H; [contradiction|].
  inversion HN as [|? ? Hn HN']; subst. destruct Hi as [->|Hi].
  - rewrite suml_0; [apply add_0_r|]. intros z Hz. apply H; auto. intros ->; contradiction.
  - rewrite H; auto; [|intros ->; contradiction]. rewrite add_0_l. apply IH; auto.
Qed.

(** Sums over all 2^d blade indices. *)
Definition sumI (d : nat) (f : N -> T) : T := suml f (idxs d).

Lemma sumI_ext d f g : (forall i, (i < pow2 d)%N -> f i = g i) -> sumI d f = sumI d g.
Proof. intros H. apply suml_ext. intros i Hi. apply H. apply in_idxs; auto. Qed.
Lemma sumI_0 d f : (forall i, (i < pow2 d)%N -> f i = 0) -> sumI d f = 0.
Proof. intros H. apply suml_0. intros i Hi. apply H. apply in_idxs; auto. Qed.
Lemma sumI_S d f : sumI (S d) f = sumI d f + sumI d (fun i => f (pow2 d + i)%N).
Proof. unfold sumI. rewrite idxs_S, suml_app, suml_map. reflexivity. Qed.
Lemma sumI_O f : sumI 0 f = f 0%N.
Proof. unfold sumI. rewrite idxs_0. simpl. apply add_0_r. Qed.
Lemma sumI_swap d e (f : N -> N -> T) :
  sumI d (fun i => sumI e (fun j => f i j)) = sumI e (fun j => sumI d (fun i => f i j)).
Proof. apply suml_swap. Qed.
Lemma sumI_single d f i :
  (i < pow2 d)%N -> (forall j, (j < pow2 d)%N -> j <> i -> f j = 0) -> sumI d f = f i.
Proof.
  intros Hi H. apply suml_single; [apply NoDup_idxs|apply in_idxs; auto|].
  intros j Hj. apply H. apply in_idxs; auto.
Qed.

Lemma perm_lxor d k : (k < pow2 d)%N -> Permutation (idxs d) (map (fun i => N.lxor i k) (idxs d)).
Proof.
  intros Hk. apply NoDup_Permutation.
  - apply NoDup_idxs.
  - apply FinFun.Injective_map_NoDup; [|apply NoDup_idxs].
    intros x y H. apply (f_equal (fun z => N.lxor z k)) in H.
    rewrite !N.lxor_assoc, !N.lxor_nilpotent, !N.lxor_0_r in H. exact H.
  - intros x. rewrite in_map_iff, in_idxs. split.
    + intros Hx. exists (N.lxor x k). split.
      * rewrite N.lxor_assoc, N.lxor_nilpotent, N.lxor_0_r. reflexivity.
      * apply in_idxs. apply lxor_lt; auto.
    + intros (y & <- & Hy). apply in_idxs in Hy. apply lxor_lt; auto.
Qed.

(** Reindexing a sum by xor with a fixed index. *)
Lemma sumI_lxor d k f : (k < pow2 d)%N -> sumI d f = sumI d (fun i => f (N.lxor i k)).
Proof.
  intros Hk. unfold sumI. rewrite (suml_perm f _ _ (perm_lxor d k Hk)), suml_map. reflexivity.
Qed.
Lemma sumI_lxor_l d k f : (k < pow2 d)%N -> sumI d f = sumI d (fun i => f (N.lxor k i)).
Proof.
  intros Hk. rewrite (sumI_lxor d k f Hk). apply sumI_ext. intros; rewrite N.lxor_comm; auto.
Qed.

Lemma sumI_add d f g : sumI d (fun i => f i + g i) = sumI d f + sumI d g.
Proof. apply suml_add. Qed.
Lemma sumI_sub d f g : sumI d (fun i => f i - g i) = sumI d f - sumI d g.
Proof. apply suml_sub. Qed.
Lemma sumI_neg d f : sumI d (fun i => - f i) = - sumI d f.
Proof. apply suml_neg. Qed.
Lemma sumI_sgb d b f : sumI d (fun i => sgb b (f i)) = sgb b (sumI d f).
Proof. apply suml_sgb. Qed.
Lemma sumI_mul_l d c f : c * sumI d f = sumI d (fun i => c * f i).
Proof. apply suml_mul_l. Qed.
Lemma sumI_mul_r d c f : sumI d f * c = sumI d (fun i => f i * c).
Proof. apply suml_mul_r. Qed.

End NC.

Section Comm.
Context {T : Type} {O : RingOps T} {L : RingLaws T} {C : CommLaws T}.

Lemma comm_ring_theory : ring_theory (r0 : T) r1 radd rmul rsub rneg (@eq T).
Proof.
  constructor.
  - apply add_0_l.
  - apply add_comm.
  - intros; apply add_assoc.
  - apply mul_1_l.
  - apply mul_comm.
  - intros; apply mul_assoc.
  - apply mul_add_l.
  - apply sub_def.
  - apply add_neg_r.
Qed.
End Comm.
