(** A reflective decision procedure for equations between sums of atoms, used where the
    coefficient ring need not be commutative. *)
From Verif Require Export RingDef.
From Coq Require Import ZArith.
Local Open Scope nat_scope.

Inductive gexp := GVar (n : nat) | GZero | GAdd (a b : gexp) | GSub (a b : gexp) | GNeg (a : gexp).

Section Abel.
Context {T : Type} {RO : RingOps T} {L : RingLaws T}.

Fixpoint gden (v : list T) (e : gexp) : T :=
  match e with
  | GVar n => nth n v r0
  | GZero => r0
  | GAdd a b => radd (gden v a) (gden v b)
  | GSub a b => rsub (gden v a) (gden v b)
  | GNeg a => rneg (gden v a)
  end.

(** Number of occurrences of each variable, as a list of integers. *)
Fixpoint zadd (l m : list Z) : list Z :=
  match l, m with
  | [], _ => m
  | _, [] => l
  | a :: l, b :: m => (a + b)%Z :: zadd l m
  end.
Fixpoint unit_at (n : nat) : list Z := match n with O => [1%Z] | S n => 0%Z :: unit_at n end.
Fixpoint gnorm (e : gexp) : list Z :=
  match e with
  | GVar n => unit_at n
  | GZero => []
  | GAdd a b => zadd (gnorm a) (gnorm b)
  | GSub a b => zadd (gnorm a) (map Z.opp (gnorm b))
  | GNeg a => map Z.opp (gnorm a)
  end.

(** z times x. *)
Fixpoint pos_mul (p : positive) (x : T) : T :=
  match p with xH => x | xO p => pos_mul p (radd x x) | xI p => radd x (pos_mul p (radd x x)) end.
Definition zmul (z : Z) (x : T) : T :=
  match z with Z0 => r0 | Zpos p => pos_mul p x | Zneg p => rneg (pos_mul p x) end.

Lemma pos_mul_add p : forall x y, pos_mul p (radd x y) = radd (pos_mul p x) (pos_mul p y).
Proof.
  induction p as [p IH|p IH|]; intros x y; cbn [pos_mul]; auto.
  - rewrite add_swap, IH. apply add_swap.
  - rewrite add_swap, IH. reflexivity.
Qed.
Lemma pos_mul_succ p : forall x, pos_mul (Pos.succ p) x = radd x (pos_mul p x).
Proof.
  induction p as [p IH|p IH|]; intros x; cbn [pos_mul Pos.succ]; auto.
  rewrite IH, <- add_assoc. reflexivity.
Qed.
Fixpoint nmul (n : nat) (x : T) : T := match n with O => r0 | S n => radd x (nmul n x) end.
Lemma pos_mul_nat p x : pos_mul p x = nmul (Pos.to_nat p) x.
Proof.
  induction p as [|p IH] using Pos.peano_ind.
  - cbn. symmetry. apply add_0_r.
  - rewrite pos_mul_succ, Pos2Nat.inj_succ, IH. reflexivity.
Qed.
Lemma iter_plus n k x : nmul (n + k) x = radd (nmul n x) (nmul k x).
Proof.
  induction n as [|n IH]; cbn; [symmetry; apply add_0_l|]. rewrite IH. apply add_assoc.
Qed.
Lemma zmul_sub n k x : zmul (Z.of_nat n - Z.of_nat k) x = rsub (nmul n x) (nmul k x).
Proof.
  destruct (Nat.lt_trichotomy n k) as [H|[->|H]].
  - destruct (Z.of_nat n - Z.of_nat k)%Z as [|p|p] eqn:E; try lia. cbn. rewrite pos_mul_nat.
    assert (Hk : k = n + Pos.to_nat p) by lia. rewrite Hk, iter_plus, sub_def, neg_add, add_assoc, add_neg_r, add_0_l. reflexivity.
  - rewrite Z.sub_diag, sub_diag. reflexivity.
  - destruct (Z.of_nat n - Z.of_nat k)%Z as [|p|p] eqn:E; try lia. cbn. rewrite pos_mul_nat.
    assert (Hk : n = k + Pos.to_nat p) by lia.
    rewrite Hk, iter_plus, sub_def, add_comm, add_assoc, add_neg_l, add_0_l. reflexivity.
Qed.
Lemma z_diff a : exists n k, a = (Z.of_nat n - Z.of_nat k)%Z.
Proof. exists (Z.to_nat a), (Z.to_nat (- a)). lia. Qed.
Lemma zmul_add a b x : zmul (a + b) x = radd (zmul a x) (zmul b x).
Proof.
  destruct (z_diff a) as (n & k & ->). destruct (z_diff b) as (n' & k' & ->).
  replace (Z.of_nat n - Z.of_nat k + (Z.of_nat n' - Z.of_nat k'))%Z with (Z.of_nat (n + n') - Z.of_nat (k + k'))%Z by lia.
  rewrite !zmul_sub, !iter_plus, !sub_def, neg_add. apply add_swap.
Qed.
Lemma zmul_opp a x : zmul (- a) x = rneg (zmul a x).
Proof. destruct a; cbn; auto; [symmetry; apply neg_0|symmetry; apply neg_neg]. Qed.

Fixpoint nden (l : list Z) (v : list T) : T :=
  match l with
  | [] => r0
  | z :: l => radd (zmul z (hd r0 v)) (nden l (tl v))
  end.
Lemma nden_zadd l : forall m v, nden (zadd l m) v = radd (nden l v) (nden m v).
Proof.
  induction l as [|a l IH]; intros [|b m] v; cbn [zadd nden]; [symmetry; apply add_0_l|symmetry; apply add_0_l|symmetry; apply add_0_r|].
  rewrite zmul_add, IH. apply add_swap.
Qed.
Lemma nden_opp l : forall v, nden (map Z.opp l) v = rneg (nden l v).
Proof. induction l as [|a l IH]; intros v; cbn [map nden]; [symmetry; apply neg_0|]. rewrite zmul_opp, IH. symmetry. apply neg_add. Qed.
Lemma nden_unit n : forall v, nden (unit_at n) v = nth n v r0.
Proof.
  induction n as [|n IH]; intros v; cbn [unit_at nden].
  - cbn. rewrite add_0_r. destruct v; reflexivity.
  - cbn [zmul]. rewrite add_0_l, IH. destruct v; [destruct n|]; reflexivity.
Qed.
Lemma gnorm_ok e v : gden v e = nden (gnorm e) v.
Proof.
  induction e as [n| |a IHa b IHb|a IHa b IHb|a IHa]; cbn [gden gnorm].
  - symmetry. apply nden_unit.
  - reflexivity.
  - rewrite nden_zadd, IHa, IHb. reflexivity.
  - rewrite nden_zadd, nden_opp, sub_def, IHa, IHb. reflexivity.
  - rewrite nden_opp, IHa. reflexivity.
Qed.

Fixpoint zeqb (l m : list Z) : bool :=
  match l, m with
  | [], _ => forallb (Z.eqb 0) m
  | _, [] => forallb (Z.eqb 0) l
  | a :: l, b :: m => (Z.eqb a b && zeqb l m)%bool
  end.
Lemma nden_zeros l : forall v, forallb (Z.eqb 0) l = true -> nden l v = r0.
Proof.
  induction l as [|a l IH]; intros v H; cbn [forallb nden] in *; auto. apply andb_prop in H as (H1 & H2).
  apply Z.eqb_eq in H1. subst a. cbn [zmul]. rewrite add_0_l. auto.
Qed.
Lemma zeqb_ok l : forall m v, zeqb l m = true -> nden l v = nden m v.
Proof.
  induction l as [|a l IH]; intros [|b m] v H; cbn [zeqb] in H; auto.
  - symmetry. apply nden_zeros; auto.
  - apply nden_zeros; auto.
  - apply andb_prop in H as (H1 & H2). apply Z.eqb_eq in H1 as ->. cbn [nden]. rewrite (IH m) by auto. reflexivity.
Qed.

Lemma abel_ok e e' v : zeqb (gnorm e) (gnorm e') = true -> gden v e = gden v e'.
Proof. intros H. rewrite !gnorm_ok. apply zeqb_ok; auto. Qed.
End Abel.

(** Reification: position of an atom in a list. *)
Ltac gpos x v := match v with
  | x :: _ => constr:(O)
  | _ :: ?r => let n := gpos x r in constr:(S n)
  end.
Ltac gin x v := match v with
  | x :: _ => constr:(true)
  | _ :: ?r => gin x r
  | _ => constr:(false)
  end.
Ltac gatoms e v := match e with
  | radd ?a ?b => let v := gatoms a v in gatoms b v
  | rsub ?a ?b => let v := gatoms a v in gatoms b v
  | rneg ?a => gatoms a v
  | r0 => v
  | _ => match gin e v with true => v | false => constr:(e :: v) end
  end.
Ltac greify e v := match e with
  | radd ?a ?b => let a := greify a v in let b := greify b v in constr:(GAdd a b)
  | rsub ?a ?b => let a := greify a v in let b := greify b v in constr:(GSub a b)
  | rneg ?a => let a := greify a v in constr:(GNeg a)
  | r0 => constr:(GZero)
  | _ => let n := gpos e v in constr:(GVar n)
  end.
(** Proves equations that follow from the laws of the additive group. *)
Ltac abel :=
  match goal with
  | |- @eq ?T ?a ?b =>
    let v := gatoms a (@nil T) in let v := gatoms b v in
    let ea := greify a v in let eb := greify b v in
    change (gden v ea = gden v eb); apply abel_ok; vm_compute; reflexivity
  end.

(** Distributes products over sums first. *)
Ltac dist := repeat first [rewrite mul_add_l | rewrite mul_add_r | rewrite mul_neg_l | rewrite mul_neg_r | rewrite !sub_def].
Ltac ncring := dist; abel.

Example abel_ex {T} {RO : RingOps T} {L : RingLaws T} (a b c : T) : radd (rsub a b) (radd b (radd c b)) = radd b (radd c a).
Proof. abel. Qed.
Example ncring_ex {T} {RO : RingOps T} {L : RingLaws T} (a b c : T) : rmul (rsub a b) (radd a b) = rsub (rmul a a) (radd (rmul b b) (rsub (rmul b a) (rmul a b))).
Proof. ncring. Qed.
