(** Base layer: results and panics, machine words, bit counting, loops.
    Nothing in this file is specific to tclifford except [clerr]. *)
From Coq Require Export NArith ZArith List Bool Arith Lia.
From Coq Require Import ZifyBool ZifyNat ZifyN FinFun.
Export ListNotations.

(** src/lib.rs:40-45 [enum ClError]. *)
Inductive clerr := IndexOutOfBounds | FFTConditionsNotMet | InvalidShape.

(** A Rust computation: a value, an [Err(ClError)], or a panic
    (failed index, [unwrap] on an error, [unreachable!], failed assertion,
    arithmetic overflow with overflow checks on). *)
Inductive res (A : Type) := Ok (a : A) | Err (e : clerr) | Panic.
Arguments Ok {A} _. Arguments Err {A} _. Arguments Panic {A}.

Definition bind {A B} (x : res A) (k : A -> res B) : res B :=
  match x with Ok a => k a | Err e => Err e | Panic => Panic end.
Notation "x <- e ;; k" := (bind e (fun x => k))
  (at level 61, e at next level, right associativity).
Notation "' p <- e ;; k" := (bind e (fun x => match x with p => k end))
  (at level 61, p pattern, e at next level, right associativity).

(** [Result::unwrap]. *)
Definition unwrap {A} (x : res A) : res A :=
  match x with Ok a => Ok a | _ => Panic end.

(** A [for] loop over an iterator, threading the mutable state. *)
Fixpoint foldM {A B} (f : B -> A -> res B) (l : list A) (b : B) : res B :=
  match l with
  | [] => Ok b
  | x :: xs => b' <- f b x ;; foldM f xs b'
  end.

(** Element-wise collection of fallible results. *)
Fixpoint mapM {A B} (f : A -> res B) (l : list A) : res (list B) :=
  match l with
  | [] => Ok []
  | x :: xs => y <- f x ;; ys <- mapM f xs ;; Ok (y :: ys)
  end.

(** Compilation profile: overflow checks and debug assertions on, or off. *)
Class Mode := { checks : bool }.

(** 2^n as a machine index. *)
Definition pow2 (n : nat) : N := (2 ^ N.of_nat n)%N.

(** [a << s] on a 64-bit [usize]: bits shifted out are lost; a shift amount of
    64 or more panics with overflow checks, and is taken modulo 64 without. *)
Definition shl {m : Mode} (a : N) (s : nat) : res N :=
  if Nat.ltb s 64 then Ok (N.modulo (N.shiftl a (N.of_nat s)) (pow2 64))
  else if checks then Panic
  else Ok (N.modulo (N.shiftl a (N.of_nat (s mod 64))) (pow2 64)).

(** [usize::count_ones]. *)
Fixpoint pos_popcount (p : positive) : nat :=
  match p with
  | xH => 1
  | xO q => pos_popcount q
  | xI q => S (pos_popcount q)
  end.
Definition popcount (a : N) : nat :=
  match a with N0 => 0 | Npos p => pos_popcount p end.

(** Parity of the number of set bits. *)
Definition par (a : N) : bool := Nat.odd (popcount a).

(** The indices 0, 1, ..., 2^d - 1. *)
Definition idxs (d : nat) : list N := map N.of_nat (seq 0 (2 ^ d)).

(** Array element access; [None] outside is a panic in Rust. *)
Definition nthr {A} (l : list A) (i : nat) : res A :=
  match nth_error l i with Some x => Ok x | None => Panic end.

(** Array element assignment [l[i] = x]. *)
Fixpoint upd {A} (l : list A) (i : nat) (x : A) : list A :=
  match l, i with
  | [], _ => []
  | _ :: t, O => x :: t
  | h :: t, S j => h :: upd t j x
  end.

Fixpoint map2 {A B C} (f : A -> B -> C) (l : list A) (m : list B) : list C :=
  match l, m with
  | x :: xs, y :: ys => f x y :: map2 f xs ys
  | _, _ => []
  end.

(** ** Elementary facts *)

Lemma bind_Ok {A B} (x : A) (k : A -> res B) : bind (Ok x) k = k x.
Proof. reflexivity. Qed.

Lemma bind_inv {A B} (x : res A) (k : A -> res B) b :
  bind x k = Ok b -> exists a, x = Ok a /\ k a = Ok b.
Proof. destruct x; simpl; intros H; try discriminate; eauto. Qed.

Lemma foldM_app {A B} (f : B -> A -> res B) l1 l2 b :
  foldM f (l1 ++ l2) b = (b' <- foldM f l1 b ;; foldM f l2 b').
Proof.
  revert b; induction l1 as [|x xs IH]; intros b; simpl; [reflexivity|].
  destruct (f b x); simpl; auto.
Qed.

(** Loop rule: an invariant indexed by the processed prefix. *)
Lemma foldM_inv {A B} (f : B -> A -> res B) (P : list A -> B -> Prop) l b :
  P [] b ->
  (forall pre x post b', l = pre ++ x :: post -> P pre b' ->
     exists b'', f b' x = Ok b'' /\ P (pre ++ [x]) b'') ->
  exists b', foldM f l b = Ok b' /\ P l b'.
Proof.
  intros H0 Hs.
  assert (G : forall post pre b', l = pre ++ post -> P pre b' ->
     exists b'', foldM f post b' = Ok b'' /\ P l b'').
  { induction post as [|x post IH]; intros pre b' Hl HP; simpl.
    - rewrite app_nil_r in Hl; subst; eauto.
    - destruct (Hs pre x post b' Hl HP) as (b'' & Hf & HP').
      rewrite Hf; simpl. apply (IH (pre ++ [x])); [|assumption].
      rewrite <- app_assoc; simpl; assumption. }
  apply (G l [] b); auto.
Qed.

Lemma foldM_pure {A B} (f : B -> A -> B) l b :
  foldM (fun b x => Ok (f b x)) l b = Ok (fold_left f l b).
Proof. revert b; induction l as [|x xs IH]; intros b; simpl; auto. Qed.

Lemma foldM_ext {A B} (f g : B -> A -> res B) l b :
  (forall b x, In x l -> f b x = g b x) -> foldM f l b = foldM g l b.
Proof.
  revert b; induction l as [|x xs IH]; intros b H; simpl; [reflexivity|].
  rewrite H by (simpl; auto). destruct (g b x); simpl; auto.
  apply IH; intros; apply H; simpl; auto.
Qed.

Lemma foldM_map {A B C} (f : B -> A -> res B) (g : C -> A) l b :
  foldM f (map g l) b = foldM (fun b x => f b (g x)) l b.
Proof.
  revert b; induction l as [|x xs IH]; intros b; simpl; [reflexivity|].
  destruct (f b (g x)); simpl; auto.
Qed.

Lemma mapM_Ok {A B} (f : A -> res B) (g : A -> B) l :
  (forall x, In x l -> f x = Ok (g x)) -> mapM f l = Ok (map g l).
Proof.
  induction l as [|x xs IH]; intros H; simpl; [reflexivity|].
  rewrite H by (simpl; auto); simpl. rewrite IH; [reflexivity|].
  intros; apply H; simpl; auto.
Qed.

Lemma length_upd {A} (l : list A) i x : length (upd l i x) = length l.
Proof. revert i; induction l as [|h t IH]; intros [|i]; simpl; auto. Qed.

Lemma nth_upd {A} (l : list A) i j x d :
  nth j (upd l i x) d = if (Nat.eqb i j && Nat.ltb i (length l))%bool then x else nth j l d.
Proof.
  revert i j; induction l as [|h t IH]; intros i j.
  - simpl; rewrite andb_false_r; reflexivity.
  - destruct i as [|i], j as [|j]; simpl; auto.
    rewrite IH. reflexivity.
Qed.

Lemma nthr_nth {A} (l : list A) i d : i < length l -> nthr l i = Ok (nth i l d).
Proof.
  intros H. unfold nthr. rewrite (nth_error_nth' l d H). reflexivity.
Qed.

Lemma nthr_out {A} (l : list A) i : length l <= i -> nthr l i = Panic.
Proof.
  intros H. unfold nthr. apply nth_error_None in H. rewrite H. reflexivity.
Qed.

Lemma length_map2 {A B C} (f : A -> B -> C) l m :
  length (map2 f l m) = Nat.min (length l) (length m).
Proof. revert m; induction l as [|x xs IH]; intros [|y ys]; simpl; auto. Qed.

Lemma nth_map2 {A B C} (f : A -> B -> C) l m i da db dc :
  i < length l -> i < length m -> nth i (map2 f l m) dc = f (nth i l da) (nth i m db).
Proof.
  revert m i; induction l as [|x xs IH]; intros [|y ys] [|i]; simpl; intros; try lia; auto.
  apply IH; lia.
Qed.

Lemma nth_map_lt {A B} (f : A -> B) l i da db :
  i < length l -> nth i (map f l) db = f (nth i l da).
Proof.
  revert i; induction l as [|x xs IH]; intros [|i]; simpl; intros; try lia; auto.
  apply IH; lia.
Qed.

Lemma nth_seq0 n i d : i < n -> nth i (seq 0 n) d = i.
Proof. intros; rewrite seq_nth; lia. Qed.

Lemma list_ext {A} (d : A) (l m : list A) :
  length l = length m -> (forall i, i < length l -> nth i l d = nth i m d) -> l = m.
Proof.
  intros Hl H. apply (nth_ext l m d d Hl H).
Qed.

(** ** Powers of two *)

Lemma pow2_pos n : (0 < pow2 n)%N.
Proof. unfold pow2. apply N.neq_0_lt_0. apply N.pow_nonzero. discriminate. Qed.

Lemma pow2_0 : pow2 0 = 1%N.
Proof. reflexivity. Qed.

Lemma pow2_S n : pow2 (S n) = (2 * pow2 n)%N.
Proof. unfold pow2. rewrite Nat2N.inj_succ, N.pow_succ_r'. reflexivity. Qed.

Lemma pow2_nat n : N.to_nat (pow2 n) = 2 ^ n.
Proof.
  induction n as [|n IH]; [reflexivity|].
  rewrite pow2_S, N2Nat.inj_mul, IH. simpl. lia.
Qed.

Lemma of_nat_pow2 n : N.of_nat (2 ^ n) = pow2 n.
Proof. rewrite <- pow2_nat, N2Nat.id. reflexivity. Qed.

Lemma pow2_add m n : pow2 (m + n) = (pow2 m * pow2 n)%N.
Proof. unfold pow2. rewrite Nat2N.inj_add, N.pow_add_r. reflexivity. Qed.

Lemma pow2_le m n : m <= n -> (pow2 m <= pow2 n)%N.
Proof. intros; unfold pow2; apply N.pow_le_mono_r; [discriminate|lia]. Qed.

Lemma pow2_lt m n : m < n -> (pow2 m < pow2 n)%N.
Proof. intros; unfold pow2; apply N.pow_lt_mono_r; lia. Qed.

Lemma pow2_inj m n : pow2 m = pow2 n -> m = n.
Proof.
  intros H. destruct (Nat.lt_trichotomy m n) as [L|[E|L]]; auto;
  apply pow2_lt in L; lia.
Qed.

Lemma Npow2_pos_nat n : 0 < 2 ^ n.
Proof. pose proof (Nat.pow_nonzero 2 n). lia. Qed.

Lemma shl_ok {m : Mode} a s : s < 64 -> (a * pow2 s < pow2 64)%N -> shl a s = Ok (a * pow2 s)%N.
Proof.
  intros Hs Hb. unfold shl. apply Nat.ltb_lt in Hs. rewrite Hs.
  rewrite N.shiftl_mul_pow2. fold (pow2 s). rewrite N.mod_small by assumption. reflexivity.
Qed.

Lemma shl_1 {m : Mode} s : s < 64 -> shl 1 s = Ok (pow2 s).
Proof.
  intros H. rewrite shl_ok; auto; rewrite N.mul_1_l; auto. apply pow2_lt; auto.
Qed.

(** ** Bits *)

Lemma testbit_pow2 n k : N.testbit (pow2 n) k = (k =? N.of_nat n)%N.
Proof. unfold pow2. rewrite N.pow2_bits_eqb. apply N.eqb_sym. Qed.

Lemma testbit_high a n k : (a < pow2 n)%N -> (N.of_nat n <= k)%N -> N.testbit a k = false.
Proof.
  intros Ha Hk. destruct (N.eq_dec a 0) as [->|Hz]; [apply N.bits_0|].
  apply N.bits_above_log2.
  apply N.lt_le_trans with (N.of_nat n); auto.
  apply N.log2_lt_pow2; [lia|]. exact Ha.
Qed.

Lemma lt_pow2_bits a n : (forall k, (N.of_nat n <= k)%N -> N.testbit a k = false) -> (a < pow2 n)%N.
Proof.
  intros H. destruct (N.eq_dec a 0) as [->|Hz]; [apply pow2_pos|].
  apply N.log2_lt_pow2; [lia|].
  destruct (N.lt_ge_cases (N.log2 a) (N.of_nat n)) as [L|L]; auto.
  specialize (H _ L). rewrite N.bit_log2 in H by assumption. discriminate.
Qed.

Lemma lxor_lt a b n : (a < pow2 n)%N -> (b < pow2 n)%N -> (N.lxor a b < pow2 n)%N.
Proof.
  intros Ha Hb. apply lt_pow2_bits. intros k Hk.
  rewrite N.lxor_spec, (testbit_high a n k), (testbit_high b n k); auto.
Qed.

Lemma land_lt_l a b n : (a < pow2 n)%N -> (N.land a b < pow2 n)%N.
Proof.
  intros Ha. apply lt_pow2_bits. intros k Hk.
  rewrite N.land_spec, (testbit_high a n k); auto.
Qed.

Lemma land_lt_r a b n : (b < pow2 n)%N -> (N.land a b < pow2 n)%N.
Proof. rewrite N.land_comm. apply land_lt_l. Qed.

Lemma lor_lt a b n : (a < pow2 n)%N -> (b < pow2 n)%N -> (N.lor a b < pow2 n)%N.
Proof.
  intros Ha Hb. apply lt_pow2_bits. intros k Hk.
  rewrite N.lor_spec, (testbit_high a n k), (testbit_high b n k); auto.
Qed.

Lemma ldiff_lt a b n : (a < pow2 n)%N -> (N.ldiff a b < pow2 n)%N.
Proof.
  intros Ha. apply lt_pow2_bits. intros k Hk.
  rewrite N.ldiff_spec, (testbit_high a n k); auto.
Qed.

Lemma add_pow2_lxor a n : (a < pow2 n)%N -> (pow2 n + a)%N = N.lxor (pow2 n) a.
Proof.
  intros Ha. apply N.add_nocarry_lxor. apply N.bits_inj_0. intros k.
  rewrite N.land_spec, testbit_pow2.
  destruct (N.eqb_spec k (N.of_nat n)) as [->|]; [|reflexivity].
  rewrite (testbit_high a n); auto. lia.
Qed.

Lemma testbit_add_pow2 a n k : (a < pow2 n)%N ->
  N.testbit (pow2 n + a) k = if (k =? N.of_nat n)%N then true else N.testbit a k.
Proof.
  intros Ha. rewrite add_pow2_lxor by assumption.
  rewrite N.lxor_spec, testbit_pow2.
  destruct (N.eqb_spec k (N.of_nat n)) as [->|]; simpl.
  - rewrite (testbit_high a n) by (auto; lia). reflexivity.
  - destruct (N.testbit a k); reflexivity.
Qed.

(** ** Bit counting *)

Fixpoint bitsum (n : nat) (a : N) : nat :=
  match n with
  | O => 0
  | S m => Nat.b2n (N.testbit a (N.of_nat m)) + bitsum m a
  end.

Lemma bitsum_shift n a :
  bitsum (S n) a = Nat.b2n (N.testbit a 0) + bitsum n (N.div2 a).
Proof.
  induction n as [|n IH].
  - simpl. reflexivity.
  - change (bitsum (S (S n)) a) with (Nat.b2n (N.testbit a (N.of_nat (S n))) + bitsum (S n) a).
    rewrite IH. simpl bitsum.
    rewrite N.div2_spec, N.shiftr_spec'. 
    replace (N.of_nat n + 1)%N with (N.of_nat (S n)) by lia. lia.
Qed.

Lemma popcount_bitsum n a : (a < pow2 n)%N -> popcount a = bitsum n a.
Proof.
  revert a; induction n as [|n IH]; intros a Ha.
  - rewrite pow2_0 in Ha. assert (a = 0%N) by lia. subst; reflexivity.
  - rewrite bitsum_shift, <- IH.
    + destruct a as [|[p|p|]]; reflexivity.
    + rewrite pow2_S in Ha. rewrite N.div2_div. apply N.div_lt_upper_bound; lia.
Qed.

Lemma bitsum_ext n a b :
  (forall k, (k < N.of_nat n)%N -> N.testbit a k = N.testbit b k) -> bitsum n a = bitsum n b.
Proof.
  induction n as [|n IH]; intros H; simpl; [reflexivity|].
  rewrite H by lia. rewrite IH; auto. intros; apply H; lia.
Qed.

Lemma bitsum_lxor n a b :
  bitsum n (N.lxor a b) + 2 * bitsum n (N.land a b) = bitsum n a + bitsum n b.
Proof.
  induction n as [|n IH]; simpl; [reflexivity|].
  rewrite N.lxor_spec, N.land_spec.
  destruct (N.testbit a (N.of_nat n)), (N.testbit b (N.of_nat n)); simpl in *; lia.
Qed.

Lemma bitsum_lor n a b :
  bitsum n (N.lor a b) + bitsum n (N.land a b) = bitsum n a + bitsum n b.
Proof.
  induction n as [|n IH]; simpl; [reflexivity|].
  rewrite N.lor_spec, N.land_spec.
  destruct (N.testbit a (N.of_nat n)), (N.testbit b (N.of_nat n)); simpl in *; lia.
Qed.

(** Every index is below some power of two. *)
Lemma bound_exists a : exists n, (a < pow2 n)%N.
Proof.
  exists (N.to_nat (N.size a)). unfold pow2. rewrite N2Nat.id. apply N.size_gt.
Qed.

Lemma bound_exists2 a b : exists n, (a < pow2 n)%N /\ (b < pow2 n)%N.
Proof.
  destruct (bound_exists a) as [n Hn], (bound_exists b) as [m Hm].
  exists (n + m). split.
  - eapply N.lt_le_trans; [exact Hn|apply pow2_le; lia].
  - eapply N.lt_le_trans; [exact Hm|apply pow2_le; lia].
Qed.

Lemma popcount_lxor a b :
  popcount (N.lxor a b) + 2 * popcount (N.land a b) = popcount a + popcount b.
Proof.
  destruct (bound_exists2 a b) as (n & Ha & Hb).
  rewrite !(popcount_bitsum n); auto using lxor_lt, land_lt_l. apply bitsum_lxor.
Qed.

Lemma popcount_lor a b :
  popcount (N.lor a b) + popcount (N.land a b) = popcount a + popcount b.
Proof.
  destruct (bound_exists2 a b) as (n & Ha & Hb).
  rewrite !(popcount_bitsum n); auto using lor_lt, land_lt_l. apply bitsum_lor.
Qed.

Lemma popcount_0 : popcount 0 = 0.
Proof. reflexivity. Qed.

Lemma popcount_pow2 n : popcount (pow2 n) = 1.
Proof.
  induction n as [|n IH]; [reflexivity|].
  rewrite pow2_S. rewrite <- IH. pose proof (pow2_pos n).
  destruct (pow2 n); [lia|reflexivity].
Qed.

Lemma popcount_eq0 a : popcount a = 0 -> a = 0%N.
Proof.
  destruct a as [|p]; [reflexivity|]. simpl.
  induction p; simpl; try discriminate. intros H; specialize (IHp H). discriminate.
Qed.

Lemma land_pow2_low a n : (a < pow2 n)%N -> N.land (pow2 n) a = 0%N.
Proof.
  intros Ha. apply N.bits_inj_0. intros k. rewrite N.land_spec, testbit_pow2.
  destruct (N.eqb_spec k (N.of_nat n)) as [->|]; [|reflexivity].
  rewrite (testbit_high a n); auto. lia.
Qed.

Lemma popcount_add_pow2 n a : (a < pow2 n)%N -> popcount (pow2 n + a) = S (popcount a).
Proof.
  intros Ha. rewrite add_pow2_lxor by assumption.
  pose proof (popcount_lxor (pow2 n) a) as H.
  rewrite land_pow2_low, popcount_pow2 in H by assumption. simpl in H. lia.
Qed.

Lemma popcount_le n a : (a < pow2 n)%N -> popcount a <= n.
Proof.
  intros Ha. rewrite (popcount_bitsum n) by assumption. clear Ha.
  induction n as [|n IH]; simpl; [lia|]. destruct (N.testbit a (N.of_nat n)); simpl; lia.
Qed.

Lemma par_0 : par 0 = false.
Proof. reflexivity. Qed.

Lemma par_lxor a b : par (N.lxor a b) = xorb (par a) (par b).
Proof.
  unfold par. pose proof (popcount_lxor a b) as H.
  rewrite <- Nat.odd_add. rewrite <- H.
  rewrite Nat.odd_add, Nat.odd_mul. simpl. rewrite xorb_false_r. reflexivity.
Qed.

Lemma par_pow2 n : par (pow2 n) = true.
Proof. unfold par. rewrite popcount_pow2. reflexivity. Qed.

Lemma par_add_pow2 n a : (a < pow2 n)%N -> par (pow2 n + a) = negb (par a).
Proof.
  intros Ha. unfold par. rewrite popcount_add_pow2 by assumption.
  rewrite Nat.odd_succ, <- Nat.negb_odd. reflexivity.
Qed.

(** ** Index lists *)

Lemma in_idxs d i : In i (idxs d) <-> (i < pow2 d)%N.
Proof.
  unfold idxs. rewrite in_map_iff. rewrite <- of_nat_pow2. split.
  - intros (k & <- & Hk). apply in_seq in Hk. lia.
  - intros H. exists (N.to_nat i). split; [apply N2Nat.id|]. apply in_seq. lia.
Qed.

Lemma NoDup_idxs d : NoDup (idxs d).
Proof.
  unfold idxs. apply Injective_map_NoDup; [|apply seq_NoDup].
  intros x y H. lia.
Qed.

Lemma length_idxs d : length (idxs d) = 2 ^ d.
Proof. unfold idxs. rewrite map_length, seq_length. reflexivity. Qed.

Lemma idxs_S d : idxs (S d) = idxs d ++ map (fun i => pow2 d + i)%N (idxs d).
Proof.
  unfold idxs. replace (2 ^ S d) with (2 ^ d + 2 ^ d) by (simpl; lia).
  rewrite seq_app, map_app. f_equal. simpl.
  assert (G : forall n s, map N.of_nat (seq (2 ^ d + s) n)
              = map (fun i => pow2 d + i)%N (map N.of_nat (seq s n))).
  { induction n as [|n IH]; intros s; simpl; [reflexivity|].
    f_equal; [rewrite <- of_nat_pow2; lia|].
    rewrite <- IH. f_equal. f_equal. lia. }
  rewrite <- G. f_equal. f_equal. lia.
Qed.

Lemma idxs_0 : idxs 0 = [0%N].
Proof. reflexivity. Qed.

Lemma nth_idxs d i dflt : i < 2 ^ d -> nth i (idxs d) dflt = N.of_nat i.
Proof.
  intros H. unfold idxs. rewrite (nth_map_lt _ _ _ 0) by (rewrite seq_length; auto).
  rewrite seq_nth by auto. reflexivity.
Qed.
