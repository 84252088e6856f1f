(** Programs over the public API: every expression is a finite history of API calls.
    [eval] only calls the modelled functions. *)
From Verif Require Export Spec.
Local Open Scope nat_scope.

Section Prog.
Context {T : Type} {RO : RingOps T} {DV : DivOps T} {CJ : ConjOps T} {m : Mode} {H : HashOrder}.

Inductive expr :=
| EZero | EOne | EScalar (t : T) | EVec (cs : list T) | EIdx (l : list (N * T)) | EBasis (n : nat)
| ESet (e : expr) (i : N) (v : T)
| EAdd (e f : expr) | ESub (e f : expr) | ENeg (e : expr) | EMul (e f : expr)
| EWedge (e f : expr) | EMeet (e f : expr)
| EScale (e : expr) (t : T) | EDivs (e : expr) (t : T)
| EFlip (e : expr) | EFlipSub (e : expr) (mask : N) | ERev (e : expr) | ERevc (e : expr)
| EDual (e : expr) | EUndual (e : expr) | EPow (e : expr) (n : nat)
| EGrade (e : expr) (g : nat) | EGradeAs (k : kind) (e : expr) (g : nat) | EVia (k : kind) (e : expr)
| EFilter (f : N -> T -> bool) (e : expr)
| EGrades (gs : list nat) (e : expr) | ERetain (gs : list nat) (e : expr)
| ERevm (e : expr) | ERevcm (e : expr) | EDiv (e f : expr).

(** The methods that differ between storages; [Panic] stands for "not offered". *)
Definition k_wedge (k : kind) (A : algebra) : store k T -> store k T -> res (store k T) :=
  match k with KDense => dense_wedge A | KSparse => sparse_wedge A | KQuat => fun _ _ => Panic end.
Definition k_meet (k : kind) (A : algebra) : store k T -> store k T -> res (store k T) :=
  match k with KDense => dense_meet A | KSparse => sparse_meet A | KQuat => fun _ _ => Panic end.
Definition k_filter (k : kind) (A : algebra) (f : N -> T -> bool) : store k T -> res (store k T) :=
  match k with
  | KDense => fun x => dense_filter A x f
  | KSparse => fun x => Ok (sparse_filter_inplace x (fun i v => (v, f i v)))
  | KQuat => fun _ => Panic
  end.
Definition k_grades (k : kind) (A : algebra) (gs : list nat) : store k T -> res (store k T) :=
  match k with KSparse => fun x => sparse_grades_extract A x gs | _ => fun _ => Panic end.
Definition k_retain (k : kind) (gs : list nat) : store k T -> res (store k T) :=
  match k with KSparse => fun x => Ok (sparse_retain_grades x gs) | _ => fun _ => Panic end.

Fixpoint eval (k : kind) (A : algebra) (e : expr) : res (store k T) :=
  match e with
  | EZero => mv_zero A
  | EOne => mv_one A
  | EScalar t => mv_from_scalar A t
  | EVec cs => mv_from_vector A cs
  | EIdx l => mv_from_indexed_iter A l
  | EBasis n => l <- mv_basis A ;; nthr l n
  | ESet e i v => x <- eval k A e ;; Ok (mv_set_by_idx x i v)
  | EAdd e f => x <- eval k A e ;; y <- eval k A f ;; mv_add x y
  | ESub e f => x <- eval k A e ;; y <- eval k A f ;; mv_sub x y
  | ENeg e => x <- eval k A e ;; mv_neg A x
  | EMul e f => x <- eval k A e ;; y <- eval k A f ;; mv_mul A x y
  | EWedge e f => x <- eval k A e ;; y <- eval k A f ;; k_wedge k A x y
  | EMeet e f => x <- eval k A e ;; y <- eval k A f ;; k_meet k A x y
  | EScale e t => x <- eval k A e ;; mv_scale A x t
  | EDivs e t => x <- eval k A e ;; mv_divs A x t
  | EFlip e => x <- eval k A e ;; mv_flip A x
  | EFlipSub e mask => x <- eval k A e ;; mv_flip_subspace A x mask
  | ERev e => x <- eval k A e ;; mv_rev A x
  | ERevc e => x <- eval k A e ;; mv_revc A x
  | EDual e => x <- eval k A e ;; mv_dual A x
  | EUndual e => x <- eval k A e ;; mv_undual A x
  | EPow e n => x <- eval k A e ;; mv_pow A x n
  | EGrade e g => x <- eval k A e ;; mv_grade_extract A x g
  | EGradeAs k' e g => x <- eval k' A e ;; mv_grade_extract_as A x g
  | EVia k' e => x <- eval k' A e ;; mv_to_storage A x
  | EFilter f e => x <- eval k A e ;; k_filter k A f x
  | EGrades gs e => x <- eval k A e ;; k_grades k A gs x
  | ERetain gs e => x <- eval k A e ;; k_retain k gs x
  | ERevm e => x <- eval k A e ;; mv_revm A x
  | ERevcm e => x <- eval k A e ;; mv_revcm A x
  | EDiv e f => x <- eval k A e ;; y <- eval k A f ;; mv_div A x y
  end.

(** Storage kind k offers every operation of e, basis indices exist, and scalar
    divisions map zero to zero.  (revm, revcm and multivector division divide by
    computed numbers; they have their own theorems.) *)
Fixpoint wt (k : kind) (A : algebra) (e : expr) : Prop :=
  match e with
  | EZero | EOne | EScalar _ | EVec _ | EIdx _ => True
  | EBasis n => n < a_dim A
  | ESet e _ _ | ENeg e | EScale e _ | EFlip e | EFlipSub e _ | ERev e | ERevc e
  | EDual e | EUndual e | EPow e _ | EGrade e _ => wt k A e
  | EAdd e f | ESub e f | EMul e f => wt k A e /\ wt k A f
  | EWedge e f | EMeet e f => k <> KQuat /\ wt k A e /\ wt k A f
  | EDivs e t => rdiv r0 t = r0 /\ wt k A e
  | EGradeAs k' e _ | EVia k' e => supports k' A /\ wt k' A e
  | EFilter _ e => k <> KQuat /\ wt k A e
  | EGrades _ e | ERetain _ e => k = KSparse /\ wt k A e
  | ERevm _ | ERevcm _ | EDiv _ _ => False
  end.

(** Same outcome: the same error, or the same coefficients. *)
Definition same_outcome {S S'} {St : Storage T S} {St' : Storage T S'} (A : algebra) (r : res S) (r' : res S') : Prop :=
  match r, r' with
  | Ok z, Ok z' => forall i, (i < 2 ^ N.of_nat (a_dim A))%N -> exists c, mv_get_by_idx z i = Ok c /\ mv_get_by_idx z' i = Ok c
  | Err e, Err e' => e = e'
  | _, _ => False
  end.
End Prog.
Arguments expr T : clear implicits.
