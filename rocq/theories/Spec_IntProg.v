(** Coefficients that are exact although the arithmetic rounds: integers in floating point. *)
From Verif Require Export Spec_Round Spec_Float P_Cplx.
From Coq Require Import Floats.SpecFloat.
Local Open Scope nat_scope.

(** Numbers of an exact ring R written in a rounded arithmetic F, and their sizes. *)
Class Emb (R F : Type) := { emb : R -> F; size : R -> Z; top : Z }.
(** As long as all sizes stay up to [top], F computes as R does. *)
Class EmbLaws (R F : Type) {RR : RingOps R} {CR : ConjOps R} {RF : RingOps F} {CF : ConjOps F} {EM : Emb R F} : Prop := {
  sz_0 : size r0 = 0%Z;
  sz_1 : (size r1 <= top)%Z;
  sz_pos : forall a, (0 <= size a)%Z;
  sz_neg : forall a, size (rneg a) = size a;
  sz_add : forall a b, (size (radd a b) <= size a + size b)%Z;
  sz_mul : forall a b, (size (rmul a b) <= size a * size b)%Z;
  sz_conj : forall a, size (rconj a) = size a;
  sz_conj0 : @rconj R CR r0 = r0;
  em_0 : emb r0 = r0;
  em_1 : emb r1 = r1;
  em_neg : forall a, rneg (emb a) = emb (rneg a);
  em_conj : forall a, rconj (emb a) = emb (rconj a);
  em_add : forall a b, (size a <= top)%Z -> (size b <= top)%Z -> (size (radd a b) <= top)%Z ->
    radd (emb a) (emb b) = emb (radd a b);
  em_mul : forall a b, (size a <= top)%Z -> (size b <= top)%Z -> (size a * size b <= top)%Z -> rmul (emb a) (emb b) = emb (rmul a b);
  em_eqb : forall a b, (size a <= top)%Z -> (size b <= top)%Z -> reqb (emb a) (emb b) = reqb a b
}.

(** Integers as floats of precision [prec]: of size up to 2^prec. *)
Definition flt_of_Z (prec emax z : Z) : flt := of_sf (binary_normalize prec emax z 0 false).
Definition int_emb (prec emax : Z) : Emb Z flt := {| emb := flt_of_Z prec emax; size := Z.abs; top := (2 ^ prec)%Z |}.
(** Conjugation of a real number. *)
Definition real_conj {T} : ConjOps T := {| rconj := fun c => c |}.
(** Gaussian integers as complex numbers with float parts. *)
Definition gauss_emb (prec emax : Z) : Emb (cplx Z) (cplx flt) :=
  {| emb := fun c => mkC (flt_of_Z prec emax (c_re c)) (flt_of_Z prec emax (c_im c));
     size := fun c => (Z.abs (c_re c) + Z.abs (c_im c))%Z; top := (2 ^ prec)%Z |}.

Section IntProg.
Context {R F : Type} {RR : RingOps R} {DR : DivOps R} {CR : ConjOps R} {EM : Emb R F} {m : Mode} {H : HashOrder}.

(** The program with every number written in F. *)
Fixpoint emap (e : expr R) : expr F :=
  match e with
  | EZero => EZero | EOne => EOne | EScalar t => EScalar (emb t) | EVec cs => EVec (map emb cs)
  | EIdx l => EIdx (map (fun ic => (fst ic, emb (snd ic))) l) | EBasis n => EBasis n
  | ESet e i v => ESet (emap e) i (emb v)
  | EAdd e f => EAdd (emap e) (emap f) | ESub e f => ESub (emap e) (emap f) | ENeg e => ENeg (emap e)
  | EMul e f => EMul (emap e) (emap f) | EWedge e f => EWedge (emap e) (emap f) | EMeet e f => EMeet (emap e) (emap f)
  | EScale e t => EScale (emap e) (emb t) | EDivs e t => EDivs (emap e) (emb t)
  | EFlip e => EFlip (emap e) | EFlipSub e mask => EFlipSub (emap e) mask | ERev e => ERev (emap e) | ERevc e => ERevc (emap e)
  | EDual e => EDual (emap e) | EUndual e => EUndual (emap e) | EPow e n => EPow (emap e) n
  | EGrade e g => EGrade (emap e) g | EGradeAs k e g => EGradeAs k (emap e) g | EVia k e => EVia k (emap e)
  | EGrades gs e => EGrades gs (emap e) | ERetain gs e => ERetain gs (emap e)
  | ERevm e => ERevm (emap e) | ERevcm e => ERevcm (emap e) | EDiv e f => EDiv (emap e) (emap f)
  | EFilter _ _ => EZero (* not covered by [small]: the predicate reads numbers of R *)
  end.

(** Coefficient i of the exact result. *)
Definition value (k : kind) (A : algebra) (e : expr R) (i : N) : R :=
  match eval k A e with Ok z => rd z i | _ => r0 end.

(** No division, power, inverse or filter by value; every number written down and every sum
    formed has size at most [top]; for a product, the sizes of the products of all pairs of
    coefficients meeting in one place add up to at most [top]. *)
Fixpoint small (k : kind) (A : algebra) (e : expr R) : Prop :=
  let below P := forall i, (i < 2 ^ N.of_nat (a_dim A))%N -> (P i <= top)%Z in
  match e with
  | EZero | EOne | EBasis _ => True
  | EScalar t => (size t <= top)%Z
  | EVec cs => forall c, In c cs -> (size c <= top)%Z
  | EIdx l => forall j c, In (j, c) l -> (size c <= top)%Z
  | ESet e _ v => (size v <= top)%Z /\ small k A e
  | EAdd e f => small k A e /\ small k A f /\ below (fun i => size (radd (value k A e i) (value k A f i)))
  | ESub e f => small k A e /\ small k A f /\ below (fun i => size (rsub (value k A e i) (value k A f i)))
  | EMul e f | EWedge e f => small k A e /\ small k A f /\
      below (fun i => sumI (a_dim A) (fun j => size (value k A e j) * size (value k A f (N.lxor j i))))%Z
  | EMeet e f => small k A e /\ small k A f /\
      below (fun i => sumI (a_dim A) (fun j => size (value k A e j) * size (value k A f (2 ^ N.of_nat (a_dim A) - 1 - N.lxor j i)%N)))%Z
  | EScale e t => small k A e /\ (size t <= top)%Z /\ below (fun i => size (value k A e i) * size t)%Z
  | ENeg e | EFlip e | EFlipSub e _ | ERev e | ERevc e | EDual e | EUndual e | EGrade e _ | EGrades _ e | ERetain _ e => small k A e
  | EGradeAs k' e _ | EVia k' e => small k' A e
  | EDivs _ _ | EPow _ _ | EFilter _ _ | ERevm _ | ERevcm _ | EDiv _ _ => False
  end.

(** The rounded result is the exact one: the same error, or every coefficient the same number. *)
Definition same_number {S S'} {RF : RingOps F} {St : Storage F S} {SL : StorageLaws F S} {St' : Storage R S'} {SL' : StorageLaws R S'}
  (A : algebra) (r : res S) (r' : res S') : Prop :=
  match r, r' with
  | Ok z, Ok w => valid A z /\ valid A w /\
      forall i, (i < 2 ^ N.of_nat (a_dim A))%N -> rd z i = emb (rd w i) /\ (size (rd w i) <= top)%Z
  | Err a, Err b => a = b
  | _, _ => False
  end.

(** Every coefficient of x is a number of R of size at most B. *)
Definition holds_upto {S} {RF : RingOps F} {St : Storage F S} {SL : StorageLaws F S} (A : algebra) (B : Z) (x : S) : Prop :=
  forall i, (i < 2 ^ N.of_nat (a_dim A))%N -> exists c : R, rd x i = emb c /\ (size c <= B)%Z.
(** Both succeed, with the same numbers of R as coefficients, equal by [==]. *)
Definition same_result {S S'} {RF : RingOps F} {St : Storage F S} {SL : StorageLaws F S} {St' : Storage F S'} {SL' : StorageLaws F S'}
  (A : algebra) (r : res S) (r' : res S') : Prop :=
  exists z z', r = Ok z /\ r' = Ok z' /\ valid A z /\ valid A z' /\ holds_upto A top z /\
    forall i, (i < 2 ^ N.of_nat (a_dim A))%N -> rd z i = rd z' i /\ reqb (rd z i) (rd z' i) = true.
End IntProg.
