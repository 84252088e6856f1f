(** Vocabulary for the exponential: the laws of the floating-point primitives (in exact
    arithmetic) and the truncated Taylor series. *)
From Verif Require Export Spec_Repr M_Exp.
Local Open Scope nat_scope.

(** The comparison [c > f64::EPSILON] with [EPSILON] = 2^-52, for reciprocals of natural numbers. *)
Class EpsLaws (F : Type) {RF : RingOps F} {EO : ExpOps F} := {
  gt_eps_recip : forall (k : N) (c : F), rmul c (nat_f (N.to_nat k)) = r1 -> e_gt_eps c = (k <? 2 ^ 52)%N }.

(** An order for which [f64::max] is an upper bound and [ceil] rounds up. *)
Class MaxLaws (F : Type) {RF : RingOps F} {EO : ExpOps F} := {
  f_le : F -> F -> Prop;
  f_le_trans : forall a b c, f_le a b -> f_le b c -> f_le a c;
  f_le_max_l : forall a b, f_le a (e_max a b);
  f_le_max_r : forall a b, f_le b (e_max a b);
  f_le_ceil : forall a, f_le a (e_ceil a);
  f_one_le : forall a, f_le r1 a -> a <> r0 }.

(** [From<f64>] is a unital ring homomorphism. *)
Class FromLaws (T F : Type) {RO : RingOps T} {RF : RingOps F} {FF : FromF T F} := {
  from_add : forall a b : F, from_f (T := T) (radd a b) = radd (from_f a) (from_f b);
  from_mul : forall a b : F, from_f (T := T) (rmul a b) = rmul (from_f a) (from_f b);
  from_one : from_f (T := T) (r1 : F) = r1 }.

Section Exp.
Context {T F : Type} {RO : RingOps T} {RF : RingOps F} {DV : DivOps F} {FF : FromF T F} {m : Mode}.

(** k! *)
Fixpoint fact_f (k : nat) : F := match k with O => r1 | Datatypes.S k => rmul (fact_f k) (nat_f (Datatypes.S k)) end.

(** 1 / 1 / 2 / ... / k, divided in this order (1/k! up to rounding). *)
Fixpoint exp_coeff (k : nat) : F := match k with O => r1 | Datatypes.S k => rdiv (exp_coeff k) (nat_f (Datatypes.S k)) end.

(** 1 + y + y^2/2! + ... + y^n/n! *)
Fixpoint taylor {S} {St : Storage T S} (A : algebra) (y : S) (n : nat) : res S :=
  match n with
  | O => mv_one A
  | Datatypes.S k => t <- taylor A y k ;; p <- mv_pow A y n ;; q <- mv_scale A p (from_f (rdiv r1 (fact_f n))) ;; mv_add t q
  end.
Fixpoint taylor_fft (A : algebra) (y : fftrepr F) (n : nat) : res (fftrepr F) :=
  match n with
  | O => fr_one A
  | Datatypes.S k => t <- taylor_fft A y k ;; p <- fr_pow A y n ;; fr_add t (fr_scale_r p (rdiv r1 (fact_f n)))
  end.
End Exp.

(** What the scale of [exp] needs to depend on the coefficients only, not on the order in which
    a storage lists them: the order of [f64::max] does not matter, the norm of zero does not
    exceed 1, and negating does not change a norm. *)
Class MaxSym (T F : Type) {RO : RingOps T} {RF : RingOps F} {EO : ExpOps F} {NF : NormF T F} := {
  max_swap : forall a b c : F, e_max a (e_max b c) = e_max b (e_max a c);
  max_norm_0 : e_max (norm_f (r0 : T)) (r1 : F) = r1;
  norm_neg : forall c : T, norm_f (rneg c) = norm_f c }.
