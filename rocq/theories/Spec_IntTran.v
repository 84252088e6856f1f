(** Expressions computed entirely on transforms, from integer multivectors. *)
From Verif Require Export Spec_IntFft M_FFTRepr.
Local Open Scope nat_scope.

(** An input is the list of its 2^d coefficients. *)
Inductive texpr : Type :=
  | TIn (l : list Z) | TAdd (a b : texpr) | TSub (a b : texpr) | TNeg (a : texpr) | TMul (a b : texpr).

(** The exact value, coefficient by coefficient. *)
Fixpoint tvalue (sg : list tok) (d : nat) (e : texpr) : N -> Z :=
  match e with
  | TIn l => fun i => nth (N.to_nat i) l 0%Z
  | TAdd a b => fun i => (tvalue sg d a i + tvalue sg d b i)%Z
  | TSub a b => fun i => (tvalue sg d a i - tvalue sg d b i)%Z
  | TNeg a => fun i => (- tvalue sg d a i)%Z
  | TMul a b => spec_mul (sq sg) d (tvalue sg d a) (tvalue sg d b)
  end.

(** A bound for the sum of the absolute values of the coefficients. *)
Fixpoint tweight (e : texpr) : Z :=
  match e with
  | TIn l => fold_right (fun c t => Z.abs c + t)%Z 0%Z l
  | TAdd a b | TSub a b => (tweight a + tweight b)%Z
  | TNeg a => tweight a
  | TMul a b => (tweight a * tweight b)%Z
  end.
(** The inputs have 2^d coefficients, and no part outweighs the limit. *)
Fixpoint trange (d : nat) (limit : Z) (e : texpr) : Prop :=
  (tweight e <= limit)%Z /\
  match e with
  | TIn l => length l = 2 ^ d
  | TAdd a b | TSub a b | TMul a b => trange d limit a /\ trange d limit b
  | TNeg a => trange d limit a
  end.

(** The computation: every input is transformed, every operation is one on transforms. *)
Fixpoint trun {md : Mode} {RF : RingOps flt} {DF : DivOps flt} (prec emax : Z) (A : algebra) (e : texpr) : res (fftrepr flt) :=
  match e with
  | TIn l => mv_fft (F := flt) A (mkArr (a_dim A) (map (flt_of_Z prec emax) l) : arr flt)
  | TAdd a b => X <- trun prec emax A a ;; Y <- trun prec emax A b ;; fr_add X Y
  | TSub a b => X <- trun prec emax A a ;; Y <- trun prec emax A b ;; fr_sub X Y
  | TNeg a => X <- trun prec emax A a ;; Ok (fr_neg X)
  | TMul a b => X <- trun prec emax A a ;; Y <- trun prec emax A b ;; fr_mul X Y
  end.
