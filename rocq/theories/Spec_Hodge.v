(** Specification vocabulary for C86. *)
From Verif Require Export Spec_Prod.
Local Open Scope nat_scope.

(** The unit pseudoscalar. *)
Definition ps {T} {RO : RingOps T} {m : Mode} {S} {St : Storage T S} (A : algebra) : res S :=
  unit_blade A (2 ^ N.of_nat (a_dim A) - 1).
(** The sum of the products of corresponding coefficients. *)
Definition pairing {T} {RO : RingOps T} {S} {St : Storage T S} {SL : StorageLaws T S} (A : algebra) (x y : S) : T :=
  suml (fun i => rmul (rd x (N.of_nat i)) (rd y (N.of_nat i))) (seq 0 (2 ^ a_dim A)).
(** The square of the pseudoscalar: 0 when some basis vector squares to 0, otherwise
    (-1) to the power d(d-1)/2 plus the number of basis vectors squaring to -1. *)
Definition ps_square {T} {RO : RingOps T} (sg : list tok) : T :=
  if existsb (fun t => match t with Tnull => true | _ => false end) sg then r0
  else if Nat.odd (length sg * (length sg - 1) / 2 + length (filter (fun t => match t with Tminus => true | _ => false end) sg))
  then rneg r1 else r1.
