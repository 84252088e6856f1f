(** Specification vocabulary for C88: determinants, and the scalar product of the library. *)
From Verif Require Export Spec_Prod Spec_Sandwich.
Local Open Scope nat_scope.

(** The determinant of the n x n matrix M (row, column), expanded along the first row; the
    factors keep the order of the rows. *)
Fixpoint det {T} {RO : RingOps T} (n : nat) (M : nat -> nat -> T) : T :=
  match n with
  | O => r1
  | S n' => suml (fun j =>
      let t := rmul (M 0 j) (det n' (fun a b => M (S a) (if b <? j then b else S b))) in
      if Nat.odd j then rneg t else t) (seq 0 n)
  end.

(** The value of x.vdot(y) ([C88_gram] says it is one). *)
Definition ip {T} {RO : RingOps T} {m : Mode} {S} {St : Storage T S} (A : algebra) (x y : S) : T :=
  match mv_vdot A x y with Ok t => t | _ => r0 end.
