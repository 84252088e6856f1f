(** Specification vocabulary for C89. *)
From Verif Require Export Spec_Det.
Local Open Scope nat_scope.

(** The blade with index I commutes with all multivectors: an even number of basis vectors, all
    squaring to 0, or all basis vectors, in odd dimension. *)
Definition central (sg : list tok) (I : N) : bool :=
  let g := gens (length sg) I in
  if Nat.odd (length g) then length g =? length sg
  else forallb (fun i => match nth i sg Tplus with Tnull => true | _ => false end) g.
