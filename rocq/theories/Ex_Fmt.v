(** Decimal printing of integers, for the examples of C55. *)
From Coq Require Import String DecimalString.
From Verif Require Export Ex M_Fmt.

#[global] Instance ZFmt : FmtOps Z := {|
  fmt_f := fun fl z => ((if f_sign_plus fl && (0 <=? z)%Z then "+" else "") ++ NilZero.string_of_int (Z.to_int z))%string;
  fmt_plain := fun z => NilZero.string_of_int (Z.to_int z) |}.
