(** Model of the formatting of multivectors (src/lib.rs). *)
From Coq Require Import String Ascii.
From Coq Require Import List. Import ListNotations.
From Verif Require Export M_Multivector.
Local Open Scope nat_scope.

(** The part of [std::fmt::Formatter] that is consulted: [alternate()], [sign_plus()]; the other
    flags (width, precision, ...) are only handed on to the coefficients. *)
Record flags := mkFlags { f_alternate : bool; f_sign_plus : bool; f_other : nat }.

(** [Display], [LowerExp] or [UpperExp] of the coefficients with given flags, and the
    corresponding [format!("{}")], [format!("{:e}")] or [format!("{:E}")] without flags. *)
Class FmtOps (T : Type) := { fmt_f : flags -> T -> string; fmt_plain : T -> string }.

(** [str::contains(['+', '-'])]. *)
Fixpoint has_sign (s : string) : bool :=
  match s with
  | EmptyString => false
  | String c r => ((Ascii.eqb c "+"%char || Ascii.eqb c "-"%char) || has_sign r)%bool
  end.

Section Fmt.
Context {T : Type} {RO : RingOps T} {FO : FmtOps T} {m : Mode}.
Context {S : Type} {St : Storage T S}.
Variable A : algebra.

(** One iteration of the loop of src/lib.rs:543-580; the state is ([first], what has been
    written).  The writer is assumed not to fail. *)
Definition fmt_step (f : flags) (st : bool * string) (ic : N * T) : res (bool * string) :=
  let '(first, out) := st in
  let '(idx, coeff) := ic in
  if ris0 coeff then Ok (first, out)
  else
    let out := if negb first then (out ++ " + ")%string else out in
    let displayed_coeff := if f_alternate f then rev_c idx coeff else coeff in
    let inner_sign := (f_sign_plus f || has_sign (fmt_plain displayed_coeff))%bool in
    let out := if inner_sign then (out ++ "(" ++ fmt_f f displayed_coeff ++ ")")%string else (out ++ fmt_f f displayed_coeff)%string in
    lbl <- (if f_alternate f then blade_label_rev A idx else blade_label A idx) ;;
    let out := if Nat.ltb 0 (String.length lbl) then (out ++ " " ++ lbl)%string else out in
    Ok (false, out).

(** src/lib.rs:533-590 [impl_formatting!] (three instances: Display, LowerExp, UpperExp). *)
Definition mv_fmt (f : flags) (x : S) : res string :=
  ' (first, out) <- foldM (fmt_step f) (st_enum x) (true, EmptyString) ;;
  if first then Ok (out ++ fmt_f f r0)%string else Ok out.
End Fmt.
