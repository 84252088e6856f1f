(** Vocabulary of C55: what the printed form of a multivector should be. *)
From Coq Require Import String Ascii.
From Coq Require Import List. Import ListNotations.
From Verif Require Export M_Fmt Spec_Prod.
Local Open Scope nat_scope.

(** A coefficient: as its type prints it, parenthesised if a sign occurs in it or is asked for. *)
Definition printed_coeff {T} {FO : FmtOps T} (fl : flags) (c : T) : string :=
  if (f_sign_plus fl || has_sign (fmt_plain c))%bool then ("(" ++ fmt_f fl c ++ ")")%string else fmt_f fl c.

(** The label of a product of generators: a blank and the names joined by "^", nothing for the
    empty label. *)
Definition printed_label (nm : nat -> string) (w : list nat) : string :=
  match join "^" (map nm w) with EmptyString => EmptyString | l => (" " ++ l)%string end.

(** A term: coefficient, then the generators whose product it multiplies. *)
Definition printed_term {T} {FO : FmtOps T} (fl : flags) (nm : nat -> string) (t : T * list nat) : string :=
  (printed_coeff fl (fst t) ++ printed_label nm (snd t))%string.

(** The terms joined by " + ", or the zero of the coefficient type if there is none. *)
Definition printed {T} {RO : RingOps T} {FO : FmtOps T} (fl : flags) (nm : nat -> string) (ts : list (T * list nat)) : string :=
  match ts with
  | [] => fmt_f fl r0
  | _ => join " + " (map (printed_term fl nm) ts)
  end.

(** What a term, and a list of terms, denotes, given the basis vectors l. *)
Definition term_value {T} {RO : RingOps T} {m : Mode} {S} {St : Storage T S} (A : algebra) (l : list S) (t : T * list nat) : res S :=
  p <- word_prod (mv_mul A) A l (snd t) ;; mv_scale A p (fst t).
Definition terms_value {T} {RO : RingOps T} {m : Mode} {S} {St : Storage T S} (A : algebra) (l : list S) (ts : list (T * list nat)) : res S :=
  z <- mv_default A ;; foldM (fun acc t => v <- term_value A l t ;; mv_add acc v) ts z.
