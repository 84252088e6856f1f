(** Model of src/types.rs (signs), src/algebra.rs, src/precomputed.rs and
    src/index_utils.rs. *)
From Verif Require Export Base.
From Coq Require Import String.
From Coq Require DecimalString.
Import List ListNotations.
Open Scope N_scope.

(** src/types.rs:45-50 [enum Sign]. *)
Inductive sign := Null | Plus | Minus.

(** src/types.rs:46-50: the discriminants [Null = 0, Plus = 1, Minus = -1]. *)
Definition sign_i8 (s : sign) : Z :=
  match s with Null => 0%Z | Plus => 1%Z | Minus => (-1)%Z end.

(** src/types.rs:52-62 [impl Mul for Sign]: product of the discriminants. *)
Definition sign_mul (a b : sign) : sign :=
  match (sign_i8 a * sign_i8 b)%Z with
  | (-1)%Z => Minus
  | 1%Z => Plus
  | _ => Null
  end.

(** The token trees [+], [-], [0] of a [declare_algebra!] signature
    (src/algebra.rs:407-453).  Any other token is not modelled (it is rejected
    by [order_check!]). *)
Inductive tok := Tplus | Tminus | Tnull.

(** src/algebra.rs:212-233 [produce_mask_internal_plus!], [produce_mask_plus!].
    [1 << shift] cannot overflow: shift < 64 by the [const_assert]. *)
Fixpoint mask_plus_from (shift : nat) (sg : list tok) : N :=
  match sg with
  | [] => 0
  | Tplus :: r => N.lor (N.shiftl 1 (N.of_nat shift)) (mask_plus_from (S shift) r)
  | _ :: r => N.lor (N.shiftl 0 (N.of_nat shift)) (mask_plus_from (S shift) r)
  end.
(** src/algebra.rs:229-233 [produce_mask_plus!]. *)
Definition produce_mask_plus (sg : list tok) : N := mask_plus_from 0 sg.

(** src/algebra.rs:235-251 [produce_mask_internal_minus!]. *)
Fixpoint mask_minus_from (shift : nat) (sg : list tok) : N :=
  match sg with
  | [] => 0
  | Tminus :: r => N.lor (N.shiftl 1 (N.of_nat shift)) (mask_minus_from (S shift) r)
  | _ :: r => N.lor (N.shiftl 0 (N.of_nat shift)) (mask_minus_from (S shift) r)
  end.
(** src/algebra.rs:252-256 [produce_mask_minus!]. *)
Definition produce_mask_minus (sg : list tok) : N := mask_minus_from 0 sg.

(** src/algebra.rs:258-274 [produce_mask_internal_null!]. *)
Fixpoint mask_null_from (shift : nat) (sg : list tok) : N :=
  match sg with
  | [] => 0
  | Tnull :: r => N.lor (N.shiftl 1 (N.of_nat shift)) (mask_null_from (S shift) r)
  | _ :: r => N.lor (N.shiftl 0 (N.of_nat shift)) (mask_null_from (S shift) r)
  end.
(** src/algebra.rs:275-279 [produce_mask_null!]. *)
Definition produce_mask_null (sg : list tok) : N := mask_null_from 0 sg.

(** src/algebra.rs:281-287 [count_items!]. *)
Fixpoint count_items {A} (l : list A) : nat :=
  match l with
  | [] => 0%nat
  | [_] => 1%nat
  | _ :: r => (1 + count_items r)%nat
  end.

(** src/algebra.rs:289-299 [order_check_end!]: true iff no [compile_error!]. *)
Fixpoint order_check_end (sg : list tok) : bool :=
  match sg with
  | [] => true
  | Tnull :: r => order_check_end r
  | Tminus :: _ | Tplus :: _ => false
  end.

(** src/algebra.rs:300-309 [order_check!]: true iff no [compile_error!] and some
    rule matches. *)
Fixpoint order_check (sg : list tok) : bool :=
  match sg with
  | [] => false
  | [_] => true
  | Tplus :: r | Tminus :: r => order_check r
  | Tnull :: r => order_check_end r
  end.

(** src/algebra.rs:311-318 [impl_pga!]: [Some n] iff [PGAlgebra<n>] is implemented.
    [plus_then_null] is the matcher [$(+),+,0]. *)
Fixpoint plus_then_null (sg : list tok) : bool :=
  match sg with
  | [Tplus; Tnull] => true
  | Tplus :: r => plus_then_null r
  | _ => false
  end.
(** src/algebra.rs:311-318, 403: [$dim] is [count_items! - 1]. *)
Definition impl_pga (sg : list tok) : option nat :=
  if plus_then_null sg then Some (count_items sg - 1)%nat else None.

(** src/algebra.rs:320-326 [impl_split_signature!]. *)
Fixpoint impl_split_signature (sg : list tok) : bool :=
  match sg with
  | [Tplus; Tminus] => true
  | Tplus :: Tminus :: r => impl_split_signature r
  | _ => false
  end.

(** src/algebra.rs:328-345 [impl_non_degenerate!]. *)
Fixpoint impl_non_degenerate (sg : list tok) : bool :=
  match sg with
  | [Tplus] | [Tminus] => true
  | Tplus :: r | Tminus :: r => impl_non_degenerate r
  | _ => false
  end.

(** src/algebra.rs:363-375 [impl_complex_or_quaternionic!]: (Complex, Quaternionic, Division). *)
Definition impl_complex_or_quaternionic (sg : list tok) : bool * bool * bool :=
  match sg with
  | [Tminus] => (true, false, true)
  | [Tminus; Tminus] => (false, true, true)
  | _ => (false, false, false)
  end.

(** src/algebra.rs:19-34 [trait ClAlgebraBase].  A Rust type implementing the
    trait is modelled by the record of its (constant) methods.  The three
    [*_dim] methods have defaults but are overridden by [Even]
    (src/fftrepr/mod.rs), so they are fields. *)
Record algebra := mkAlgebra {
  a_dim : nat;
  a_real_dim : nat; a_imag_dim : nat; a_proj_dim : nat;
  a_real : N; a_imag : N; a_proj : N;
  a_name : nat -> res string
}.

(** [usize::to_string]: decimal digits (std). *)
Definition usize_to_string (n : nat) : string :=
  DecimalString.NilZero.string_of_uint (Nat.to_uint n).

(** src/algebra.rs:347-361 [axis_name_func!]; [None] is the [const_assert_eq!]
    failing at compile time. *)
Definition axis_name_func (sg : list tok) (axes : list string) : option (nat -> res string) :=
  match axes with
  | [] => Some (fun n => Ok (String.append "e" (usize_to_string n)))
  | _ => if Nat.eqb (count_items sg) (count_items axes)
         then Some (fun n => nthr axes n) else None
  end.

(** src/algebra.rs:377-405 [impl_algebra_base!] with the default [*_dim] methods of
    src/algebra.rs:21-29. *)
Definition impl_algebra_base (sg : list tok) (axes : list string) : option algebra :=
  if Nat.leb (count_items sg) 64 then
    match axis_name_func sg axes with
    | None => None
    | Some nm =>
      Some {| a_dim := count_items sg;
              a_real_dim := popcount (produce_mask_plus sg);
              a_imag_dim := popcount (produce_mask_minus sg);
              a_proj_dim := popcount (produce_mask_null sg);
              a_real := produce_mask_plus sg;
              a_imag := produce_mask_minus sg;
              a_proj := produce_mask_null sg;
              a_name := nm |}
    end
  else None.

(** src/algebra.rs:427-453 [declare_algebra!]; [None] means the declaration does
    not compile.  Visibility variants are not distinguished. *)
Definition declare_algebra (sg : list tok) (axes : list string) : option algebra :=
  if order_check sg then impl_algebra_base sg axes else None.

(** src/precomputed.rs:1-83 [AC_PRODUCT_SIGNS]. *)
Definition AC_PRODUCT_SIGNS : list (list N) := [
  [ 0x0 ];
  [ 0x0; 0x0 ];
  [ 0x0; 0xc; 0x0; 0xc ];
  [ 0x0; 0x3c; 0xf0; 0xcc;
    0x0; 0x3c; 0xf0; 0xcc ];
  [ 0x0; 0xc33c; 0xff0; 0xcccc;
    0xff00; 0x3c3c; 0xf0f0; 0x33cc;
    0x0; 0xc33c; 0xff0; 0xcccc;
    0xff00; 0x3c3c; 0xf0f0; 0x33cc ];
  [ 0x0; 0x3cc3c33c; 0xf00f0ff0; 0xcccccccc;
    0xffff00; 0x3c3c3c3c; 0xf0f0f0f0; 0xcc3333cc;
    0xffff0000; 0xc33cc33c; 0xff00ff0; 0x3333cccc;
    0xff00ff00; 0xc3c33c3c; 0xf0ff0f0; 0x33cc33cc;
    0x0; 0x3cc3c33c; 0xf00f0ff0; 0xcccccccc;
    0xffff00; 0x3c3c3c3c; 0xf0f0f0f0; 0xcc3333cc;
    0xffff0000; 0xc33cc33c; 0xff00ff0; 0x3333cccc;
    0xff00ff00; 0xc3c33c3c; 0xf0ff0f0; 0x33cc33cc ];
  [ 0x0; 0xc33c3cc33cc3c33c; 0xff0f00ff00f0ff0; 0xcccccccccccccccc;
    0xff0000ff00ffff00; 0x3c3c3c3c3c3c3c3c; 0xf0f0f0f0f0f0f0f0; 0x33cccc33cc3333cc;
    0xffffffff0000; 0xc33cc33cc33cc33c; 0xff00ff00ff00ff0; 0xcccc33333333cccc;
    0xff00ff00ff00ff00; 0x3c3cc3c3c3c33c3c; 0xf0f00f0f0f0ff0f0; 0x33cc33cc33cc33cc;
    0xffffffff00000000; 0x3cc3c33c3cc3c33c; 0xf00f0ff0f00f0ff0; 0x33333333cccccccc;
    0xffff0000ffff00; 0xc3c3c3c33c3c3c3c; 0xf0f0f0ff0f0f0f0; 0xcc3333cccc3333cc;
    0xffff0000ffff0000; 0x3cc33cc3c33cc33c; 0xf00ff00f0ff00ff0; 0x3333cccc3333cccc;
    0xff00ffff00ff00; 0xc3c33c3cc3c33c3c; 0xf0ff0f00f0ff0f0; 0xcc33cc3333cc33cc;
    0x0; 0xc33c3cc33cc3c33c; 0xff0f00ff00f0ff0; 0xcccccccccccccccc;
    0xff0000ff00ffff00; 0x3c3c3c3c3c3c3c3c; 0xf0f0f0f0f0f0f0f0; 0x33cccc33cc3333cc;
    0xffffffff0000; 0xc33cc33cc33cc33c; 0xff00ff00ff00ff0; 0xcccc33333333cccc;
    0xff00ff00ff00ff00; 0x3c3cc3c3c3c33c3c; 0xf0f00f0f0f0ff0f0; 0x33cc33cc33cc33cc;
    0xffffffff00000000; 0x3cc3c33c3cc3c33c; 0xf00f0ff0f00f0ff0; 0x33333333cccccccc;
    0xffff0000ffff00; 0xc3c3c3c33c3c3c3c; 0xf0f0f0ff0f0f0f0; 0xcc3333cccc3333cc;
    0xffff0000ffff0000; 0x3cc33cc3c33cc33c; 0xf00ff00f0ff00ff0; 0x3333cccc3333cccc;
    0xff00ffff00ff00; 0xc3c33c3cc3c33c3c; 0xf0ff0f00f0ff0f0; 0xcc33cc3333cc33cc ]
].

Section Signs.
Context {m : Mode}.

(** [a >> b] on [u64] (b a [usize]): panics (debug) or masks (release) when b >= 64. *)
Definition shr (a b : N) : res N :=
  if b <? 64 then Ok (N.shiftr a b)
  else if checks then Panic else Ok (N.shiftr a (b mod 64)).

(** src/algebra.rs:124-135 [fn ac_product_sign] (the general loop).  The running
    count is a [u32] and stays below 64*64, so it cannot overflow. *)
Definition ac_product_sign_loop (dim : nat) (a b : N) : res sign :=
  transpositions <-
    foldM (fun t s => sh <- shl a s ;; Ok (t + popcount (N.land sh b))%nat)
          (rev (seq 1 (dim - 1))) 0%nat ;;
  Ok (if Nat.even transpositions then Plus else Minus).

Variable A : algebra.

(** src/algebra.rs:156-166 [ClAlgebra::ac_product_sign]. *)
Definition ac_product_sign (a b : N) : res sign :=
  if Nat.leb (a_dim A) 6 then
    row <- nthr AC_PRODUCT_SIGNS (a_dim A) ;;
    (* a row has at most 64 entries: an index beyond it panics *)
    w <- (if a <? 64 then nthr row (N.to_nat a) else Panic) ;;
    r <- shr w b ;;
    Ok (if N.land r 1 =? 0 then Plus else Minus)
  else ac_product_sign_loop (a_dim A) a b.

(** src/algebra.rs:168-183 [ClAlgebra::ac_negated_product_sign]. *)
Definition ac_negated_product_sign (a b : N) : res sign :=
  if Nat.leb (a_dim A) 6 then
    row <- nthr AC_PRODUCT_SIGNS (a_dim A) ;;
    w <- (if a <? 64 then nthr row (N.to_nat a) else Panic) ;;
    r <- shr w b ;;
    Ok (if N.land r 1 =? 0 then Minus else Plus)
  else
    s <- ac_product_sign_loop (a_dim A) a b ;;
    match s with Plus => Ok Minus | Minus => Ok Plus | Null => Panic end.

(** src/algebra.rs:185-190 [ClAlgebra::blade_wedge_product_sign]. *)
Definition blade_wedge_product_sign (a b : N) : res sign :=
  if negb (N.land a b =? 0) then Ok Null else ac_product_sign a b.

(** src/algebra.rs:192-201 [ClAlgebra::blade_geo_product_sign]. *)
Definition blade_geo_product_sign (a b : N) : res sign :=
  if negb (N.land (N.land a b) (a_proj A) =? 0) then Ok Null
  else if Nat.even (popcount (N.land (N.land a b) (a_imag A)))
  then ac_product_sign a b
  else ac_negated_product_sign a b.

(** src/algebra.rs:203-205 [ClAlgebra::index_iter]. *)
Definition index_iter : res (list N) :=
  n <- shl 1 (a_dim A) ;; Ok (map N.of_nat (seq 0 (N.to_nat n))).

(** [idx & (1 << i) != 0]. *)
Definition has_bit (idx : N) (i : nat) : res bool :=
  b <- shl 1 i ;; Ok (negb (N.land idx b =? 0)).

(** [Itertools::join] (itertools). *)
Fixpoint join (sep : string) (l : list string) : string :=
  match l with
  | [] => EmptyString
  | [x] => x
  | x :: r => String.append x (String.append sep (join sep r))
  end.

(** The filter-then-map of src/algebra.rs:142-146 over a list of axis numbers. *)
Definition label_of (l : list nat) (idx : N) : res string :=
  names <- foldM (fun acc i =>
             h <- has_bit idx i ;;
             if h : bool then nm <- a_name A i ;; Ok (acc ++ [nm])%list else Ok acc) l [] ;;
  Ok (join "^" names).

(** src/algebra.rs:141-147 [ClAlgebra::blade_label]. *)
Definition blade_label (idx : N) : res string := label_of (rev (seq 0 (a_dim A))) idx.

(** src/algebra.rs:149-154 [ClAlgebra::blade_label_rev]. *)
Definition blade_label_rev (idx : N) : res string := label_of (seq 0 (a_dim A)) idx.

(** src/algebra.rs:84-94 [ClBasis::signature] (also 96-106 [signaturef], same values). *)
Definition signature : res (list Z) :=
  mapM (fun n =>
    r <- has_bit (a_real A) n ;;
    i <- has_bit (a_imag A) n ;;
    Ok (if r : bool then 1%Z else if i : bool then (-1)%Z else 0%Z)) (seq 0 (a_dim A)).

End Signs.

(** ** src/index_utils.rs *)

(** src/index_utils.rs:3-10 [struct GradeIter]. *)
Inductive giter := GIter (weight : nat) (pos : Z) (sub : option giter).

(** src/index_utils.rs:58-64 [fn grade_iter]. *)
Definition grade_iter (len weight : nat) : giter :=
  GIter weight (Z.of_nat len - 1) None.

(** src/index_utils.rs:14-20 [GradeIter::refresh]. *)
Fixpoint gi_refresh (it : giter) (len : Z) : giter :=
  match it with
  | GIter w _ sub =>
    GIter w (len - 1) (match sub with None => None | Some s => Some (gi_refresh s (len - 1)) end)
  end.

(** src/index_utils.rs:26-52 [GradeIter::next]: the yielded item and the iterator
    afterwards.  The recursion (into the sub-iterator and [self.next()]) is
    bounded by [fuel], the call-stack depth; [Panic] on exhaustion, shown
    unreachable for the fuel used in [gi_next]. *)
Fixpoint gi_next_fuel {m : Mode} (fuel : nat) (it : giter) : res (option N * giter) :=
  match fuel with
  | O => Panic
  | S fuel =>
    let 'GIter w pos sub := it in
    if (pos + 1 <? Z.of_nat w)%Z then Ok (None, it)
    else if Nat.eqb w 0 then Ok (Some 0, GIter w (-2) sub)
    else
      let s := match sub with None => grade_iter (Z.to_nat pos) (w - 1) | Some s => s end in
      ' (r, s') <- gi_next_fuel fuel s ;;
      match r with
      | Some subindex =>
          hi <- shl 1 (Z.to_nat pos) ;;
          Ok (Some (N.lor hi subindex), GIter w pos (Some s'))
      | None =>
          gi_next_fuel fuel (GIter w (pos - 1) (Some (gi_refresh s' (pos - 1))))
      end
  end.

(** src/index_utils.rs:26-52 [GradeIter::next], with a stack depth that depends
    only on the iterator's own fields. *)
Definition gi_next {m : Mode} (it : giter) : res (option N * giter) :=
  let 'GIter w pos _ := it in gi_next_fuel (w + Z.to_nat (pos + 1) + 2) it.

(** Draining the iterator with a [for] loop, at most [n] steps. *)
Fixpoint gi_take {m : Mode} (n : nat) (it : giter) : res (list N * giter) :=
  match n with
  | O => Ok ([], it)
  | S n =>
    ' (r, it') <- gi_next it ;;
    match r with
    | None => Ok ([], it')
    | Some x => ' (xs, it'') <- gi_take n it' ;; Ok (x :: xs, it'')
    end
  end.

(** Everything a [for] loop over [grade_iter(len, weight)] visits
    (src/algebra.rs:207-209 [grade_index_iter] with len = dim).  There are at
    most 2^len items, so 2^len + 1 steps reach the final [None]. *)
Definition grade_iter_list {m : Mode} (len weight : nat) : res (list N) :=
  ' (l, _) <- gi_take (S (Nat.pow 2 len)) (grade_iter len weight) ;; Ok l.

(** src/algebra.rs:207-209 [ClAlgebra::grade_index_iter]. *)
Definition grade_index_iter {m : Mode} (A : algebra) (weight : nat) : res (list N) :=
  grade_iter_list (a_dim A) weight.
