(** Model of src/pga.rs: projective geometric algebra. *)
From Verif Require Export M_Multivector.
Local Open Scope nat_scope.

(** [f64::sqrt]. *)
Class SqrtOps (T : Type) := { rsqrt : T -> T }.

Section PGA.
Context {T : Type} {RO : RingOps T} {DV : DivOps T} {SQ : SqrtOps T} {m : Mode}.
Context {S : Type} {St : Storage T S}.
Variable A : algebra.

(** src/pga.rs:26, 34: [iter().map(|c| c * c).sum::<f64>().sqrt()]. *)
Definition pga_mag (cs : list T) : T := rsqrt (fold_left radd (map (fun c => rmul c c) cs) r0).

(** src/pga.rs:24-30 [pga_point]; the iterator is the list of its items. *)
Definition pga_point (coords : list T) : res S :=
  let mag := pga_mag coords in
  let coords := coords ++ [r1] in
  v <- mv_from_vector A coords ;;
  p <- mv_dual A v ;;
  mv_divs A p mag.

(** src/pga.rs:32-37 [pga_hyperplane]. *)
Definition pga_hyperplane (equation_coeffs : list T) : res S :=
  let mag := pga_mag equation_coeffs in
  p <- mv_from_vector A equation_coeffs ;;
  mv_divs A p mag.

(** src/pga.rs:39-49 [pga_translation].  The lazy iterator is evaluated item by item inside
    the loop of [from_indexed_iter] (src/lib.rs:94-103), as in the source. *)
Definition pga_translation (direction : list T) : res S :=
  let e_idx := a_proj A in
  bivec <- (ret <- mv_default A ;;
    foldM (fun ret nc =>
      b <- shl 1 (fst nc) ;;
      let idx := N.lor e_idx b in
      let c := rdiv (snd nc) (radd r1 r1) in
      n <- shl 1 (a_dim A) ;;
      if (n <=? idx)%N then Err IndexOutOfBounds
      else Ok (st_set ret idx c)) (combine (seq 0 (length direction)) direction) ret) ;;
  Ok (mv_set_by_idx bivec 0 r1).

(** src/pga.rs:51-55 [pga_extract_point]; [spc_dim] is the const parameter SPC_DIM,
    [make_array] (src/algebra.rs:53-61) is [mapM] over 0..SPC_DIM. *)
Definition pga_extract_point (spc_dim : nat) (x : S) : res (list T) :=
  sd <- mv_dual A x ;;
  scale <- mv_get_by_idx sd (a_proj A) ;;
  mapM (fun n => i <- shl 1 n ;; c <- mv_get_by_idx sd i ;; Ok (rdiv c scale)) (seq 0 spc_dim).
End PGA.
