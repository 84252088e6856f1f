(** Model of the exponential of multivectors in src/lib.rs and of the norm of quaternions. *)
From Verif Require Export M_FFTRepr.
Local Open Scope nat_scope.

(** src/lib.rs:619-631 [trait Norm]: the norm of a coefficient, as a value of the type [F] that
    stands for f64. *)
Class NormF (T F : Type) := { norm_f : T -> F }.
(** The bound [T: From<f64>] of src/lib.rs:299. *)
Class FromF (T F : Type) := { from_f : F -> T }.

Section Exp.
Context {T F : Type} {RO : RingOps T} {RF : RingOps F} {DV : DivOps F} {EO : ExpOps F}.
Context {NF : NormF T F} {FF : FromF T F} {m : Mode}.
Context {S : Type} {St : Storage T S}.
Variable A : algebra.

(** src/lib.rs:318-324: the loop of the Taylor series; out of [fuel] is [Panic]. *)
Fixpoint mv_exp_loop (fuel : nat) (normalized_mv : S) (coeff : F) (i : nat) (res_ p : S) : res S :=
  match fuel with
  | O => Panic
  | Datatypes.S fuel =>
    if e_gt_eps coeff then
      let coeff := rdiv coeff (nat_f i) in
      q <- mv_scale A p (from_f coeff) ;;
      res_ <- mv_add res_ q ;;
      p <- mv_mul A p normalized_mv ;;
      mv_exp_loop fuel normalized_mv coeff (i + 1) res_ p
    else Ok res_
  end.
(** src/lib.rs:305-311: the scale [max_c] after rounding up. *)
Definition mv_exp_scale (x : S) : res F :=
  let max_c := fold_left (fun mx ic => e_max (norm_f (snd ic)) mx) (mv_coeff_enumerate x) r1 in
  mg <- mv_mag2 A x ;;
  Ok (e_ceil (e_max max_c (e_sqrt (norm_f mg)))).
(** src/lib.rs:296-327 [exp], with a bound on the number of loop iterations. *)
Definition mv_exp (fuel : nat) (x : S) : res S :=
  one <- mv_one A ;;
  max_c <- mv_exp_scale x ;;
  let int_pow := e_usize max_c in
  let inv_max_c := from_f (rdiv r1 max_c) in
  normalized_mv <- mv_scale A x inv_max_c ;;
  r <- mv_exp_loop fuel normalized_mv r1 1 one normalized_mv ;;
  mv_pow A r int_pow.
End Exp.

(** src/quaternion.rs:145-156 [Norm for Quaternion<T>]; [powi(2)] is a product. *)
Definition quat_norm {T F} {RO : RingOps T} {RF : RingOps F} {EO : ExpOps F} {NF : NormF T F} (q : qst T) : res F :=
  s <- foldM (fun s i => c <- mv_get_by_idx q i ;; Ok (radd s (rmul (norm_f c) (norm_f c)))) [0; 1; 2; 3]%N r0 ;;
  Ok (e_sqrt s).
