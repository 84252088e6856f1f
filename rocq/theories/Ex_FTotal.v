(** Double precision instances for the examples of Props_FTotal.v. *)
From Coq Require Import List.
Import ListNotations.
From Verif Require Export Ex_Float Ex_FFT M_Float P_FTotal.
From Coq Require Import Floats.SpecFloat.
Local Open Scope nat_scope.

#[global] Instance F64I : IntoCplx flt flt := {| into_complex := fun c => mkC c FZ |}.
#[global] Instance F64F : FromCplx flt flt := {| from_complex := fun z => c_re z |}.
#[global] Instance F64CD : DivOps (cplx flt) := CplxDiv.
Definition f_sqrt (x : flt) : flt := of_sf (SFsqrt 53 1024 (to_sf x)).
Definition f_abs (x : flt) : flt := of_sf (SFabs (to_sf x)).
(** max of numbers, ignoring a NaN. *)
Definition f_max (x y : flt) : flt :=
  match x, y with FNaN, _ => y | _, FNaN => x | _, _ => if SFltb (to_sf x) (to_sf y) then y else x end.
(** Rounding up to an integer, and the conversion to an integer without its upper
    limit 2^64 - 1 (so an infinity, which Rust converts to that limit, gives 0 here). *)
Definition f_ceilZ (s : bool) (m : positive) (e : Z) : Z :=
  let z := (if s then Z.neg m else Z.pos m) in if (0 <=? e)%Z then (z * 2 ^ e)%Z else (- ((- z) / 2 ^ (- e)))%Z.
Definition f_ceil (x : flt) : flt := match x with FFin s m e => fz (f_ceilZ s m e) | _ => x end.
Definition f_usize (x : flt) : nat := match x with FFin s m e => Z.to_nat (f_ceilZ s m e) | _ => 0 end.
#[global] Instance F64E : ExpOps flt := {|
  e_norm := fun z => f_sqrt (radd (rmul (c_re z) (c_re z)) (rmul (c_im z) (c_im z))); e_max := f_max; e_sqrt := f_sqrt;
  e_ceil := f_ceil; e_usize := f_usize; e_gt_eps := f64_gt_eps |}.
#[global] Instance F64N : NormF flt flt := {| norm_f := f_abs |}.
#[global] Instance F64FF : FromF flt flt := {| from_f := fun c => c |}.

Definition ok_b (r : res bool) : bool := match r with Ok b => b | _ => false end.

(** A representation in Cl(3) with a NaN and an infinity among its entries. *)
Definition fr1 : fftrepr flt := mkA3 4 4 [m_build 4 4 (fun i j => if Nat.eqb i j then mkC (fz (Z.of_nat i + 1)) FNaN else mkC (FInf (Nat.ltb i j)) (fz 3))].
Lemma s_fr1 : repr_shape sg_e3 fr1.
Proof. split; [repeat constructor|reflexivity]. Qed.

(** The series stops after 18 terms in double precision. *)
Lemma eps_18_f64 : f64_gt_eps (exp_coeff (RF := F64) (DV := flt_div 53 1024) 18) = false.
Proof. vm_compute. reflexivity. Qed.
