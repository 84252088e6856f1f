(** Property C71: rounding errors of the transforms.  F stands for the floating point type (C69 shows
    that f64 and f32 meet RoundLaws, C66 that they meet NumLaws). *)
From Verif Require Import Ex_FRound.
From Coq Require Import QArith.
Local Open Scope Qc_scope.

(** [fft] followed by [ifft] gives every coefficient back up to ((1+u)^(4m+8) - 1) P plus underflows,
    where P is the sum of the absolute values of the coefficients and 2^m is the side of the matrices.
    The only condition is that the coefficients that come back are finite. *)
Theorem C71_round_trip {F} {RF : RingOps F} {DF : DivOps F} {V : RoundOps F} {RL : RoundLaws F} {W : NumLaws F} {m : Mode} {H : HashOrder}
  sg A (x : store KDense F) : declared sg A -> (length sg < 63)%nat -> valid A x ->
  exists z : store KDense F, (X <- mv_fft (F := F) A (x : arr F) ;; fr_ifft A X) = Ok (z : arr F) /\ valid A z /\
  ((forall i, (i < 2 ^ N.of_nat (a_dim A))%N -> finite (rd z i) = true) ->
   forall i, (i < 2 ^ N.of_nat (a_dim A))%N ->
   Qcabs (val (rd z i) - val (rd x i)) <= round_trip_error ((nonnull sg + 1) / 2) (sumI (a_dim A) (fun j => Qcabs (val (rd x j))))).
Proof. exact (fun D Hl => round_trip_real sg A D Hl x). Qed.
Print Assumptions C71_round_trip.

(** 1/10 + 11/10 e0 + e1/10 - 7 e01/10 + ... in Cl(1,1,1): the coefficients are not given back exactly, the bound is below 2^-45. *)
Example C71_round_trip_ex : let A := alg sg_p11 in
  declared sg_p11 A /\ valid A fr_x /\
  match (X <- mv_fft (F := flt) A (fr_x : arr flt) ;; (fr_ifft A X : res (arr flt))) with
  | Ok z => (forallb (fun i => finite (rd (S := store KDense _) z i)) (idxs 3) &&
             negb (Qc_eq_bool (val (rd (S := store KDense _) z 0)) (val (rd fr_x 0))) &&
             qleb (round_trip_error 1 (sumI 3 (fun j => Qcabs (val (rd fr_x j))))) (qz 1 (2 ^ 45)))%bool
  | _ => false end = true.
Proof. cbv zeta. split; [dcl|]. split; [exact v_frx|]. vm_compute. reflexivity. Qed.

(** The same for complex coefficients, real and imaginary parts separately. *)
Theorem C71_round_trip_complex {F} {RF : RingOps F} {DF : DivOps F} {V : RoundOps F} {RL : RoundLaws F} {W : NumLaws F} {m : Mode} {H : HashOrder}
  sg A (x : store KDense (cplx F)) : declared sg A -> (length sg < 63)%nat -> valid A x ->
  exists z : store KDense (cplx F), (X <- mv_fft (F := F) A (x : arr (cplx F)) ;; fr_ifft A X) = Ok (z : arr (cplx F)) /\ valid A z /\
  ((forall i, (i < 2 ^ N.of_nat (a_dim A))%N -> cfinite (rd z i) = true) ->
   forall i, (i < 2 ^ N.of_nat (a_dim A))%N ->
   cwithin (round_trip_error ((nonnull sg + 1) / 2) (sumI (a_dim A) (fun j => cabs1 (cval (rd x j))))) (rd z i) (cval (rd x i))).
Proof. exact (fun D Hl => round_trip_cplx sg A D Hl x). Qed.
Print Assumptions C71_round_trip_complex.

Example C71_round_trip_complex_ex : let A := alg sg_11 in
  declared sg_11 A /\ valid A fr_c /\
  match (X <- mv_fft (F := flt) A (fr_c : arr (cplx flt)) ;; (fr_ifft A X : res (arr (cplx flt)))) with
  | Ok z => (forallb (fun i => cfinite (rd (S := store KDense _) z i)) (idxs 2) &&
             negb (forallb (fun i => Qc_eq_bool (val (c_re (rd (S := store KDense _) z i))) (val (c_re (rd fr_c i)))) (idxs 2)) &&
             qleb (round_trip_error 1 (sumI 2 (fun j => cabs1 (cval (rd fr_c j))))) (qz 1 (2 ^ 45)))%bool
  | _ => false end = true.
Proof. cbv zeta. split; [dcl|]. split; [exact v_frc|]. vm_compute. reflexivity. Qed.

(** [clifft] of an array of length 2^n: every entry is within ((1+u)^(m+2) - 1) P of the one that exact
    arithmetic gives, plus underflows; P is the sum of the sizes of the coefficients, m = ceil(n/2). *)
Theorem C71_clifft {T F} {RF : RingOps F} {DF : DivOps F} {V : RoundOps F} {RL : RoundLaws F} {W : NumLaws F} {RT : RingOps T} {IC : IntoCplx T F} {m : Mode}
  n (l : list T) : into_complex (r0 : T) = (r0 : cplx F) -> length l = (2 ^ n)%nat ->
  exists (M : mat (cplx F)) (E : mat (cplx Qc)), clifft l = Ok M /\ clifft (map (fun c => cval (into_complex c)) l) = Ok E /\
  square_mat (2 ^ ((n + 1) / 2)) M /\ square_mat (2 ^ ((n + 1) / 2)) E /\
  ((forall i j, (i < 2 ^ ((n + 1) / 2))%nat -> (j < 2 ^ ((n + 1) / 2))%nat -> cfinite (m_at M i j) = true) ->
   forall i j, (i < 2 ^ ((n + 1) / 2))%nat -> (j < 2 ^ ((n + 1) / 2))%nat ->
   cwithin (fft_error ((n + 1) / 2) (sumI n (fun t => cabs1 (cval (into_complex (coefs l t)))))) (m_at M i j) (m_at E i j)).
Proof. exact (fun Hi => fwd_error Hi n l). Qed.
Print Assumptions C71_clifft.

Example C71_clifft_ex :
  match clifft (F := flt) (IC := CplxInto) fr_l, clifft (F := Qc) (map (fun c => cval (into_complex (IntoCplx := CplxInto) c)) fr_l) with
  | Ok M, Ok E => (forallb cfinite (m_data M) && negb (forallb (fun p => Qc_eq_bool (val (c_re (fst p))) (c_re (snd p)) && Qc_eq_bool (val (c_im (fst p))) (c_im (snd p))) (combine (m_data M) (m_data E))) &&
                   qleb (fft_error 1 (sumI 2 (fun t => cabs1 (cval (coefs fr_l t))))) (qz 1 (2 ^ 48)))%bool
  | _, _ => false end = true.
Proof. vm_compute. reflexivity. Qed.

(** [iclifft] of a matrix of side 2^m whose entries have parts of size at most B: within ((1+u)^(3m+2) - 1) B, plus underflows. *)
Theorem C71_iclifft {F} {RF : RingOps F} {DF : DivOps F} {V : RoundOps F} {RL : RoundLaws F} {W : NumLaws F} {md : Mode}
  m (M : mat (cplx F)) (B : Qc) : square_mat (2 ^ m) M ->
  (forall i j, (i < 2 ^ m)%nat -> (j < 2 ^ m)%nat -> Qcabs (val (c_re (m_at M i j))) <= B /\ Qcabs (val (c_im (m_at M i j))) <= B) ->
  exists (l : list (cplx F)) (e : list (cplx Qc)), iclifft M = Ok l /\ iclifft (mkMat (m_nr M) (m_nc M) (map cval (m_data M))) = Ok e /\
  length l = (2 ^ (2 * m))%nat /\ length e = (2 ^ (2 * m))%nat /\
  ((forall t, (t < 2 ^ N.of_nat (2 * m))%N -> cfinite (coefs l t) = true) ->
   forall t, (t < 2 ^ N.of_nat (2 * m))%N -> cwithin (ifft_error m B) (coefs l t) (coefs e t)).
Proof. exact (inv_error m M B). Qed.
Print Assumptions C71_iclifft.

Example C71_iclifft_ex :
  square_mat 2 fr_m /\
  (forall i j, (i < 2)%nat -> (j < 2)%nat -> Qcabs (val (c_re (m_at fr_m i j))) <= 1 /\ Qcabs (val (c_im (m_at fr_m i j))) <= 1) /\
  match iclifft fr_m, iclifft (mkMat (m_nr fr_m) (m_nc fr_m) (map cval (m_data fr_m))) with
  | Ok l, Ok e => (forallb cfinite l && negb (forallb (fun t => Qc_eq_bool (val (c_re (coefs l t))) (c_re (coefs e t))) (idxs 2)) && qleb (ifft_error 1 1) (qz 1 (2 ^ 50)))%bool
  | _, _ => false end = true.
Proof.
  split; [repeat split|]. split; [|vm_compute; reflexivity].
  intros i j Hi Hj. destruct i as [|[|i]], j as [|[|j]]; try lia; split; apply qleb_ok; vm_compute; reflexivity.
Qed.
