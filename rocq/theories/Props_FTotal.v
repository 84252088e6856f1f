(** Properties C67 and C68: the matrix transforms, [FFTRepr] and the exponential with rounded
    arithmetic.  T stands for the coefficients (f32, f64, Complex32, Complex64), F for f64; both
    are only assumed to satisfy [NumLaws] (see C60), and nothing is assumed of the conversions
    between them. *)
From Coq Require Import List.
Import ListNotations.
From Verif Require Import Ex_FTotal.
Local Open Scope nat_scope.

(** C67. The transforms of arrays succeed exactly on the right lengths and shapes. *)
Theorem C67_arrays {T F} {RT : RingOps T} {RF : RingOps F} {IC : IntoCplx T F} {DV : DivOps F} {m : Mode} :
  (forall n (l : list T), length l = 2 ^ n -> exists M : mat (cplx F), clifft l = Ok M /\ square_mat (2 ^ ((n + 1) / 2)) M) /\
  (forall l : list T, (forall n, length l <> 2 ^ n) -> clifft (F := F) l = Err InvalidShape) /\
  (forall n (M : mat (cplx F)), square_mat (2 ^ n) M -> exists l, iclifft M = Ok l /\ length l = 2 ^ (2 * n)) /\
  (forall M : mat (cplx F), m_ok M -> (forall n, ~ square_mat (2 ^ n) M) -> iclifft M = Err InvalidShape).
Proof. exact arrays_total. Qed.
Print Assumptions C67_arrays.

Example C67_arrays_ex : ok_b (M <- clifft (F := flt) [fz 1; FNaN; FInf true] ;; Ok true) = false /\
  ok_b (M <- clifft (F := flt) [fz 1; FNaN; FInf true; fz 2] ;; l <- iclifft M ;; Ok (Nat.eqb (length l) 4)) = true /\
  clifft (F := flt) [fz 1; fz 2; fz 3] = Err InvalidShape /\ iclifft (m_zeros (T := cplx flt) 3 3) = Err InvalidShape.
Proof. vm_compute. repeat split. Qed.

(** [fft] of every valid multivector gives an array of the right shape, and [ifft] of every array
    of the right shape gives a valid multivector. *)
Theorem C67_fft {T F} {RT : RingOps T} {WT : NumLaws T} {RF : RingOps F} {WF : NumLaws F} {IC : IntoCplx T F} {m : Mode} sg A (x : arr T) :
  declared sg A -> length sg < 63 -> valid A x -> fits (F := F) sg (mv_fft A x).
Proof. exact (fun D Hl => fft_total sg A D Hl x). Qed.
Print Assumptions C67_fft.
Example C67_fft_ex0 := C67_fft (F := flt) sg_e3 (alg sg_e3) fx d_e3 ltac:(cbn; lia) v_fx.
Theorem C67_ifft {T F} {RT : RingOps T} {WT : NumLaws T} {RF : RingOps F} {WF : NumLaws F} {DV : DivOps F} {FC : FromCplx T F} {m : Mode} sg A (a : fftrepr F) :
  declared sg A -> length sg < 63 -> repr_shape sg a -> succeeds A (fr_ifft A a : res (arr T)).
Proof. exact (fun D Hl => ifft_total sg A D Hl a). Qed.
Print Assumptions C67_ifft.

(** NaN at e0 and -Inf at e0 e1: every matrix entry becomes NaN, but nothing panics. *)
Example C67_fft_ex : valid (alg sg_e3) fx /\ repr_shape sg_e3 fr1 /\
  ok_b (r <- mv_fft (F := flt) (alg sg_e3) fx ;; z <- (fr_ifft (alg sg_e3) r : res (arr flt)) ;; Ok (Nat.eqb (length (arr_data z)) 8)) = true /\
  (z <- (fr_ifft (alg sg_e3) fr1 : res (arr flt)) ;; mv_get_by_idx z 0) = Ok FNaN.
Proof. split; [exact v_fx|]. split; [exact s_fr1|]. split; vm_compute; reflexivity. Qed.
(** 1/3 + e0/10 comes back from the round trip bit by bit. *)
Example C67_fft_ex2 : let x : arr flt := mkArr 2 [rdiv (fz 1) (fz 3); rdiv (fz 1) (fz 10); FZ; FZ] in
  (r <- mv_fft (F := flt) (alg [P1; P1]) x ;; (fr_ifft (alg [P1; P1]) r : res (arr flt))) = Ok x.
Proof. vm_compute. reflexivity. Qed.

(** The arithmetic of [FFTRepr] keeps the shape. *)
Theorem C67_operations {F} {RF : RingOps F} {WF : NumLaws F} {DV : DivOps F} {m : Mode} sg A (a b : fftrepr F) (t : cplx F) (u : F) k :
  declared sg A -> length sg < 63 -> repr_shape sg a -> repr_shape sg b ->
  fits (F := F) sg (fr_zero A) /\ fits (F := F) sg (fr_one A) /\
  fits sg (fr_add a b) /\ fits sg (fr_sub a b) /\ fits sg (fr_mul a b) /\ fits sg (fr_rev A a) /\ fits sg (fr_pow A a k) /\
  repr_shape sg (fr_neg a) /\ repr_shape sg (fr_flip a) /\ repr_shape sg (fr_scale a t) /\ repr_shape sg (fr_scale_r a u) /\
  repr_shape sg (fr_div a t) /\ repr_shape sg (fr_div_r a u) /\
  (exists v, fr_trace a = Ok v) /\ (exists v, fr_ntrace a = Ok v) /\ (exists v, fr_mag2 A a = Ok v).
Proof. exact (fun D Hl => ops_total sg A D Hl a b t u k). Qed.
Print Assumptions C67_operations.
Example C67_operations_ex0 := C67_operations sg_e3 (alg sg_e3) fr1 fr1 (mkC FNaN (fz 1)) (FInf true) 5 d_e3 ltac:(cbn; lia) s_fr1 s_fr1.

(** [inv] returns [None] or one matrix, [into_half_spin_repr] two matrices of half the side. *)
Theorem C67_inv {F R} {RF : RingOps F} {DV : DivOps F} {NC : NormCmp (cplx F) R} sg A (a : fftrepr F) :
  declared sg A -> repr_shape sg a ->
  exists o, fr_inv a = Ok o /\ forall z, o = Some z -> a3_ok z /\ fr_shape z = (1, side_of sg, side_of sg).
Proof. exact (fun D => inv_total sg A D a). Qed.
Print Assumptions C67_inv.
Example C67_inv_ex := let NC : NormCmp (cplx flt) flt := {| nrm := e_norm; n_gt := fun x y => SpecFloat.SFltb (to_sf y) (to_sf x); n_is0 := ris0 |} in
  C67_inv sg_e3 (alg sg_e3) fr1 d_e3 s_fr1.
Theorem C67_half_spin {F} {RF : RingOps F} sg A (a : fftrepr F) :
  declared sg A -> repr_shape sg a -> nonnull sg = length sg -> 0 < length sg ->
  exists E O, fr_into_half_spin_repr a = Ok (E, O) /\ square_mat (side_of sg / 2) E /\ square_mat (side_of sg / 2) O.
Proof. exact (fun D => half_spin_total sg A D a). Qed.
Print Assumptions C67_half_spin.

Example C67_operations_ex : let A := alg sg_e3 in
  let NC : NormCmp (cplx flt) flt := {| nrm := e_norm; n_gt := fun x y => SpecFloat.SFltb (to_sf y) (to_sf x); n_is0 := ris0 |} in
  repr_shape sg_e3 fr1 /\ ok_b (z <- fr_pow A fr1 3 ;; z <- fr_mul z fr1 ;; z <- fr_rev A z ;; Ok (Nat.eqb (t_nr z) 4)) = true /\
  match fr_inv fr1 with Ok None => true | _ => false end = true /\
  match fr_into_half_spin_repr fr1 with Ok (Ev, Od) => Nat.eqb (m_nr Ev) 2 && Nat.eqb (m_nc Od) 2 | _ => false end = true.
Proof. cbv zeta. split; [exact s_fr1|]. repeat split; vm_compute; reflexivity. Qed.

(** Programs computed on [FFTRepr] values ([feval], see C64) never panic. *)
Theorem C67_programs {T F} {RT : RingOps T} {WT : NumLaws T} {DT : DivOps T} {CJ : ConjOps T} {RF : RingOps F} {WF : NumLaws F} {DV : DivOps F}
  {IC : IntoCplx T F} {m : Mode} {H : HashOrder} sg A (e : expr T) :
  declared sg A -> length sg < 63 -> offers KDense A e ->
  match feval (F := F) A e with Ok r => repr_shape sg r | Err _ => ~ args_ok A e | Panic => False end.
Proof. exact (fun D Hl => feval_total sg A D Hl e). Qed.
Print Assumptions C67_programs.

Example C67_programs_ex : let e : expr flt := EMul (EDivs (EBasis 0) (fz 0)) (EPow (EAdd EOne (EScalar FNaN)) 3) in
  offers KDense (alg sg_e3) e /\ args_ok (alg sg_e3) e /\ ok_b (r <- feval (F := flt) (alg sg_e3) e ;; Ok (Nat.eqb (t_nr r) 4)) = true.
Proof. cbn [offers args_ok]. split; [repeat split; apply Nat.ltb_lt; reflexivity|]. split; [repeat split|]. vm_compute. reflexivity. Qed.

(** C68. [exp] terminates on every input as soon as the coefficients 1, 1/1, 1/1/2, ... of its
    loop, which do not depend on the input, reach [f64::EPSILON]: K steps are enough, any larger
    bound gives the same result, and nothing panics. *)
Theorem C68_exp {T F} {RT : RingOps T} {WT : NumLaws T} {RF : RingOps F} {DV : DivOps F} {EO : ExpOps F} {NF : NormF T F} {FF : FromF T F} {m : Mode} {H : HashOrder}
  (k : kind) sg A (x : store k T) K : declared sg A -> valid A x -> e_gt_eps (exp_coeff (F := F) K) = false ->
  exists z, valid A z /\ forall fuel, K < fuel -> mv_exp (F := F) A fuel x = Ok z.
Proof. exact (fun D Hx HK => mv_exp_total sg A D x K (S K) Hx HK (Nat.lt_succ_diag_r K)). Qed.
Print Assumptions C68_exp.
Theorem C68_fft_exp {F} {RF : RingOps F} {DV : DivOps F} {EO : ExpOps F} {m : Mode} sg A (a : fftrepr F) K :
  declared sg A -> length sg < 63 -> repr_shape sg a -> e_gt_eps (exp_coeff (F := F) K) = false ->
  exists z, repr_shape sg z /\ forall fuel, K < fuel -> fr_exp A fuel a = Ok z.
Proof. exact (fun D Hl Ha HK => fr_exp_total sg A D Hl a K (S K) Ha HK (Nat.lt_succ_diag_r K)). Qed.
Print Assumptions C68_fft_exp.

(** In double precision that is the case after 18 steps, whatever the other primitives do. *)
Theorem C68_exp_f64 {T} {RT : RingOps T} {WT : NumLaws T} {NF : NormF T flt} {FF : FromF T flt} {m : Mode} {H : HashOrder}
  {EO : ExpOps flt} (k : kind) sg A (x : store k T) : (forall c, e_gt_eps c = f64_gt_eps c) -> declared sg A -> valid A x ->
  exists z, valid A z /\ forall fuel, 18 < fuel -> mv_exp (RF := F64) (DV := flt_div 53 1024) A fuel x = Ok z.
Proof. exact (fun HE D Hx => mv_exp_total (RF := F64) (DV := flt_div 53 1024) sg A D x 18 19 Hx (eq_trans (HE _) eps_18_f64) (Nat.lt_succ_diag_r 18)). Qed.
Print Assumptions C68_exp_f64.
Example C68_exp_f64_ex := C68_exp_f64 KDense sg_e3 (alg sg_e3) fx (fun c => eq_refl) d_e3 v_fx.
Theorem C68_fft_exp_f64 {m : Mode} {EO : ExpOps flt} sg A (a : fftrepr flt) : (forall c, e_gt_eps c = f64_gt_eps c) ->
  declared sg A -> length sg < 63 -> repr_shape (RF := F64) sg a ->
  exists z, repr_shape (RF := F64) sg z /\ forall fuel, 18 < fuel -> fr_exp (RF := F64) (DV := flt_div 53 1024) A fuel a = Ok z.
Proof. exact (fun HE D Hl Ha => fr_exp_total (RF := F64) (DV := flt_div 53 1024) sg A D Hl a 18 19 Ha (eq_trans (HE _) eps_18_f64) (Nat.lt_succ_diag_r 18)). Qed.
Print Assumptions C68_fft_exp_f64.

(** On the scalar 1 the result is 6121026514868074 * 2^-51, the double after the one nearest to e; a NaN
    coefficient spreads over the result; 18 steps are needed. *)
Example C68_exp_ex : let A := alg sg_e3 in let one : store KDense flt := mkArr 3 [fz 1; FZ; FZ; FZ; FZ; FZ; FZ; FZ] in
  let x : store KDense flt := mkArr 3 [fz 1; FNaN; FZ; fz 2; FZ; FZ; FZ; FZ] in
  (forall c, e_gt_eps c = f64_gt_eps c) /\ valid A one /\ valid A x /\
  (z <- mv_exp (F := flt) A 19 one ;; mv_get_by_idx z 0) = Ok (FFin false 6121026514868074 (-51)) /\
  mv_exp (F := flt) A 18 one = Panic /\ (z <- mv_exp (F := flt) A 19 x ;; mv_get_by_idx z 0) = Ok FNaN.
Proof. cbv zeta. split; [reflexivity|]. split; [vld|]. split; [vld|]. repeat split; vm_compute; reflexivity. Qed.
Example C68_fft_exp_ex : repr_shape sg_e3 fr1 /\ ok_b (z <- fr_exp (F := flt) (alg sg_e3) 19 fr1 ;; Ok (Nat.eqb (t_nr z) 4)) = true.
Proof. split; [exact s_fr1|]. vm_compute. reflexivity. Qed.
