(** Properties C48 - C51: projective geometric algebra.  The algebra has n generators squaring
    to +1 and then one null generator ([impl_pga sg = Some n]).  T stands for the exact real
    numbers; the square root only has to vanish nowhere but at zero. *)
From Verif Require Import Ex_PGA Spec_PGA P_PGA.
From Coq Require Import QArith.
Local Open Scope nat_scope.

(** C48. pga_point(p).pga_extract_point() = p, for every point but the origin. *)
Theorem C48_roundtrip_partial {T} {RO : RingOps T} {L : RingLaws T} {CL : CommLaws T} {DV : DivOps T} {FL : FieldLaws T} {SQ : SqrtOps T} {SQL : SqrtLaws T} {FRl : FormallyReal T}
  {m : Mode} {H : HashOrder} (k : kind) sg A n (p : list T) :
  impl_pga sg = Some n -> declared sg A -> supports k A -> length p = n -> nonzero p ->
  (x <- (pga_point A p : res (store k T)) ;; pga_extract_point A n x) = Ok p.
Proof. exact (fun HP D Hs Hl Hn => c48 k sg A n HP D Hs p Hl Hn). Qed.
Print Assumptions C48_roundtrip_partial.
(** The point (3, -1/2) of the plane. *)
Example C48_roundtrip_partial_ex := C48_roundtrip_partial KDense sg_pga (alg sg_pga) 2 [qc 3 1; qc (-1) 2] eq_refl d_pga I eq_refl ltac:(left; discriminate).

(** The origin: the constructor divides by zero.  The round trip still holds on dense and sparse
    multivectors if 0/(1/0) = 0/(-1/0) = 0, as for the infinities of IEEE 754. *)
Theorem C48_origin_partial {T} {RO : RingOps T} {L : RingLaws T} {DV : DivOps T} {SQ : SqrtOps T} {m : Mode} {H : HashOrder} (k : kind) sg A n :
  impl_pga sg = Some n -> declared sg A -> k <> KQuat ->
  r1 <> (r0 : T) -> rsqrt (r0 : T) = r0 -> rdiv r0 (rdiv r1 r0) = (r0 : T) -> rdiv r0 (rdiv (rneg r1) r0) = (r0 : T) ->
  (x <- (pga_point A (repeat r0 n) : res (store k T)) ;; pga_extract_point A n x) = Ok (repeat r0 n).
Proof. exact (fun HP D Hk => c48_origin k sg A n HP D Hk). Qed.
Print Assumptions C48_origin_partial.
Example C48_origin_partial_ex := C48_origin_partial (T := Qc) KSparse sg_pga (alg sg_pga) 2 eq_refl d_pga ltac:(discriminate) ltac:(discriminate) eq_refl
  (Qcmult_0_l _) (Qcmult_0_l _).

(** On quaternion storage, whose enumeration does not skip zeros, the origin of the projective
    line is lost (with the infinities and the not-a-number of IEEE 754). *)
Theorem C48_origin_quaternion_refuted : exists sg A (p : list ieee), impl_pga sg = Some 1 /\ declared sg A /\ supports KQuat A /\ length p = 1 /\
  (x <- (pga_point A p : res (store KQuat ieee)) ;; pga_extract_point A 1 x) = Ok [NaN].
Proof. exists [P1; N1], (alg [P1; N1]), [Fin 0%Q]. split; [reflexivity|]. split; [dcl|]. split; [reflexivity|]. split; [reflexivity|]. vm_compute. reflexivity. Qed.
Print Assumptions C48_origin_quaternion_refuted.

Example C48_ex : let p := [qc 3 1; qc (-1) 2] in let A := alg sg_pga in
  impl_pga sg_pga = Some 2 /\ declared sg_pga A /\ supports KDense A /\ nonzero p /\
  leq (x <- (pga_point A p : res (store KDense Qc)) ;; pga_extract_point A 2 x) p = true /\
  (x <- (pga_point A [Fin 0; Fin 0]%Q : res (store KDense ieee)) ;; pga_extract_point A 2 x) = Ok [Fin 0; Fin 0]%Q.
Proof.
  cbv zeta. split; [reflexivity|]. split; [dcl|]. split; [exact I|]. split; [left; intros E; apply (f_equal (fun q => Qc_eq_bool q (qc 0 1))) in E; vm_compute in E; discriminate|].
  split; vm_compute; reflexivity.
Qed.
Example C48_origin_ex : r1 <> (r0 : Qc) /\ rsqrt (r0 : Qc) = r0 /\ rdiv r0 (rdiv r1 r0) = (r0 : Qc) /\ rdiv r0 (rdiv (rneg r1) r0) = (r0 : Qc).
Proof.
  split; [apply one_neq_zero|]. split; [reflexivity|]. split; cbn; unfold Qcdiv; apply Qcmult_0_l.
Qed.

(** C49. Translating a point p (not the origin) by d gives p + d. *)
Theorem C49_translates_partial {T} {RO : RingOps T} {L : RingLaws T} {CL : CommLaws T} {DV : DivOps T} {FL : FieldLaws T} {SQ : SqrtOps T} {SQL : SqrtLaws T} {FRl : FormallyReal T}
  {m : Mode} {H : HashOrder} (k : kind) sg A n (p d : list T) :
  impl_pga sg = Some n -> declared sg A -> supports k A -> length p = n -> length d = n -> nonzero p ->
  (x <- (pga_point A p : res (store k T)) ;; t <- pga_translation A d ;; y <- sandwich A t x ;; pga_extract_point A n y) = Ok (vadd p d).
Proof. exact (fun HP D Hs Hl Hd Hn => c49 k sg A n HP D Hs p d Hl Hd Hn). Qed.
Print Assumptions C49_translates_partial.
Example C49_translates_partial_ex := C49_translates_partial KDense sg_pga (alg sg_pga) 2 [qc 3 1; qc (-1) 2] [qc 4 1; qc 0 1] eq_refl d_pga I eq_refl eq_refl ltac:(left; discriminate).

(** t~ t = 1. *)
Theorem C49_inverse {T} {RO : RingOps T} {L : RingLaws T} {CL : CommLaws T} {DV : DivOps T} {FL : FieldLaws T} {FRl : FormallyReal T}
  {m : Mode} {H : HashOrder} (k : kind) sg A n (d : list T) :
  impl_pga sg = Some n -> declared sg A -> supports k A -> length d = n ->
  agree A (t <- (pga_translation A d : res (store k T)) ;; r <- mv_rev A t ;; mv_mul A r t) (mv_one A).
Proof. exact (fun HP D Hs Hd => c49_inverse k sg A n HP D Hs d Hd). Qed.
Print Assumptions C49_inverse.
Example C49_inverse_ex := C49_inverse KSparse sg_pga (alg sg_pga) 2 [qc 4 1; qc (-2) 3] eq_refl d_pga I eq_refl.

(** The product of two translations is the translation by the sum. *)
Theorem C49_compose {T} {RO : RingOps T} {L : RingLaws T} {CL : CommLaws T} {DV : DivOps T} {FL : FieldLaws T} {FRl : FormallyReal T}
  {m : Mode} {H : HashOrder} (k : kind) sg A n (d1 d2 : list T) :
  impl_pga sg = Some n -> declared sg A -> supports k A -> length d1 = n -> length d2 = n ->
  agree A (t1 <- (pga_translation A d1 : res (store k T)) ;; t2 <- pga_translation A d2 ;; mv_mul A t1 t2) (pga_translation A (vadd d1 d2)).
Proof. exact (fun HP D Hs H1 H2 => c49_compose k sg A n HP D Hs d1 d2 H1 H2). Qed.
Print Assumptions C49_compose.
Example C49_compose_ex := C49_compose KSparse sg_pga (alg sg_pga) 2 [qc 4 1; qc (-2) 3] [qc 1 1; qc 5 1] eq_refl d_pga I eq_refl eq_refl.

(** The "faster exp" is the exponential of the bivector with coefficients d_i/2. *)
Theorem C49_exponential {T} {RO : RingOps T} {L : RingLaws T} {CL : CommLaws T} {DV : DivOps T} {FL : FieldLaws T} {FRl : FormallyReal T}
  {EO : ExpOps T} {EL : EpsLaws T} {ML : MaxLaws T} {NF : NormF T T} {FF : FromF T T} {FRM : FromLaws T T}
  {m : Mode} {H : HashOrder} (k : kind) sg A n (d : list T) (b : store k T) (c : T) fuel :
  impl_pga sg = Some n -> declared sg A -> supports k A -> length d = n ->
  mv_from_indexed_iter A (map (fun ic => (2 ^ N.of_nat n + 2 ^ N.of_nat (fst ic), rdiv (snd ic) (radd r1 r1))%N) (combine (seq 0 (length d)) d)) = Ok b ->
  mv_exp_scale A b = Ok c -> nat_f (e_usize c) = c -> 18 < fuel ->
  agree A (mv_exp (F := T) A fuel b) (pga_translation A d).
Proof. exact (fun HP D Hs Hd => c49_exp k sg A n HP D Hs d b c fuel Hd). Qed.
Print Assumptions C49_exponential.
(** d = (4, 0): the bivector is 2 e0 e2. *)
Example C49_exponential_ex : let A := alg sg_pga in
  exists b : store KDense Qc, mv_from_indexed_iter A [(5%N, rdiv (qc 4 1) (radd r1 r1)); (6%N, rdiv (qc 0 1) (radd r1 r1))] = Ok b /\
  agree A (mv_exp (F := Qc) A 19 b) (pga_translation A [qc 4 1; qc 0 1]).
Proof.
  cbv zeta. eexists. split; [reflexivity|].
  eapply (C49_exponential KDense sg_pga (alg sg_pga) 2 [qc 4 1; qc 0 1]); [reflexivity|exact d_pga|exact I|reflexivity|reflexivity|vm_compute; reflexivity|apply Qc_is_canon; vm_compute; reflexivity|lia].
Qed.

(** The origin round-trips but cannot be translated: the coordinates become not-a-number. *)
Theorem C49_origin_refuted : exists sg A (p d : list ieee), impl_pga sg = Some 2 /\ declared sg A /\ length p = 2 /\ length d = 2 /\
  (x <- (pga_point A p : res (store KDense ieee)) ;; pga_extract_point A 2 x) = Ok p /\
  (x <- (pga_point A p : res (store KDense ieee)) ;; t <- pga_translation A d ;; y <- sandwich A t x ;; pga_extract_point A 2 y) = Ok [NaN; NaN].
Proof. exists sg_pga, (alg sg_pga), [Fin 0; Fin 0]%Q, [Fin 2; Fin 3]%Q. split; [reflexivity|]. split; [dcl|]. split; [reflexivity|]. split; [reflexivity|]. split; vm_compute; reflexivity. Qed.
Print Assumptions C49_origin_refuted.

Example C49_ex : let p := [qc 3 1; qc (-1) 2] in let d := [qc 4 1; qc 0 1] in let A := alg sg_pga in
  impl_pga sg_pga = Some 2 /\ declared sg_pga A /\ supports KDense A /\ nonzero p /\
  leq (x <- (pga_point A p : res (store KDense Qc)) ;; t <- pga_translation A d ;; y <- sandwich A t x ;; pga_extract_point A 2 y) [qc 7 1; qc (-1) 2] = true /\
  aeq (t <- (pga_translation A d : res (store KDense Qc)) ;; r <- mv_rev A t ;; mv_mul A r t) (mv_one A) = true /\
  aeq (pga_translation A d) (mv_one A) = false /\
  match mv_from_indexed_iter A [(5%N, qc 2 1); (6%N, qc 0 1)] : res (store KDense Qc) with
  | Ok b => match mv_exp_scale A b with Ok c => Qc_eq_bool (nat_f (e_usize c)) c && aeq (mv_exp (F := Qc) A 19 b) (pga_translation A d) | _ => false end | _ => false end = true.
Proof.
  cbv zeta. split; [reflexivity|]. split; [dcl|]. split; [exact I|]. split; [left; intros E; apply (f_equal (fun q => Qc_eq_bool q (qc 0 1))) in E; vm_compute in E; discriminate|].
  repeat split; vm_compute; reflexivity.
Qed.

(** C50. Wrong lengths: pga_point and pga_hyperplane reject them, with InvalidShape. *)
Theorem C50_point {T} {RO : RingOps T} {L : RingLaws T} {CL : CommLaws T} {DV : DivOps T} {FL : FieldLaws T} {SQ : SqrtOps T} {SQL : SqrtLaws T} {FRl : FormallyReal T}
  {m : Mode} {H : HashOrder} (k : kind) sg A n (p : list T) :
  impl_pga sg = Some n -> declared sg A -> supports k A ->
  (length p <> n -> (pga_point A p : res (store k T)) = Err InvalidShape) /\
  (length p = n -> nonzero p -> exists x : store k T, pga_point A p = Ok x /\ valid A x).
Proof. exact (fun HP D Hs => conj (c50_point k sg A n HP D Hs p) (c50_point_ok k sg A n HP D p Hs)). Qed.
Print Assumptions C50_point.
Example C50_point_ex := C50_point KDense sg_pga (alg sg_pga) 2 [qc 3 1; qc (-1) 2; qc 1 1] eq_refl d_pga I.
Theorem C50_hyperplane {T} {RO : RingOps T} {L : RingLaws T} {CL : CommLaws T} {DV : DivOps T} {FL : FieldLaws T} {SQ : SqrtOps T} {SQL : SqrtLaws T} {FRl : FormallyReal T}
  {m : Mode} {H : HashOrder} (k : kind) sg A n (ec : list T) :
  impl_pga sg = Some n -> declared sg A -> supports k A ->
  (length ec <> S n -> (pga_hyperplane A ec : res (store k T)) = Err InvalidShape) /\
  (length ec = S n -> nonzero ec -> exists x : store k T, pga_hyperplane A ec = Ok x /\ valid A x).
Proof. exact (fun HP D Hs => conj (c50_plane k sg A n HP D Hs ec) (c50_plane_ok k sg A n HP D ec Hs)). Qed.
Print Assumptions C50_hyperplane.
Example C50_hyperplane_ex := C50_hyperplane KDense sg_pga (alg sg_pga) 2 [qc 3 1; qc (-1) 2; qc 1 1] eq_refl d_pga I.

(** pga_translation rejects exactly the lengths above n + 1. *)
Theorem C50_translation_partial {T} {RO : RingOps T} {L : RingLaws T} {DV : DivOps T} {m : Mode} {H : HashOrder} (k : kind) sg A n (d : list T) :
  impl_pga sg = Some n -> declared sg A -> supports k A ->
  (S n < length d -> (pga_translation A d : res (store k T)) = Err IndexOutOfBounds) /\
  (length d <= S n -> exists t : store k T, pga_translation A d = Ok t /\ valid A t).
Proof. exact (fun HP D Hs => conj (c50_trans k sg A n HP D Hs d) (c50_trans_ok k sg A n HP D d Hs)). Qed.
Print Assumptions C50_translation_partial.
Example C50_translation_partial_ex := C50_translation_partial KDense sg_pga (alg sg_pga) 2 [qc 3 1; qc (-1) 2; qc 1 1; qc 1 1] eq_refl d_pga I.
(** In particular it accepts missing coordinates and one surplus coordinate. *)
Theorem C50_translation_refuted {T} {RO : RingOps T} {L : RingLaws T} {DV : DivOps T} {m : Mode} {H : HashOrder} (k : kind) sg A n :
  impl_pga sg = Some n -> declared sg A -> supports k A ->
  exists d : list T, length d <> n /\ exists t : store k T, pga_translation A d = Ok t /\ valid A t.
Proof. exact (fun HP D Hs => c50_refuted k sg A n HP D Hs). Qed.
Print Assumptions C50_translation_refuted.

Example C50_ex : let A := alg sg_pga in impl_pga sg_pga = Some 2 /\ declared sg_pga A /\ supports KDense A /\
  (pga_point A [qc 1 1] : res (store KDense Qc)) = Err InvalidShape /\ (pga_point A [qc 1 1; qc 1 1; qc 1 1] : res (store KDense Qc)) = Err InvalidShape /\
  (pga_hyperplane A [qc 1 1; qc 1 1] : res (store KDense Qc)) = Err InvalidShape /\
  (pga_translation A [qc 1 1; qc 1 1; qc 1 1; qc 1 1] : res (store KDense Qc)) = Err IndexOutOfBounds /\
  aeq (pga_translation A [qc 2 1]) (Ok (mkArr 3 [qc 1 1; qc 0 1; qc 0 1; qc 0 1; qc 0 1; qc 1 1; qc 0 1; qc 0 1])) = true /\
  aeq (pga_translation A [qc 0 1; qc 0 1; qc 2 1]) (Ok (mkArr 3 [qc 1 1; qc 0 1; qc 0 1; qc 0 1; qc 1 1; qc 0 1; qc 0 1; qc 0 1])) = true.
Proof. cbv zeta. split; [reflexivity|]. split; [dcl|]. split; [exact I|]. repeat split; vm_compute; reflexivity. Qed.

(** C51. A point lies on a hyperplane exactly when their wedge product is zero. *)
Theorem C51_incidence {T} {RO : RingOps T} {L : RingLaws T} {CL : CommLaws T} {DV : DivOps T} {FL : FieldLaws T} {SQ : SqrtOps T} {SQL : SqrtLaws T} {FRl : FormallyReal T}
  {m : Mode} {H : HashOrder} (k : kind) sg A n (ec p : list T) :
  impl_pga sg = Some n -> declared sg A -> k <> KQuat -> length ec = S n -> length p = n -> nonzero ec -> nonzero p ->
  exists z : store k T, (h <- pga_hyperplane A ec ;; x <- pga_point A p ;; k_wedge k A h x) = Ok z /\ valid A z /\
    (mv_is_zero z = true <-> equation ec p = r0).
Proof. exact (fun HP D Hk => c51' k sg A n HP D ec p Hk). Qed.
Print Assumptions C51_incidence.

Example C51_ex : let A := alg sg_pga in let ec := [qc 1 1; qc 1 1; qc (-6) 1] in
  impl_pga sg_pga = Some 2 /\ declared sg_pga A /\
  Qc_eq_bool (equation ec [qc 3 1; qc 3 1]) (qc 0 1) = true /\
  match (h <- pga_hyperplane A ec ;; x <- pga_point A [qc 3 1; qc 3 1] ;; k_wedge KDense A h x : res (store KDense Qc)) with Ok z => mv_is_zero z | _ => false end = true /\
  match (h <- pga_hyperplane A ec ;; x <- pga_point A [qc 3 1; qc 4 1] ;; k_wedge KDense A h x : res (store KDense Qc)) with Ok z => mv_is_zero z | _ => true end = false.
Proof. cbv zeta. split; [reflexivity|]. split; [dcl|]. repeat split; vm_compute; reflexivity. Qed.
