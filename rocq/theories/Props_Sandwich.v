(** C82: the sandwich s * x * s.revm() by a product s of vectors. *)
From Coq Require Import List.
Import ListNotations.
From Verif Require Import P_Sandwich5 Ex_Sandwich.
Local Open Scope nat_scope.

(** Each grade is kept, and the sandwich commutes with taking grade parts. *)
Theorem C82_grades {T} {RO : RingOps T} {L : RingLaws T} {CL : CommLaws T} {DV : DivOps T} {F : FieldLaws T} {m : Mode} {H : HashOrder}
  (k : kind) sg A (vs : list (store k T)) s n (x : store k T) g : declared sg A -> supports k A -> radd (r1 : T) r1 <> r0 ->
  versor A vs s n -> valid A x ->
  agree A (y <- sandwich A s x ;; mv_grade_extract A y g) (z <- mv_grade_extract A x g ;; sandwich A s z) /\
  (of_grade A g x -> exists y, sandwich A s x = Ok y /\ valid A y /\ of_grade A g y).
Proof. exact (fun D S two V => c82_grades k sg A D S two vs s n V x g). Qed.
Print Assumptions C82_grades.
Example C82_grades_ex : agree (alg sg_pga) (y <- sandwich (alg sg_pga) mot px ;; mv_grade_extract (alg sg_pga) y 2)
  (z <- mv_grade_extract (alg sg_pga) px 2 ;; sandwich (alg sg_pga) mot z).
Proof. exact (proj1 (C82_grades KDense sg_pga (alg sg_pga) _ mot _ px 2 d_pga pga_dense two_qc mot_versor px_valid)). Qed.
Example C82_grades_num : exists y, sandwich (alg sg_pga) mot ln1 = Ok y /\
  map this (arr_data y) = map this [qc 0 1; qc (-38) 25; qc (-41) 25; qc 0 1; qc (-27) 5; qc 0 1; qc 0 1; qc 0 1].
Proof. eexists. split; [reflexivity|]. vm_compute. reflexivity. Qed.

(** It is an automorphism of the ring of multivectors ... *)
Theorem C82_products {T} {RO : RingOps T} {L : RingLaws T} {CL : CommLaws T} {DV : DivOps T} {F : FieldLaws T} {m : Mode} {H : HashOrder}
  (k : kind) sg A (vs : list (store k T)) s n (x y : store k T) : declared sg A -> supports k A ->
  versor A vs s n -> valid A x -> valid A y ->
  agree A (p <- mv_mul A x y ;; sandwich A s p) (a <- sandwich A s x ;; b <- sandwich A s y ;; mv_mul A a b) /\
  agree A (p <- mv_add x y ;; sandwich A s p) (a <- sandwich A s x ;; b <- sandwich A s y ;; mv_add a b) /\
  agree A (e <- mv_one A ;; sandwich A s e) (mv_one A).
Proof. exact (fun D S V => c82_products k sg A D S vs s n V x y). Qed.
Print Assumptions C82_products.
Example C82_products_ex := C82_products KDense sg_pga (alg sg_pga) _ mot _ px py d_pga pga_dense mot_versor px_valid py_valid.

(** ... for the exterior product as well ... *)
Theorem C82_wedge {T} {RO : RingOps T} {L : RingLaws T} {CL : CommLaws T} {DV : DivOps T} {F : FieldLaws T} {m : Mode} {H : HashOrder}
  (k : kind) sg A (vs : list (store k T)) s n (x y : store k T) : declared sg A -> supports k A -> radd (r1 : T) r1 <> r0 ->
  versor A vs s n -> k <> KQuat -> valid A x -> valid A y ->
  agree A (p <- k_wedge k A x y ;; sandwich A s p) (a <- sandwich A s x ;; b <- sandwich A s y ;; k_wedge k A a b).
Proof. exact (fun D S two V => c82_wedge k sg A D S two vs s n V x y). Qed.
Print Assumptions C82_wedge.
Example C82_wedge_ex := C82_wedge KDense sg_pga (alg sg_pga) _ mot _ px py d_pga pga_dense two_qc mot_versor ltac:(discriminate) px_valid py_valid.

(** ... and, up to the sign of the determinant, for the regressive product, whatever the metric. *)
Theorem C82_regressive {T} {RO : RingOps T} {L : RingLaws T} {CL : CommLaws T} {DV : DivOps T} {F : FieldLaws T} {m : Mode} {H : HashOrder}
  (k : kind) sg A (vs : list (store k T)) s n (x y : store k T) : declared sg A -> supports k A -> radd (r1 : T) r1 <> r0 ->
  versor A vs s n -> k <> KQuat -> valid A x -> valid A y ->
  agree A (p <- k_meet k A x y ;; sandwich A s p)
    (a <- sandwich A s x ;; b <- sandwich A s y ;; q <- k_meet k A a b ;;
     if Nat.even (a_dim A) && Nat.odd (length vs) then mv_neg A q else Ok q).
Proof. exact (fun D S two V => c82_regressive k sg A D S two vs s n V x y). Qed.
Print Assumptions C82_regressive.
Example C82_regressive_ex := C82_regressive KDense sg_pga (alg sg_pga) _ mot _ px py d_pga pga_dense two_qc mot_versor ltac:(discriminate) px_valid py_valid.
(** A reflection of the Lorentzian plane changes the sign of a meet. *)
Example C82_regressive_sign : let A := alg sg_11 in let w : store KDense Qc := mkArr 2 [qc 0 1; qc 1 1; qc 3 1; qc 0 1] in
  exists y z : store KDense Qc, (p <- k_meet KDense A lv w ;; sandwich A lv p) = Ok y /\
    (a <- sandwich A lv lv ;; b <- sandwich A lv w ;; k_meet KDense A a b) = Ok z /\
    map this (arr_data y) = map this [qc (-5) 1; qc 0 1; qc 0 1; qc 0 1] /\ map this (arr_data z) = map this [qc 5 1; qc 0 1; qc 0 1; qc 0 1].
Proof. eexists. eexists. split; [reflexivity|]. split; [reflexivity|]. split; vm_compute; reflexivity. Qed.

(** Scalar part, magnitude, reverse and grade involution. *)
Theorem C82_metric {T} {RO : RingOps T} {L : RingLaws T} {CL : CommLaws T} {DV : DivOps T} {F : FieldLaws T} {m : Mode} {H : HashOrder}
  (k : kind) sg A (vs : list (store k T)) s n (x : store k T) : declared sg A -> supports k A -> radd (r1 : T) r1 <> r0 ->
  versor A vs s n -> valid A x ->
  (y <- sandwich A s x ;; mv_mag2 A y) = mv_mag2 A x /\
  (y <- sandwich A s x ;; mv_scalar_part y) = mv_scalar_part x /\
  agree A (y <- mv_rev A x ;; sandwich A s y) (y <- sandwich A s x ;; mv_rev A y) /\
  agree A (y <- mv_flip A x ;; sandwich A s y) (y <- sandwich A s x ;; mv_flip A y).
Proof. exact (fun D S two V => c82_metric k sg A D S two vs s n V x). Qed.
Print Assumptions C82_metric.
Example C82_metric_ex : (y <- sandwich (alg sg_pga) mot px ;; mv_mag2 (alg sg_pga) y) = mv_mag2 (alg sg_pga) px /\
  exists q, mv_mag2 (alg sg_pga) px = Ok q /\ this q = this (qc 41 4).
Proof.
  split; [exact (proj1 (C82_metric KDense sg_pga (alg sg_pga) _ mot _ px d_pga pga_dense two_qc mot_versor px_valid))|].
  eexists. split; [reflexivity|]. vm_compute. reflexivity.
Qed.

(** The unit pseudoscalar changes sign exactly for an odd number of vectors in even dimension. *)
Theorem C82_pseudoscalar {T} {RO : RingOps T} {L : RingLaws T} {CL : CommLaws T} {DV : DivOps T} {F : FieldLaws T} {m : Mode} {H : HashOrder}
  (k : kind) sg A (vs : list (store k T)) s n : declared sg A -> supports k A -> radd (r1 : T) r1 <> r0 ->
  versor A vs s n ->
  agree A (i <- unit_blade A (2 ^ N.of_nat (a_dim A) - 1) ;; sandwich A s i)
    (i <- unit_blade A (2 ^ N.of_nat (a_dim A) - 1) ;; if Nat.even (a_dim A) && Nat.odd (length vs) then mv_neg A i else Ok i).
Proof. exact (fun D S two V => c82_pseudoscalar k sg A D S two vs s n V). Qed.
Print Assumptions C82_pseudoscalar.
Example C82_pseudoscalar_ex := C82_pseudoscalar KDense sg_11 (alg sg_11) [lv] lv _ d_11 lor_dense two_qc lv_versor.

(** One vector: it stays in place and what is orthogonal to it is negated. *)
Theorem C82_reflection {T} {RO : RingOps T} {L : RingLaws T} {CL : CommLaws T} {DV : DivOps T} {F : FieldLaws T} {m : Mode} {H : HashOrder}
  (k : kind) sg A (v w : store k T) n : declared sg A ->
  valid A v -> of_grade A 1 v -> valid A w -> of_grade A 1 w -> mv_mag2 A v = Ok n -> n <> r0 ->
  agree A (sandwich A v v) (Ok v) /\
  (agree A (mv_mul A v w) (p <- mv_mul A w v ;; mv_neg A p) -> radd (r1 : T) r1 <> r0 -> agree A (sandwich A v w) (mv_neg A w)).
Proof. exact (fun D => c82_reflection k sg A D v w n). Qed.
Print Assumptions C82_reflection.
Example C82_reflection_ex : let w : store KDense Qc := mkArr 2 [qc 0 1; qc 1 1; qc 2 1; qc 0 1] in
  agree (alg sg_11) (sandwich (alg sg_11) lv lv) (Ok lv) /\ agree (alg sg_11) (sandwich (alg sg_11) lv w) (mv_neg (alg sg_11) w).
Proof.
  cbv zeta. destruct (C82_reflection KDense sg_11 (alg sg_11) lv (mkArr 2 [qc 0 1; qc 1 1; qc 2 1; qc 0 1] : store KDense Qc) (qc 3 1) d_11) as [E1 E2].
  - vld.
  - ofg4.
  - vld.
  - ofg4.
  - vm_compute. reflexivity.
  - discriminate.
  - split; [exact E1|]. apply E2; [|exact two_qc]. eexists. eexists. split; [vm_compute; reflexivity|]. split; [vm_compute; reflexivity|].
    split; [vld|]. split; [vld|]. split; [vm_compute; reflexivity|reflexivity].
Qed.

(** The sandwich by a product is the composition, and magnitudes multiply. *)
Theorem C82_compose {T} {RO : RingOps T} {L : RingLaws T} {CL : CommLaws T} {DV : DivOps T} {F : FieldLaws T} {m : Mode} {H : HashOrder}
  (k : kind) sg A (vs ws : list (store k T)) s t (n n' : T) (x : store k T) : declared sg A -> supports k A ->
  versor A vs s n -> versor A ws t n' -> valid A x ->
  exists p, mv_mul A s t = Ok p /\ mv_mag2 A p = Ok (rmul n n') /\
  agree A (sandwich A p x) (y <- sandwich A t x ;; sandwich A s y).
Proof. exact (fun D S => c82_compose k sg A D S vs ws s t n n' x). Qed.
Print Assumptions C82_compose.
Example C82_compose_ex := C82_compose KDense sg_pga (alg sg_pga) _ _ mot mot _ _ px d_pga pga_dense mot_versor mot_versor px_valid.
