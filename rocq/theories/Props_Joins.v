(** Property C84: intersections of hyperplanes and joins of points in projective geometric
    algebra.  An equation [a0; ...; an] is that of the hyperplane a0 x0 + ... + a{n-1} x{n-1} + an
    = 0 ([equation]); [coeffs] reads the equation off a vector. *)
From Verif Require Import Ex_Joins Spec_Joins P_Joins2.
From Coq Require Import QArith.
Local Open Scope nat_scope.

(** C84. The outer product of n hyperplanes, where it is a proper point, is the one point that
    they have in common; where it is neither a proper point nor zero they have none. *)
Theorem C84_intersection {T} {RO : RingOps T} {L : RingLaws T} {CL : CommLaws T} {DV : DivOps T} {FL : FieldLaws T} {SQ : SqrtOps T} {SQL : SqrtLaws T} {FRl : FormallyReal T}
  {m : Mode} {H : HashOrder} (k : kind) sg A n (l : list (list T)) :
  impl_pga sg = Some n -> declared sg A -> supports k A -> k <> KQuat ->
  length l = n -> Forall (fun a => length a = n + 1 /\ nonzero a) l ->
  exists (hs : list (store k T)) x, mapM (pga_hyperplane A) l = Ok hs /\ prod_list (k_wedge k A) A hs = Ok x /\ valid A x /\ of_grade A n x /\
    (is_point A n x -> exists p, pga_extract_point A n x = Ok p /\ length p = n /\
       forall q, length q = n -> (Forall (fun a => equation a q = r0) l <-> q = p)) /\
    (~ is_point A n x -> mv_is_zero x = false -> forall q, length q = n -> ~ Forall (fun a => equation a q = r0) l).
Proof. exact (fun HP D Hs Hk => c84_intersection k sg A n HP D Hs Hk l). Qed.
Print Assumptions C84_intersection.
Example C84_intersection_ex := C84_intersection KDense sg_pga (alg sg_pga) 2 lines eq_refl d_pga I ltac:(discriminate) eq_refl lines_all.
Example C84_parallel_ex := C84_intersection KDense sg_pga (alg sg_pga) 2 parallels eq_refl d_pga I ltac:(discriminate) eq_refl parallels_all.
(** x = 1 and x + 2 y + 5 = 0 meet in (1, -3). *)
Example C84_point_ex :
  match (hs <- mapM (pga_hyperplane (S := store KDense Qc) (alg sg_pga)) lines ;; x <- prod_list (k_wedge KDense (alg sg_pga)) (alg sg_pga) hs ;; pga_extract_point (alg sg_pga) 2 x) with Ok p => map this p | _ => [] end = [(1 # 1)%Q; ((-3) # 1)%Q].
Proof. vm_compute. reflexivity. Qed.

(** The regressive product of n proper points is a vector whose equation holds at all of them;
    unless it vanishes, its multiples are the only such equations. *)
Theorem C84_join {T} {RO : RingOps T} {L : RingLaws T} {CL : CommLaws T} {DV : DivOps T} {FL : FieldLaws T}
  {m : Mode} {H : HashOrder} (k : kind) sg A n (x : store k T) xs (ps : list (list T)) :
  impl_pga sg = Some n -> declared sg A -> k <> KQuat -> radd (r1 : T) r1 <> r0 ->
  S (length xs) = n -> Forall (is_point A n) (x :: xs) -> mapM (pga_extract_point A n) (x :: xs) = Ok ps ->
  exists j, foldM (k_meet k A) xs x = Ok j /\ valid A j /\ of_grade A 1 j /\ Forall (fun p => equation (coeffs n j) p = r0) ps /\
    (mv_is_zero j = false -> forall a, length a = n + 1 -> Forall (fun p => equation a p = r0) ps -> exists t, a = map (rmul t) (coeffs n j)).
Proof. exact (fun HP D Hk two => c84_join k sg A n HP D Hk two x xs ps). Qed.
Print Assumptions C84_join.
Example C84_join_ex := C84_join KDense sg_pga (alg sg_pga) 2 origin [pnt] _ eq_refl d_pga ltac:(discriminate) two_qc eq_refl two_points two_crd.
(** The line through the origin and (2, -3) is 3 x + 2 y = 0 (up to the weight of the points). *)
Example C84_line_ex :
  match foldM (k_meet KDense (alg sg_pga)) [pnt] origin with Ok j => map this (coeffs 2 j) | _ => [] end = [((-6) # 1)%Q; ((-4) # 1)%Q; (0 # 1)%Q].
Proof. vm_compute. reflexivity. Qed.
