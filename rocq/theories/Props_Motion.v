(** Property C83: motions of projective geometric algebra.  A proper point is a multivector of
    grade n whose coefficient of e1...en is not zero ([is_point]); the origin is one. *)
From Verif Require Import Ex_Motion Spec_Motion P_Motion2.
From Coq Require Import QArith.
Local Open Scope nat_scope.

(** C83. What the constructor builds is a proper point. *)
Theorem C83_points {T} {RO : RingOps T} {L : RingLaws T} {CL : CommLaws T} {DV : DivOps T} {FL : FieldLaws T} {SQ : SqrtOps T} {SQL : SqrtLaws T} {FRl : FormallyReal T}
  {m : Mode} {H : HashOrder} (k : kind) sg A n (p : list T) :
  impl_pga sg = Some n -> declared sg A -> supports k A -> length p = n -> nonzero p ->
  exists x : store k T, pga_point A p = Ok x /\ is_point A n x /\ pga_extract_point A n x = Ok p.
Proof. exact (fun HP D Hs Hl Hn => c83_points k sg A n HP D Hs p Hl Hn). Qed.
Print Assumptions C83_points.
Example C83_points_ex := C83_points KDense sg_pga (alg sg_pga) 2 [qc 3 1; qc (-1) 2] eq_refl d_pga I eq_refl ltac:(left; discriminate).

(** A product of hyperplanes reflects every proper point in each of them, the last one first. *)
Theorem C83_reflections {T} {RO : RingOps T} {L : RingLaws T} {CL : CommLaws T} {DV : DivOps T} {FL : FieldLaws T} {SQ : SqrtOps T} {SQL : SqrtLaws T} {FRl : FormallyReal T}
  {m : Mode} {H : HashOrder} (k : kind) sg A n (l : list (list T)) (x : store k T) (p : list T) :
  impl_pga sg = Some n -> declared sg A -> supports k A ->
  Forall (fun a => length a = S n /\ nonzero (firstn n a)) l ->
  is_point A n x -> pga_extract_point A n x = Ok p ->
  exists hs s y, mapM (pga_hyperplane A) l = Ok hs /\ prod_list (mv_mul A) A hs = Ok s /\
    transform A s x = Ok y /\ is_point A n y /\ pga_extract_point A n y = Ok (fold_right reflected p l).
Proof. exact (fun HP D Hs => c83_reflections k sg A n HP D Hs l x p). Qed.
Print Assumptions C83_reflections.
Example C83_reflections_ex := C83_reflections KDense sg_pga (alg sg_pga) 2 lines pnt _ eq_refl d_pga I lines_ok pnt_point pnt_crd.
Example C83_pnt_ex : match pga_extract_point (alg sg_pga) 2 pnt with Ok l => map this l | _ => [] end = [(2 # 1)%Q; ((-3) # 1)%Q].
Proof. vm_compute. reflexivity. Qed.
(** (2, -3) in x = 1 is (0, -3); in x + 2 y + 5 = 0 it is (2 - 2/5, -3 - 4/5). *)
Example C83_reflected_ex : map this (reflected [qc 1 1; qc 0 1; qc (-1) 1] [qc 2 1; qc (-3) 1]) = [(0 # 1)%Q; ((-3) # 1)%Q] /\
  map this (reflected [qc 1 1; qc 2 1; qc 5 1] [qc 2 1; qc (-3) 1]) = [(8 # 5)%Q; ((-19) # 5)%Q].
Proof. split; vm_compute; reflexivity. Qed.

(** Products of vectors move points without changing distances. *)
Theorem C83_motion {T} {RO : RingOps T} {L : RingLaws T} {CL : CommLaws T} {DV : DivOps T} {FL : FieldLaws T}
  {m : Mode} {H : HashOrder} (k : kind) sg A n (vs : list (store k T)) s (q : T) (x y : store k T) :
  impl_pga sg = Some n -> declared sg A -> supports k A -> radd (r1 : T) r1 <> r0 ->
  versor A vs s q -> is_point A n x -> is_point A n y ->
  exists px py x' y' px' py', pga_extract_point A n x = Ok px /\ pga_extract_point A n y = Ok py /\
    transform A s x = Ok x' /\ transform A s y = Ok y' /\ is_point A n x' /\ is_point A n y' /\
    pga_extract_point A n x' = Ok px' /\ pga_extract_point A n y' = Ok py' /\ dist2 px' py' = dist2 px py.
Proof. exact (fun HP D Hs two => c83_motion k sg A n HP D Hs two vs s q x y). Qed.
Print Assumptions C83_motion.
Example C83_motion_ex := C83_motion KDense sg_pga (alg sg_pga) 2 [ln1; ln2] mot _ origin pnt eq_refl d_pga I two_qc mot_versor origin_point pnt_point.
Example C83_dist2_ex : this (dist2 [qc 0 1; qc 0 1] [qc 2 1; qc (-3) 1]) = (13 # 1)%Q.
Proof. vm_compute. reflexivity. Qed.

(** Translating any proper point, the origin included. *)
Theorem C83_translation {T} {RO : RingOps T} {L : RingLaws T} {CL : CommLaws T} {DV : DivOps T} {FL : FieldLaws T} {FRl : FormallyReal T}
  {m : Mode} {H : HashOrder} (k : kind) sg A n (x : store k T) (p d : list T) :
  impl_pga sg = Some n -> declared sg A -> supports k A -> length d = n -> is_point A n x -> pga_extract_point A n x = Ok p ->
  exists t y, pga_translation A d = Ok t /\ Spec_PGA.sandwich A t x = Ok y /\ is_point A n y /\ pga_extract_point A n y = Ok (vadd p d).
Proof. exact (fun HP D Hs => c83_translation k sg A n HP D Hs x p d). Qed.
Print Assumptions C83_translation.
Example C83_translation_ex := C83_translation KDense sg_pga (alg sg_pga) 2 origin _ [qc 4 1; qc (-1) 1] eq_refl d_pga I eq_refl origin_point origin_crd.

(** A point lies in a hyperplane exactly if their outer product vanishes, before and after a
    common transformation. *)
Theorem C83_incidence {T} {RO : RingOps T} {L : RingLaws T} {CL : CommLaws T} {DV : DivOps T} {FL : FieldLaws T} {SQ : SqrtOps T} {SQL : SqrtLaws T} {FRl : FormallyReal T}
  {m : Mode} {H : HashOrder} (k : kind) sg A n (x : store k T) (p a : list T) :
  impl_pga sg = Some n -> declared sg A -> supports k A -> k <> KQuat ->
  is_point A n x -> pga_extract_point A n x = Ok p -> length a = S n -> nonzero a ->
  exists h z, pga_hyperplane A a = Ok h /\ k_wedge k A h x = Ok z /\ (mv_is_zero z = true <-> equation a p = r0) /\
  forall vs s q, versor A vs s q ->
    exists h' x' z', transform A s h = Ok h' /\ transform A s x = Ok x' /\ k_wedge k A h' x' = Ok z' /\ (mv_is_zero z' = true <-> equation a p = r0).
Proof. exact (fun HP D Hs => c83_incidence k sg A n HP D Hs x p a). Qed.
Print Assumptions C83_incidence.
Example C83_incidence_ex := C83_incidence KDense sg_pga (alg sg_pga) 2 pnt _ [qc 1 1; qc 2 1; qc 4 1] eq_refl d_pga I ltac:(discriminate) pnt_point pnt_crd eq_refl ltac:(left; discriminate).
