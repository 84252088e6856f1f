(** Properties C16 - C32: products, duals, involutions, powers, division, quaternions.
    Every theorem holds for every declared signature, build mode [m], hash order [H] and
    coefficient ring [T] (commutative or a field only where a [CommLaws] or [FieldLaws]
    argument says so); [k] ranges over the storages. *)
From Coq Require Import String.
From Coq Require Import List.
Import ListNotations.
From Verif Require Import Ex.
Local Open Scope nat_scope.

(** C16. Coefficient k of a*b is the sum over all blade pairs i xor j = k of
    sign(i,j) a_i b_j, the sign being that of the word product under the signature. *)
Theorem C16_mul_is_bilinear_blade_product {T} {RO : RingOps T} {L : RingLaws T} {m : Mode} {H : HashOrder}
  (k : kind) sg A (x y : store k T) : declared sg A -> valid A x -> valid A y ->
  gives A (mv_mul A x y) (spec_mul (sq sg) (a_dim A) (rd x) (rd y)).
Proof. exact (fun D => mul_spec_thm k sg A D x y). Qed.
Print Assumptions C16_mul_is_bilinear_blade_product.

Example C16_mul_is_bilinear_blade_product_ex : declared sg_e3 (alg sg_e3) /\ valid (alg sg_e3) x3 /\ valid (alg sg_e3) y3 /\
  mv_mul (alg sg_e3) x3 y3 = Ok (mkArr 3 [-5; -14; 3; 4; 6; 9; 13; 10])%Z /\
  mv_mul (alg sg_pga) x3 y3 = Ok (mkArr 3 [2; 4; -2; -2; 6; 9; 13; 10])%Z /\
  spec_mul (sq sg_pga) 3 (rd x3) (rd y3) 3 = (-2)%Z.
Proof. split; [exact d_e3|]. split; [exact v_x3|]. split; [exact v_y3|]. repeat split; reflexivity. Qed.

(** Associative, unital, distributive on both sides; no commutativity of T is assumed. *)
Theorem C16_ring_laws {T} {RO : RingOps T} {L : RingLaws T} {m : Mode} {H : HashOrder}
  (k : kind) sg A (x y z : store k T) : declared sg A -> valid A x -> valid A y -> valid A z ->
  agree A (p <- mv_mul A x y ;; mv_mul A p z) (q <- mv_mul A y z ;; mv_mul A x q) /\
  agree A (e <- mv_one A ;; mv_mul A e x) (Ok x) /\
  agree A (e <- mv_one A ;; mv_mul A x e) (Ok x) /\
  agree A (s <- mv_add y z ;; mv_mul A x s) (p <- mv_mul A x y ;; q <- mv_mul A x z ;; mv_add p q) /\
  agree A (s <- mv_add x y ;; mv_mul A s z) (p <- mv_mul A x z ;; q <- mv_mul A y z ;; mv_add p q).
Proof. exact (fun D => mul_ring_thm k sg A D x y z). Qed.
Print Assumptions C16_ring_laws.

Example C16_ring_laws_ex :
  (p <- mv_mul (alg sg_q) xq yq ;; mv_mul (alg sg_q) p xq) = (q <- mv_mul (alg sg_q) yq xq ;; mv_mul (alg sg_q) xq q) /\
  mv_mul (alg sg_q) xq yq = Ok (mkQ (-15) (-15) 15 15 : store KQuat Z)%Z /\ valid (alg sg_q) xq /\ valid (alg sg_q) yq.
Proof. repeat split; reflexivity. Qed.

(** C17. *)
Theorem C17_basis_relations {T} {RO : RingOps T} {L : RingLaws T} {m : Mode} {H : HashOrder}
  (k : kind) sg A : declared sg A -> supports k A ->
  exists l : list (store k T), mv_basis A = Ok l /\ length l = a_dim A /\
  (forall i e, nth_error l i = Some e ->
     agree A (mv_mul A e e) (mv_from_scalar A (zact (sq sg i) r1))) /\
  (forall i j e f, nth_error l i = Some e -> nth_error l j = Some f -> i <> j ->
     agree A (mv_mul A e f) (p <- mv_mul A f e ;; mv_neg A p)).
Proof. exact (basis_thm k sg A). Qed.
Print Assumptions C17_basis_relations.

Example C17_basis_relations_ex : declared sg_pga (alg sg_pga) /\ supports KDense (alg sg_pga) /\
  map (fun i => zact (sq sg_pga i) 1%Z) [0; 1; 2] = [1; 1; 0]%Z /\
  mv_basis (alg sg_pga) = Ok [mkArr 3 [0;1;0;0;0;0;0;0]; mkArr 3 [0;0;1;0;0;0;0;0]; mkArr 3 [0;0;0;0;1;0;0;0] : store KDense Z]%Z.
Proof. split; [exact d_pga|]. repeat split; reflexivity. Qed.

(** C18. The blade of index I is the product, and the wedge product, of the basis vectors
    in I from the highest down; taken upwards they give its reversal. *)
Theorem C18_blade_is_product_of_generators {T} {RO : RingOps T} {L : RingLaws T} {m : Mode} {H : HashOrder}
  (k : kind) sg A I : declared sg A -> supports k A -> (I < 2 ^ N.of_nat (a_dim A))%N ->
  exists l : list (store k T), mv_basis A = Ok l /\
  agree A (word_prod (mv_mul A) A l (gens (a_dim A) I)) (unit_blade A I) /\
  (k <> KQuat -> agree A (word_prod (k_wedge k A) A l (gens (a_dim A) I)) (unit_blade A I)) /\
  agree A (word_prod (mv_mul A) A l (rev (gens (a_dim A) I))) (b <- unit_blade A I ;; mv_rev A b).
Proof. exact (fun D => blade_thm k sg A D I). Qed.
Print Assumptions C18_blade_is_product_of_generators.

Example C18_blade_is_product_of_generators_ex : declared sg_sta (alg sg_sta) /\ supports KSparse (alg sg_sta) /\
  gens 4 11 = [3; 1; 0] /\ (11 < 2 ^ N.of_nat (a_dim (alg sg_sta)))%N.
Proof. split; [exact d_sta|]. repeat split; reflexivity. Qed.

(** Labels list the same generators in the same order. *)
Theorem C18_labels {m : Mode} sg A (nm : nat -> String.string) I :
  declared sg A -> (forall i, i < a_dim A -> a_name A i = Ok (nm i)) -> (I < 2 ^ N.of_nat (a_dim A))%N ->
  blade_label A I = Ok (join "^"%string (map nm (gens (a_dim A) I))) /\
  blade_label_rev A I = Ok (join "^"%string (map nm (rev (gens (a_dim A) I)))).
Proof. exact (fun D => label_thm A sg D nm I). Qed.
Print Assumptions C18_labels.

Example C18_labels_ex : blade_label (alg sg_sta) 11 = Ok "e3^e1^e0"%string /\ blade_label_rev (alg sg_sta) 11 = Ok "e0^e1^e3"%string /\
  a_name (alg sg_sta) 3 = Ok "e3"%string.
Proof. repeat split; reflexivity. Qed.

(** C19. Universal property: any elements g_i of any ring R satisfying the relations of the
    signature extend, over any homomorphism phi of the coefficients that commutes with
    them, to a ring homomorphism on multivectors. *)
Theorem C19_universal_property {R} {RO : RingOps R} {LR : RingLaws R} {T} {RT : RingOps T} {L : RingLaws T} {m : Mode} {H : HashOrder}
  (k : kind) sg A (g : nat -> R) (phi : T -> R) (x y : store k T) :
  declared sg A -> satisfies g sg -> scalars_hom g (length sg) phi -> valid A x -> valid A y ->
  let F := extend g (length sg) phi in
  (forall z, mv_mul A x y = Ok z -> F (rd z) = rmul (F (rd x)) (F (rd y))) /\
  (forall z, mv_add x y = Ok z -> F (rd z) = radd (F (rd x)) (F (rd y))) /\
  (forall z : store k T, mv_one A = Ok z -> F (rd z) = r1) /\
  (forall (l : list (store k T)) i e, mv_basis A = Ok l -> nth_error l i = Some e -> F (rd e) = g i).
Proof. exact (universal_thm k sg A g phi x y). Qed.
Print Assumptions C19_universal_property.

(** Cl(1) maps to the integers by e -> -1. *)
Example C19_universal_property_ex : satisfies (fun _ => (-1)%Z) [P1] /\ scalars_hom (fun _ => (-1)%Z) 1 (fun a : Z => a) /\
  extend (fun _ => (-1)%Z) 1 (fun a : Z => a) (rd (mkArr 1 [5; 3]%Z : store KDense Z)) = 2%Z.
Proof.
  split; [|split; [|reflexivity]].
  - split; [intros [|i] Hi; cbn [length] in Hi; [reflexivity|lia]|cbn [length]; intros; lia].
  - repeat split; intros; try reflexivity. apply (Z.mul_comm a (-1)).
Qed.

(** C20. *)
Theorem C20_wedge_is_exterior {T} {RO : RingOps T} {L : RingLaws T} {m : Mode} {H : HashOrder}
  (k : kind) sg A (x y : store k T) : declared sg A -> k <> KQuat -> valid A x -> valid A y ->
  gives A (k_wedge k A x y) (spec_mul q0 (a_dim A) (rd x) (rd y)).
Proof. exact (fun D => P_Props3.wedge_thm k sg A D x y). Qed.
Print Assumptions C20_wedge_is_exterior.

Example C20_wedge_is_exterior_ex : KDense <> KQuat /\ valid (alg sg_e3) x3 /\ valid (alg sg_e3) y3 /\
  k_wedge KDense (alg sg_e3) x3 y3 = Ok (mkArr 3 [0; 1; 1; -2; -2; 4; 4; 10])%Z.
Proof. split; [discriminate|]. split; [exact v_x3|]. split; [exact v_y3|]. reflexivity. Qed.

Theorem C20_wedge_laws {T} {RO : RingOps T} {L : RingLaws T} {m : Mode} {H : HashOrder}
  (k : kind) sg A (x y z : store k T) : declared sg A -> k <> KQuat -> valid A x -> valid A y -> valid A z ->
  agree A (p <- k_wedge k A x y ;; k_wedge k A p z) (q <- k_wedge k A y z ;; k_wedge k A x q) /\
  agree A (e <- mv_one A ;; k_wedge k A e x) (Ok x) /\
  agree A (e <- mv_one A ;; k_wedge k A x e) (Ok x) /\
  agree A (s <- mv_add y z ;; k_wedge k A x s) (p <- k_wedge k A x y ;; q <- k_wedge k A x z ;; mv_add p q) /\
  agree A (s <- mv_add x y ;; k_wedge k A s z) (p <- k_wedge k A x z ;; q <- k_wedge k A y z ;; mv_add p q).
Proof. exact (fun D => wedge_laws_thm k sg A D x y z). Qed.
Print Assumptions C20_wedge_laws.

Example C20_wedge_laws_ex : KSparse <> KQuat /\ valid (alg sg_e3) xs /\ valid (alg sg_e3) ys /\
  (exists p, k_wedge KSparse (alg sg_e3) xs ys = Ok p /\ mv_get_by_idx p 7 = Ok 3%Z).
Proof.
  split; [discriminate|]. split; [exact v_xs|]. split; [exact v_ys|]. eexists. split; reflexivity.
Qed.

(** For homogeneous x, y: the top grade of the geometric product. *)
Theorem C20_top_grade {T} {RO : RingOps T} {L : RingLaws T} {m : Mode} {H : HashOrder}
  (k : kind) sg A (x y : store k T) r s : declared sg A -> k <> KQuat -> valid A x -> valid A y ->
  of_grade A r x -> of_grade A s y ->
  agree A (k_wedge k A x y) (p <- mv_mul A x y ;; mv_grade_extract A p (r + s)).
Proof. exact (fun D => wedge_top_thm k sg A D x y r s). Qed.
Print Assumptions C20_top_grade.

Example C20_top_grade_ex : let v : store KSparse Z := mkSps 3 8 1 [(1%N, 2%Z); (4%N, 3%Z)] in
  valid (alg sg_e3) v /\ of_grade (alg sg_e3) 1 v.
Proof.
  split; [vlds|]. intros i Hi Hp. change (i < 8)%N in Hi.
  assert (E : i = 0%N \/ i = 1%N \/ i = 2%N \/ i = 3%N \/ i = 4%N \/ i = 5%N \/ i = 6%N \/ i = 7%N) by lia.
  repeat (destruct E as [-> |E]; [try reflexivity; exfalso; apply Hp; reflexivity|]). subst. reflexivity.
Qed.

(** v ^ v = 0 and graded commutativity, for commutative coefficients. *)
Theorem C20_vectors_square_to_zero {T} {RO : RingOps T} {L : RingLaws T} {CL : CommLaws T} {m : Mode} {H : HashOrder}
  (k : kind) sg A (x : store k T) : declared sg A -> k <> KQuat -> valid A x -> of_grade A 1 x ->
  agree A (k_wedge k A x x) (mv_zero A).
Proof. exact (fun D => wedge_vec_thm k sg A D x). Qed.
Print Assumptions C20_vectors_square_to_zero.
Example C20_vectors_square_to_zero_ex : let v : store KDense Z := mkArr 2 [0; 2; 5; 0]%Z in agree (alg sg_q) (k_wedge KDense (alg sg_q) v v) (mv_zero (alg sg_q)).
Proof.
  cbv zeta. apply (C20_vectors_square_to_zero KDense sg_q); [exact d_q|discriminate|vld|].
  intros i Hi Hp; change (i < 4)%N in Hi; assert (E : i = 0%N \/ i = 1%N \/ i = 2%N \/ i = 3%N) by lia;
    destruct E as [-> | [-> | [-> | -> ]]]; try reflexivity; exfalso; apply Hp; reflexivity.
Qed.

Theorem C20_graded_commutative {T} {RO : RingOps T} {L : RingLaws T} {CL : CommLaws T} {m : Mode} {H : HashOrder}
  (k : kind) sg A (x y : store k T) r s : declared sg A -> k <> KQuat -> valid A x -> valid A y ->
  of_grade A r x -> of_grade A s y ->
  agree A (k_wedge k A x y) (p <- k_wedge k A y x ;; if Nat.odd (r * s) then mv_neg A p else Ok p).
Proof. exact (fun D => wedge_comm_thm k sg A D x y r s). Qed.
Print Assumptions C20_graded_commutative.

Example C20_graded_commutative_ex : let v : store KDense Z := mkArr 2 [0; 2; 5; 0]%Z in let w : store KDense Z := mkArr 2 [0; 1; -1; 0]%Z in
  of_grade (alg sg_q) 1 v /\ of_grade (alg sg_q) 1 w /\ valid (alg sg_q) v /\ valid (alg sg_q) w /\
  k_wedge KDense (alg sg_q) v w = Ok (mkArr 2 [0; 0; 0; 7]%Z) /\ k_wedge KDense (alg sg_q) w v = Ok (mkArr 2 [0; 0; 0; -7]%Z) /\
  k_wedge KDense (alg sg_q) v v = Ok (mkArr 2 [0; 0; 0; 0]%Z).
Proof.
  cbv zeta. split; [|split; [|split; [vld|split; [vld|repeat split; reflexivity]]]].
  all: intros i Hi Hp; change (i < 4)%N in Hi; assert (E : i = 0%N \/ i = 1%N \/ i = 2%N \/ i = 3%N) by lia;
    destruct E as [-> | [-> | [-> | -> ]]]; try reflexivity; exfalso; apply Hp; reflexivity.
Qed.

(** C21. The recursive kernel on arrays of length 2^n: no panic, the left operand comes
    back unchanged, the result does not depend on the destination's old contents. *)
Theorem C21_wedge_kernel {T} {RO : RingOps T} {L : RingLaws T} n (a b dest : list T) :
  length a = 2 ^ n -> length b = 2 ^ n -> length dest = 2 ^ n ->
  exists r, wedge_impl (length a) a b dest = Ok (a, r) /\ length r = 2 ^ n /\
    forall k, (k < 2 ^ N.of_nat n)%N -> nth (N.to_nat k) r r0 =
      spec_mul q0 n (fun i => nth (N.to_nat i) a r0) (fun i => nth (N.to_nat i) b r0) k.
Proof. exact (wedge_impl_thm n a b dest). Qed.
Print Assumptions C21_wedge_kernel.

Example C21_wedge_kernel_ex : wedge_impl 8 (arr_data x3) (arr_data y3) [9; 9; 9; 9; 9; 9; 9; 9]%Z =
  Ok (arr_data x3, [0; 1; 1; -2; -2; 4; 4; 10]%Z).
Proof. reflexivity. Qed.

Theorem C21_fast_wedge_is_naive_wedge {T} {RO : RingOps T} {L : RingLaws T} {m : Mode} {H : HashOrder}
  sg A (x y : store KDense T) : declared sg A -> valid A x -> valid A y ->
  agree A (dense_wedge A x y) (naive_wedge A x y).
Proof. exact (dense_naive_thm sg A x y). Qed.
Print Assumptions C21_fast_wedge_is_naive_wedge.

(** Dimension 6 takes the fast branch. *)
Example C21_fast_wedge_is_naive_wedge_ex :
  let sg := [P1; P1; P1; M1; M1; N1] in
  let x : store KDense Z := mkArr 6 (map Z.of_nat (seq 1 64)) in
  declared sg (alg sg) /\ valid (alg sg) x /\ (a_dim (alg sg) <? 6) = false /\
  dense_wedge (alg sg) x x = naive_wedge (alg sg) x x.
Proof. cbv zeta. split; [dcl|]. split; [vld|]. split; vm_compute; reflexivity. Qed.

(** C22. *)
Theorem C22_meet_is_dual_wedge {T} {RO : RingOps T} {L : RingLaws T} {m : Mode} {H : HashOrder}
  (k : kind) sg A (x y : store k T) : declared sg A -> k <> KQuat -> valid A x -> valid A y ->
  agree A (k_meet k A x y) (u <- mv_dual A x ;; v <- mv_dual A y ;; w <- k_wedge k A u v ;; mv_undual A w).
Proof. exact (fun D => meet_thm k sg A D x y). Qed.
Print Assumptions C22_meet_is_dual_wedge.

Example C22_meet_is_dual_wedge_ex : valid (alg sg_e3) xs /\ valid (alg sg_e3) ys /\
  exists z, k_meet KSparse (alg sg_e3) xs ys = Ok z /\ mv_get_by_idx z 4 = Ok (-2)%Z /\ mv_get_by_idx z 5 = Ok 2%Z.
Proof. split; [exact v_xs|]. split; [exact v_ys|]. eexists. repeat split; reflexivity. Qed.

(** C23. *)
Theorem C23_dual_undual {T} {RO : RingOps T} {L : RingLaws T} {m : Mode} {H : HashOrder}
  (k : kind) sg A (x : store k T) : declared sg A -> valid A x ->
  agree A (u <- mv_dual A x ;; mv_undual A u) (Ok x) /\
  agree A (u <- mv_undual A x ;; mv_dual A u) (Ok x) /\
  gives A (u <- mv_dual A x ;; mv_dual A u) (fun i => msign (popcount i * (a_dim A - popcount i)) (rd x i)) /\
  gives A (mv_dual A x) (fun i => zact (csign q0 (a_dim A) i (N.lxor (2 ^ N.of_nat (a_dim A) - 1) i))
                                       (rd x (N.lxor (2 ^ N.of_nat (a_dim A) - 1) i))).
Proof. exact (fun D => dual_thm k sg A D x). Qed.
Print Assumptions C23_dual_undual.

Example C23_dual_undual_ex : valid (alg sg_e3) x3 /\
  mv_dual (alg sg_e3) x3 = Ok (mkArr 3 [7; 0; -5; 0; -3; 0; 2; 1]%Z) /\
  (u <- mv_dual (alg sg_q) (mkArr 2 [1; 2; 3; 4]%Z : store KDense Z) ;; mv_dual (alg sg_q) u) = Ok (mkArr 2 [1; -2; -3; 4]%Z).
Proof. split; [exact v_x3|]. split; reflexivity. Qed.

(** C24. As documented ("for any k-blade b, b.dual() * b is a pseudoscalar") the claim is
    false of every signature with two generators of different squares: the sum of those
    two basis vectors violates it. *)
Theorem C24_mixed_signature_refuted {m : Mode} sg A i j :
  declared sg A -> i < a_dim A -> j < a_dim A -> sq sg i <> sq sg j ->
  exists b : arr Z, valid A b /\ of_grade A 1 b /\ ~ pseudoscalar A (u <- mv_dual A b ;; mv_mul A u b).
Proof. exact (dual_mixed_thm sg A i j). Qed.
Print Assumptions C24_mixed_signature_refuted.

Example C24_mixed_signature_refuted_ex : declared sg_pga (alg sg_pga) /\ sq sg_pga 1 <> sq sg_pga 2 /\
  (u <- mv_dual (alg sg_11) (mkArr 2 [0; 1; 1; 0]%Z : store KDense Z) ;; mv_mul (alg sg_11) u (mkArr 2 [0; 1; 1; 0]%Z : store KDense Z)) = Ok (mkArr 2 [-2; 0; 0; 2]%Z).
Proof. split; [exact d_pga|]. split; [discriminate|reflexivity]. Qed.

(** What does hold: every decomposable element of a signature whose generators all have
    the same square, over a formally real field ... *)
Theorem C24_uniform_signature_partial {T} {RO : RingOps T} {L : RingLaws T} {CL : CommLaws T} {DV : DivOps T} {F : FieldLaws T}
  {m : Mode} {H : HashOrder} (k : kind) t n A (vs : list (store k T)) :
  formally_real T -> declared (repeat t n) A -> k <> KQuat -> Forall (valid A) vs -> Forall (of_grade A 1) vs ->
  pseudoscalar A (b <- prod_list (k_wedge k A) A vs ;; u <- mv_dual A b ;; mv_mul A u b) /\
  pseudoscalar A (b <- prod_list (k_wedge k A) A vs ;; u <- mv_undual A b ;; mv_mul A b u).
Proof. exact (dual_uniform_thm k t n A vs). Qed.
Print Assumptions C24_uniform_signature_partial.

Example C24_uniform_signature_partial_ex : formally_real Qc /\ declared (repeat P1 3) (alg sg_e3) /\
  valid (alg sg_e3) (mkArr 3 [qc 0 1; qc 1 2; qc 3 1; qc 0 1; qc 1 1; qc 0 1; qc 0 1; qc 0 1] : store KDense Qc).
Proof. split; [exact Qc_real|]. split; [exact d_e3|vld]. Qed.

(** ... and every multiple of a single basis blade, in any signature over any ring. *)
Theorem C24_basis_blade_partial {T} {RO : RingOps T} {L : RingLaws T} {m : Mode} {H : HashOrder} (k : kind) sg A I (x : store k T) :
  declared sg A -> (I < 2 ^ N.of_nat (a_dim A))%N -> valid A x ->
  (forall i, (i < 2 ^ N.of_nat (a_dim A))%N -> i <> I -> rd x i = r0) ->
  pseudoscalar A (u <- mv_dual A x ;; mv_mul A u x) /\ pseudoscalar A (u <- mv_undual A x ;; mv_mul A x u).
Proof. exact (dual_basis_thm k sg A I x). Qed.
Print Assumptions C24_basis_blade_partial.

Example C24_basis_blade_partial_ex : let x : store KDense Z := mkArr 3 [0; 0; 0; 5; 0; 0; 0; 0]%Z in
  valid (alg sg_e3) x /\ (u <- mv_dual (alg sg_e3) x ;; mv_mul (alg sg_e3) u x) = Ok (mkArr 3 [0; 0; 0; 0; 0; 0; 0; 25]%Z).
Proof. split; [vld|reflexivity]. Qed.

(** C25. *)
Theorem C25_rev_coefficients {T} {RO : RingOps T} {L : RingLaws T} {m : Mode} {H : HashOrder}
  (k : kind) A (x : store k T) : valid A x ->
  gives A (mv_rev A x) (fun i => msign (Nat.div2 (popcount i * (popcount i - 1))) (rd x i)) /\
  agree A (u <- mv_rev A x ;; mv_rev A u) (Ok x).
Proof. exact (rev_coef_thm k A x). Qed.
Print Assumptions C25_rev_coefficients.
Example C25_rev_coefficients_ex := C25_rev_coefficients KSparse (alg sg_e3) ys v_ys.

Theorem C25_rev_fixes_scalars_and_vectors {T} {RO : RingOps T} {L : RingLaws T} {m : Mode} {H : HashOrder}
  (k : kind) A (x : store k T) r : r <= 1 -> valid A x -> of_grade A r x ->
  agree A (mv_rev A x) (Ok x).
Proof. exact (rev_fix_thm k A x r). Qed.
Print Assumptions C25_rev_fixes_scalars_and_vectors.
Example C25_rev_fixes_ex : let v : store KDense Z := mkArr 2 [0; 2; 5; 0]%Z in agree (alg sg_q) (mv_rev (alg sg_q) v) (Ok v).
Proof.
  cbv zeta. apply (C25_rev_fixes_scalars_and_vectors KDense _ _ 1); [lia|vld|].
  intros i Hi Hp; change (i < 4)%N in Hi; assert (E : i = 0%N \/ i = 1%N \/ i = 2%N \/ i = 3%N) by lia;
    destruct E as [-> | [-> | [-> | -> ]]]; try reflexivity; exfalso; apply Hp; reflexivity.
Qed.

Theorem C25_rev_antiautomorphism {T} {RO : RingOps T} {L : RingLaws T} {CL : CommLaws T} {m : Mode} {H : HashOrder}
  (k : kind) sg A (x y : store k T) : declared sg A -> valid A x -> valid A y ->
  agree A (p <- mv_mul A x y ;; mv_rev A p) (u <- mv_rev A x ;; v <- mv_rev A y ;; mv_mul A v u).
Proof. exact (fun D => rev_mul_thm k sg A D x y). Qed.
Print Assumptions C25_rev_antiautomorphism.
Example C25_rev_antiautomorphism_ex := C25_rev_antiautomorphism KSparse sg_e3 (alg sg_e3) xs ys d_e3 v_xs v_ys.

Theorem C25_rev_additive {T} {RO : RingOps T} {L : RingLaws T} {m : Mode} {H : HashOrder}
  (k : kind) A (x y : store k T) : valid A x -> valid A y ->
  agree A (s <- mv_add x y ;; mv_rev A s) (u <- mv_rev A x ;; v <- mv_rev A y ;; mv_add u v).
Proof. exact (rev_add_thm k A x y). Qed.
Print Assumptions C25_rev_additive.

Example C25_rev_ex : valid (alg sg_e3) x3 /\ valid (alg sg_e3) y3 /\
  mv_rev (alg sg_e3) x3 = Ok (mkArr 3 [1; 2; 0; 3; 0; -5; 0; -7]%Z) /\
  (p <- mv_mul (alg sg_e3) x3 y3 ;; mv_rev (alg sg_e3) p) =
  (u <- mv_rev (alg sg_e3) x3 ;; v <- mv_rev (alg sg_e3) y3 ;; mv_mul (alg sg_e3) v u).
Proof. split; [exact v_x3|]. split; [exact v_y3|]. split; reflexivity. Qed.

(** With conjugation of the coefficients by any additive involutive anti-automorphism,
    revc reverses products even over non-commutative coefficients. *)
Theorem C25_revc_antiautomorphism {T} {RO : RingOps T} {L : RingLaws T} {CJ : ConjOps T} {m : Mode} {H : HashOrder}
  (k : kind) sg A (x y : store k T) : declared sg A -> anti_conj (rconj (T := T)) -> valid A x -> valid A y ->
  agree A (p <- mv_mul A x y ;; mv_revc A p) (u <- mv_revc A x ;; v <- mv_revc A y ;; mv_mul A v u) /\
  agree A (u <- mv_revc A x ;; mv_revc A u) (Ok x).
Proof. exact (fun D => revc_mul_thm k sg A D x y). Qed.
Print Assumptions C25_revc_antiautomorphism.

Example C25_revc_antiautomorphism_ex : anti_conj (rconj (T := Z)).
Proof. repeat split; intros; try reflexivity. apply Z.mul_comm. Qed.

(** C26. *)
Theorem C26_flip {T} {RO : RingOps T} {L : RingLaws T} {m : Mode} {H : HashOrder}
  (k : kind) A (x : store k T) : valid A x ->
  gives A (mv_flip A x) (fun i => msign (popcount i) (rd x i)) /\
  agree A (u <- mv_flip A x ;; mv_flip A u) (Ok x) /\
  agree A (mv_flip A x) (mv_flip_subspace A x (2 ^ N.of_nat (a_dim A) - 1)).
Proof. exact (flip_coef_thm k A x). Qed.
Print Assumptions C26_flip.
Example C26_flip_ex0 := C26_flip KSparse (alg sg_e3) ys v_ys.

Theorem C26_flip_automorphism {T} {RO : RingOps T} {L : RingLaws T} {m : Mode} {H : HashOrder}
  (k : kind) sg A (x y : store k T) : declared sg A -> valid A x -> valid A y ->
  agree A (p <- mv_mul A x y ;; mv_flip A p) (u <- mv_flip A x ;; v <- mv_flip A y ;; mv_mul A u v) /\
  agree A (s <- mv_add x y ;; mv_flip A s) (u <- mv_flip A x ;; v <- mv_flip A y ;; mv_add u v).
Proof. exact (fun D => flip_mul_thm k sg A D x y). Qed.
Print Assumptions C26_flip_automorphism.
Example C26_flip_automorphism_ex := C26_flip_automorphism KSparse sg_e3 (alg sg_e3) xs ys d_e3 v_xs v_ys.

Theorem C26_flip_subspace {T} {RO : RingOps T} {L : RingLaws T} {m : Mode} {H : HashOrder}
  (k : kind) A (x : store k T) mask : valid A x ->
  gives A (mv_flip_subspace A x mask) (fun i => msign (popcount (N.land i mask)) (rd x i)) /\
  agree A (u <- mv_flip_subspace A x mask ;; mv_flip_subspace A u mask) (Ok x).
Proof. exact (flips_coef_thm k A x mask). Qed.
Print Assumptions C26_flip_subspace.
Example C26_flip_subspace_ex := C26_flip_subspace KSparse (alg sg_e3) ys 5 v_ys.

Theorem C26_flip_subspace_automorphism {T} {RO : RingOps T} {L : RingLaws T} {m : Mode} {H : HashOrder}
  (k : kind) sg A (x y : store k T) mask : declared sg A -> valid A x -> valid A y ->
  agree A (p <- mv_mul A x y ;; mv_flip_subspace A p mask)
          (u <- mv_flip_subspace A x mask ;; v <- mv_flip_subspace A y mask ;; mv_mul A u v) /\
  agree A (s <- mv_add x y ;; mv_flip_subspace A s mask)
          (u <- mv_flip_subspace A x mask ;; v <- mv_flip_subspace A y mask ;; mv_add u v).
Proof. exact (fun D => flips_mul_thm k sg A D x y mask). Qed.
Print Assumptions C26_flip_subspace_automorphism.

Example C26_flip_ex : valid (alg sg_pga) x3 /\
  mv_flip (alg sg_pga) x3 = Ok (mkArr 3 [1; -2; 0; -3; 0; 5; 0; -7]%Z) /\
  mv_flip_subspace (alg sg_pga) x3 5 = Ok (mkArr 3 [1; -2; 0; 3; 0; 5; 0; 7]%Z).
Proof. split; [exact v_x3p|]. split; reflexivity. Qed.

(** C27. *)
Theorem C27_grade_decomposition {T} {RO : RingOps T} {L : RingLaws T} {m : Mode} {H : HashOrder}
  (k : kind) A (x : store k T) r : valid A x ->
  gives A (mv_grade_extract A x r) (fun i => if Nat.eqb (popcount i) r then rd x i else r0) /\
  agree A (g <- mv_grade_extract A x r ;; mv_grade_extract A g r) (mv_grade_extract A x r) /\
  (forall s, s <> r -> agree A (g <- mv_grade_extract A x r ;; mv_grade_extract A g s) (mv_zero A)) /\
  agree A (z <- mv_zero A ;; foldM (fun acc r => g <- mv_grade_extract A x r ;; mv_add acc g) (seq 0 (S (a_dim A))) z) (Ok x).
Proof. exact (P_Props4.grade_thm k A x r). Qed.
Print Assumptions C27_grade_decomposition.
Example C27_grade_decomposition_ex := C27_grade_decomposition KSparse (alg sg_e3) ys 2 v_ys.

Theorem C27_grade_extract_as {T} {RO : RingOps T} {W : NumLaws T} {m : Mode} {H : HashOrder}
  (k k' : kind) sg A (x : store k T) r : declared sg A -> supports k' A -> valid A x ->
  same A (mv_grade_extract A x r) (mv_grade_extract_as A x r : res (store k' T)).
Proof. exact (grade_as_thm k k' sg A x r). Qed.
Print Assumptions C27_grade_extract_as.
Example C27_grade_extract_as_ex := C27_grade_extract_as KSparse KDense sg_e3 (alg sg_e3) ys 2 d_e3 I v_ys.

Theorem C27_sparse_grades {T} {RO : RingOps T} {W : NumLaws T} {m : Mode} {H : HashOrder}
  sg A (x : store KSparse T) gs : declared sg A -> valid A x ->
  gives A (sparse_grades_extract A x gs) (fun i => if existsb (Nat.eqb (popcount i)) gs then rd x i else r0) /\
  gives A (Ok (sparse_retain_grades x gs) : res (store KSparse T)) (fun i => if existsb (Nat.eqb (popcount i)) gs then rd x i else r0).
Proof. exact (grades_thm sg A x gs). Qed.
Print Assumptions C27_sparse_grades.
Example C27_sparse_grades_ex := C27_sparse_grades sg_e3 (alg sg_e3) ys [0; 2] d_e3 v_ys.

Theorem C27_filter {T} {RO : RingOps T} {W : NumLaws T} {m : Mode} {H : HashOrder}
  (k : kind) sg A (x : store k T) (q : N -> T -> bool) : declared sg A -> k <> KQuat -> valid A x ->
  gives A (k_filter k A q x) (fun i => if q i (rd x i) then rd x i else r0).
Proof. exact (filter_thm k sg A x q). Qed.
Print Assumptions C27_filter.

Example C27_grade_ex : valid (alg sg_e3) x3 /\
  mv_grade_extract (alg sg_e3) x3 2 = Ok (mkArr 3 [0; 0; 0; -3; 0; 5; 0; 0]%Z) /\
  k_filter KDense (alg sg_e3) (fun i c => (0 <? c)%Z) x3 = Ok (mkArr 3 [1; 2; 0; 0; 0; 5; 0; 7]%Z) /\
  (exists z, sparse_grades_extract (alg sg_e3) ys [0; 2] = Ok z /\ sps_map z = [(6%N, 1%Z); (0%N, (-4)%Z)]).
Proof. split; [exact v_x3|]. split; [reflexivity|]. split; [reflexivity|]. eexists. split; reflexivity. Qed.

(** C28. *)
Theorem C28_vdot {T} {RO : RingOps T} {L : RingLaws T} {m : Mode} {H : HashOrder}
  (k : kind) sg A (x y : store k T) : declared sg A -> valid A x -> valid A y ->
  (exists v, mv_vdot A x y = Ok v) /\
  mv_vdot A x y = (p <- mv_mul A x y ;; mv_scalar_part p) /\
  mv_vsdot x y = Ok (sumI (a_dim A) (fun i => rmul (rd x i) (rd y i))).
Proof. exact (fun D => vdot_thm k sg A D x y). Qed.
Print Assumptions C28_vdot.
Example C28_vdot_ex := C28_vdot KSparse sg_e3 (alg sg_e3) xs ys d_e3 v_xs v_ys.

Theorem C28_mag2 {T} {RO : RingOps T} {L : RingLaws T} {m : Mode} {H : HashOrder}
  (k : kind) sg A (x : store k T) : declared sg A -> valid A x ->
  (exists v, mv_mag2 A x = Ok v) /\
  mv_mag2 A x = (r <- mv_rev A x ;; p <- mv_mul A r x ;; mv_scalar_part p).
Proof. exact (fun D => mag2_thm k sg A D x). Qed.
Print Assumptions C28_mag2.
Example C28_mag2_ex := C28_mag2 KSparse sg_e3 (alg sg_e3) ys d_e3 v_ys.

Theorem C28_cmag2 {T} {RO : RingOps T} {L : RingLaws T} {CJ : ConjOps T} {m : Mode} {H : HashOrder}
  (k : kind) sg A (x : store k T) : declared sg A -> rconj (T := T) r0 = r0 -> valid A x ->
  (exists v, mv_cmag2 A x = Ok v) /\
  mv_cmag2 A x = (r <- mv_revc A x ;; p <- mv_mul A r x ;; mv_scalar_part p).
Proof. exact (fun D => cmag2_thm k sg A D x). Qed.
Print Assumptions C28_cmag2.

Example C28_ex : valid (alg sg_e3) x3 /\ valid (alg sg_e3) y3 /\ mv_vdot (alg sg_e3) x3 y3 = Ok (-5)%Z /\
  mv_mag2 (alg sg_e3) x3 = Ok 88%Z /\ mv_vsdot x3 y3 = Ok 9%Z /\ mv_mag2 (alg sg_pga) x3 = Ok 14%Z.
Proof. split; [exact v_x3|]. split; [exact v_y3|]. repeat split; reflexivity. Qed.

(** C29. The documentation says the magnitude of s.revm()*s is one: false for s = 1 + e0
    in Cl(1), where mag2 of that product is 2. *)
Theorem C29_revm_magnitude_refuted : exists (s : store KDense Qc) n n',
  declared [Tplus] (alg [Tplus]) /\ valid (alg [Tplus]) s /\ mv_mag2 (alg [Tplus]) s = Ok n /\ n <> r0 /\
  (p <- (r <- mv_revm (alg [Tplus]) s ;; mv_mul (alg [Tplus]) r s) ;; mv_mag2 (alg [Tplus]) p) = Ok n' /\ n' <> r1.
Proof. exact revm_counterexample. Qed.
Print Assumptions C29_revm_magnitude_refuted.

(** What does hold: revm is rev divided by mag2, the scalar part of s.revm()*s is one ... *)
Theorem C29_revm_partial {T} {RO : RingOps T} {L : RingLaws T} {CL : CommLaws T} {DV : DivOps T} {F : FieldLaws T} {m : Mode} {H : HashOrder}
  (k : kind) sg A (x : store k T) n : declared sg A -> valid A x -> mv_mag2 A x = Ok n -> n <> r0 ->
  agree A (mv_revm A x) (r <- mv_rev A x ;; mv_divs A r n) /\
  (p <- (r <- mv_revm A x ;; mv_mul A r x) ;; mv_scalar_part p) = Ok r1.
Proof. exact (fun D => revm_thm k sg A D x n). Qed.
Print Assumptions C29_revm_partial.

Example C29_revm_partial_ex : let s : store KDense Qc := mkArr 2 [qc 1 1; qc 2 1; qc 0 1; qc 1 3] in
  valid (alg sg_11) s /\ mv_mag2 (alg sg_11) s = Ok (qc 44 9).
Proof. split; [vld|vm_compute; reflexivity]. Qed.

(** ... and for every product of vectors revm is the two-sided inverse. *)
Theorem C29_revm_inverts_versors {T} {RO : RingOps T} {L : RingLaws T} {CL : CommLaws T} {DV : DivOps T} {F : FieldLaws T} {m : Mode} {H : HashOrder}
  (k : kind) sg A (vs : list (store k T)) s n : declared sg A -> supports k A -> Forall (valid A) vs -> Forall (of_grade A 1) vs ->
  prod_list (mv_mul A) A vs = Ok s -> mv_mag2 A s = Ok n -> n <> r0 ->
  agree A (r <- mv_revm A s ;; mv_mul A r s) (mv_one A) /\ agree A (r <- mv_revm A s ;; mv_mul A s r) (mv_one A).
Proof. exact (fun D => revm_versor_thm k sg A D vs s n). Qed.
Print Assumptions C29_revm_inverts_versors.

Example C29_revm_inverts_versors_ex : let v : store KDense Qc := mkArr 2 [qc 0 1; qc 2 1; qc 1 1; qc 0 1] in
  let w : store KDense Qc := mkArr 2 [qc 0 1; qc 1 1; qc 3 1; qc 0 1] in
  exists s, prod_list (mv_mul (alg sg_11)) (alg sg_11) [v; w] = Ok s /\ mv_mag2 (alg sg_11) s = Ok (qc (-24) 1).
Proof. eexists. split; vm_compute; reflexivity. Qed.

Theorem C29_revcm_partial {T} {RO : RingOps T} {L : RingLaws T} {CL : CommLaws T} {DV : DivOps T} {F : FieldLaws T} {CJ : ConjOps T} {m : Mode} {H : HashOrder}
  (k : kind) sg A (x : store k T) n : declared sg A -> rconj (T := T) r0 = r0 -> valid A x -> mv_cmag2 A x = Ok n -> n <> r0 ->
  agree A (mv_revcm A x) (r <- mv_revc A x ;; mv_divs A r n) /\
  (p <- (r <- mv_revcm A x ;; mv_mul A r x) ;; mv_scalar_part p) = Ok r1.
Proof. exact (fun D => revcm_thm k sg A D x n). Qed.
Print Assumptions C29_revcm_partial.
Example C29_revcm_partial_ex : let s : store KDense Qc := mkArr 2 [qc 1 1; qc 2 1; qc 0 1; qc 1 3] in let CJ : ConjOps Qc := {| rconj := fun c => c |} in
  (p <- (r <- mv_revcm (alg sg_11) s ;; mv_mul (alg sg_11) r s) ;; mv_scalar_part p) = Ok r1.
Proof. cbv zeta. apply (C29_revcm_partial (CJ := {| rconj := fun c : Qc => c |}) KDense sg_11 (alg sg_11) _ (qc 44 9) d_11 eq_refl); [vld|vm_compute; reflexivity|discriminate]. Qed.

(** C30. *)
Theorem C30_pow {T} {RO : RingOps T} {L : RingLaws T} {m : Mode} {H : HashOrder}
  (k : kind) sg A (x : store k T) a b : declared sg A -> valid A x ->
  agree A (mv_pow A x a) (times A x a) /\
  agree A (mv_pow A x (a + b)) (u <- mv_pow A x a ;; v <- mv_pow A x b ;; mv_mul A u v).
Proof. exact (fun D => pow_thm k sg A D x a b). Qed.
Print Assumptions C30_pow.

Example C30_pow_ex : valid (alg sg_q) xq /\ mv_pow (alg sg_q) xq 0 = Ok (mkQ 1 0 0 0 : store KQuat Z)%Z /\
  mv_pow (alg sg_q) xq 3 = times (alg sg_q) xq 3.
Proof. split; [reflexivity|]. split; vm_compute; reflexivity. Qed.

(** C31. The norm is the scalar part of y * conj(y). *)
Theorem C31_division {T} {RO : RingOps T} {L : RingLaws T} {CL : CommLaws T} {DV : DivOps T} {F : FieldLaws T} {m : Mode} {H : HashOrder}
  (k : kind) sg A (x y : store k T) n : declared sg A -> sg = [Tminus] \/ sg = [Tminus; Tminus] -> valid A x -> valid A y ->
  (r <- mv_rev A y ;; c <- mv_flip A r ;; p <- mv_mul A y c ;; mv_scalar_part p) = Ok n -> n <> r0 ->
  agree A (q <- mv_div A x y ;; mv_mul A q y) (Ok x) /\
  agree A (p <- mv_mul A x y ;; mv_div A p y) (Ok x) /\
  agree A (mv_div A y y) (mv_one A).
Proof. exact (fun D => div_api_thm k sg A D x y n). Qed.
Print Assumptions C31_division.
Example C31_division_ex0 : let y : store KQuat Qc := mkQ (qc 0 1) (qc 1 1) (qc 1 1) (qc 0 1) in agree (alg sg_q) (mv_div (alg sg_q) y y) (mv_one (alg sg_q)).
Proof.
  cbv zeta. apply (C31_division KQuat sg_q (alg sg_q) (mkQ (qc 1 1) (qc 2 1) (qc 0 1) (qc 1 3)) _ (qc 2 1) d_q (or_intror eq_refl) eq_refl eq_refl); [vm_compute; reflexivity|discriminate].
Qed.

(** Over a formally real field every y but zero. *)
Theorem C31_division_ring {T} {RO : RingOps T} {L : RingLaws T} {CL : CommLaws T} {DV : DivOps T} {F : FieldLaws T} {m : Mode} {H : HashOrder}
  (k : kind) sg A (x y : store k T) : declared sg A -> formally_real T -> sg = [Tminus] \/ sg = [Tminus; Tminus] ->
  valid A x -> valid A y -> mv_is_zero y = false ->
  agree A (q <- mv_div A x y ;; mv_mul A q y) (Ok x) /\
  agree A (p <- mv_mul A x y ;; mv_div A p y) (Ok x) /\
  agree A (mv_div A y y) (mv_one A).
Proof. exact (fun D => div_real_thm k sg A D x y). Qed.
Print Assumptions C31_division_ring.

Example C31_division_ex : let x : store KQuat Qc := mkQ (qc 1 1) (qc 2 1) (qc 0 1) (qc 1 3) in let y : store KQuat Qc := mkQ (qc 0 1) (qc 1 1) (qc 1 1) (qc 0 1) in
  valid (alg sg_q) x /\ valid (alg sg_q) y /\ mv_is_zero y = false /\
  (r <- mv_rev (alg sg_q) y ;; c <- mv_flip (alg sg_q) r ;; p <- mv_mul (alg sg_q) y c ;; mv_scalar_part p) = Ok (qc 2 1) /\
  exists q, mv_div (alg sg_q) x y = Ok q /\ mv_eqb q (mkQ (qc 1 1) (qc (-2) 3) (qc (-1) 3) (qc 1 1)) = true.
Proof. split; [reflexivity|]. split; [reflexivity|]. split; [vm_compute; reflexivity|]. split; [vm_compute; reflexivity|]. eexists. split; vm_compute; reflexivity. Qed.

(** C32. *)
Theorem C32_hamilton_relations {T} {RO : RingOps T} {L : RingLaws T} {m : Mode} {H : HashOrder} :
  let QA := QuaternionAlgebra in
  let i : store KQuat T := quat_i in let j : store KQuat T := quat_j in let k : store KQuat T := quat_k in
  let minus_one := (o <- mv_one QA ;; mv_neg QA o) in
  mv_mul QA i i = minus_one /\ mv_mul QA j j = minus_one /\ mv_mul QA k k = minus_one /\
  (ij <- mv_mul QA i j ;; mv_mul QA ij k) = minus_one /\
  mv_mul QA i j = Ok k /\ mv_mul QA j k = Ok i /\ mv_mul QA k i = Ok j /\
  mv_basis QA = Ok [i; j].
Proof. exact quat_relations_thm. Qed.
Print Assumptions C32_hamilton_relations.

(** The product in the basis 1, i, j, k is Hamilton's, also over non-commutative T. *)
Theorem C32_hamilton_product {T} {RO : RingOps T} {L : RingLaws T} {m : Mode} {H : HashOrder} (w x y z w' x' y' z' : T) :
  mv_mul (S := store KQuat T) QuaternionAlgebra (mkQ w x y (- z)%rg) (mkQ w' x' y' (- z')%rg) =
  Ok (mkQ (w * w' - x * x' - y * y' - z * z')%rg
          (w * x' + x * w' + y * z' - z * y')%rg
          (w * y' - x * z' + y * w' + z * x')%rg
          (- (w * z' + x * y' - y * x' + z * w'))%rg).
Proof. exact (quat_mul_thm w x y z w' x' y' z'). Qed.
Print Assumptions C32_hamilton_product.
(** (1 + 2i + 3j + 4k)(2 - j + 5k) *)
Example C32_hamilton_product_ex := C32_hamilton_product (T := Z) 1%Z 2%Z 3%Z 4%Z 2%Z 0%Z (-1)%Z 5%Z.

Theorem C32_conj {T} {RO : RingOps T} {W : NumLaws T} {m : Mode} {H : HashOrder} (q : store KQuat T) :
  (r <- mv_rev QuaternionAlgebra q ;; mv_flip QuaternionAlgebra r) = Ok (quat_conj q).
Proof. exact (quat_conj_thm q). Qed.
Print Assumptions C32_conj.

Theorem C32_norm {T} {RO : RingOps T} {L : RingLaws T} {CL : CommLaws T} {m : Mode} {H : HashOrder} (q : store KQuat T) n :
  n = (q_0 q * q_0 q + q_1 q * q_1 q + q_2 q * q_2 q + q_3 q * q_3 q)%rg ->
  mv_mul QuaternionAlgebra q (quat_conj q) = Ok (mkQ n r0 r0 r0) /\
  mv_mul (S := store KQuat T) QuaternionAlgebra (quat_conj q) q = Ok (mkQ n r0 r0 r0).
Proof. exact (quat_norm_thm q n). Qed.
Print Assumptions C32_norm.
Example C32_norm_ex := C32_norm (T := Z) xq 30%Z eq_refl.

(** Any program over the API gives the same coefficients with quaternion storage as with
    dense storage of the same algebra. *)
Theorem C32_same_as_dense {T} {RO : RingOps T} {L : RingLaws T} {DV : DivOps T} {CJ : ConjOps T} {m : Mode} {H : HashOrder} (x y : store KQuat T) :
  let QA := QuaternionAlgebra in
  same QA (mv_mul QA x y) (u <- mv_to_storage QA x ;; v <- mv_to_storage QA y ;; mv_mul QA u v : res (store KDense T)) /\
  declared [Tminus; Tminus] QA.
Proof. exact (quat_dense_thm x y). Qed.
Print Assumptions C32_same_as_dense.

Example C32_ex : mv_mul QuaternionAlgebra xq (quat_conj xq) = Ok (mkQ 30 0 0 0)%Z /\ mv_mul QuaternionAlgebra xq yq = Ok (mkQ (-15) (-15) 15 15 : store KQuat Z)%Z.
Proof. split; reflexivity. Qed.
