(** Properties C07 - C15, C52 and C56: stores, constructors, linear operations.
    Every theorem holds for every build mode [m], every hash order [H] and every
    coefficient ring [T]; [k] ranges over the dense, sparse and quaternion storages.
    Theorems that ask for [NumLaws] only also hold for floats (see Props_Float.v). *)
From Verif Require Import Ex P_Agree.
Local Open Scope nat_scope.

(** C07. Reads in range never panic; after a write in range the written coefficient is
    v and every other read is unchanged; a write out of range changes nothing. *)
Theorem C07_read_after_write {T} {RO : RingOps T} {W : NumLaws T} {m : Mode} {H : HashOrder}
  (k : kind) A (x : store k T) i v : valid A x ->
  (forall j, (j < 2 ^ N.of_nat (a_dim A))%N -> exists c, mv_get_by_idx x j = Ok c) /\
  valid A (mv_set_by_idx x i v) /\
  ((i < 2 ^ N.of_nat (a_dim A))%N -> mv_get_by_idx (mv_set_by_idx x i v) i = Ok v) /\
  (forall j, j <> i -> mv_get_by_idx (mv_set_by_idx x i v) j = mv_get_by_idx x j) /\
  ((2 ^ N.of_nat (a_dim A) <= i)%N -> mv_set_by_idx x i v = x).
Proof. exact (set_get_thm k A x i v). Qed.
Print Assumptions C07_read_after_write.

Example C07_read_after_write_ex : valid (alg sg_e3) xs /\
  mv_get_by_idx (mv_set_by_idx xs 6 9%Z) 6 = Ok 9%Z /\ mv_get_by_idx (mv_set_by_idx xs 6 9%Z) 5 = Ok 2%Z /\
  mv_get_by_idx (mv_set_by_idx xs 5 0%Z) 5 = Ok 0%Z /\ mv_set_by_idx x3 8 9%Z = x3.
Proof. split; [exact v_xs|]. repeat split; reflexivity. Qed.

(** A fresh multivector reads zero everywhere. *)
Theorem C07_fresh_is_zero {T} {RO : RingOps T} {W : NumLaws T} {m : Mode} {H : HashOrder}
  (k : kind) sg A : declared sg A -> supports k A ->
  exists z : store k T, mv_default A = Ok z /\ valid A z /\
    forall i, (i < 2 ^ N.of_nat (a_dim A))%N -> mv_get_by_idx z i = Ok r0.
Proof. exact (fresh_thm k sg A). Qed.
Print Assumptions C07_fresh_is_zero.

Example C07_fresh_is_zero_ex : declared sg_e3 (alg sg_e3) /\ supports KSparse (alg sg_e3) /\ supports KQuat (alg sg_q).
Proof. split; [exact d_e3|]. split; [exact I|reflexivity]. Qed.

(** C08. The full claim "every out-of-range read returns zero" is false: on every valid
    dense multivector the read just past the end panics. *)
Theorem C08_read_past_end_refuted {T} {RO : RingOps T} {W : NumLaws T} {m : Mode} {H : HashOrder}
  A (x : store KDense T) : valid A x ->
  exists i, (2 ^ N.of_nat (a_dim A) <= i)%N /\ mv_get_by_idx x i = Panic.
Proof. exact (past_end A x). Qed.
Print Assumptions C08_read_past_end_refuted.

Example C08_read_past_end_refuted_ex : valid (alg sg_e3) x3 /\ mv_get_by_idx x3 8 = Panic /\ mv_get_by_idx x3 9 = Ok 0%Z.
Proof. split; [exact v_x3|]. split; reflexivity. Qed.

(** What does hold: zero for every other out-of-range index, on every storage. *)
Theorem C08_out_of_range_reads_partial {T} {RO : RingOps T} {W : NumLaws T} {m : Mode} {H : HashOrder}
  (k : kind) A (x : store k T) i : valid A x -> (2 ^ N.of_nat (a_dim A) <= i)%N ->
  mv_get_by_idx x i =
    match k with KDense => if (i =? 2 ^ N.of_nat (a_dim A))%N then Panic else Ok r0 | _ => Ok r0 end.
Proof. exact (get_out_thm k A x i). Qed.
Print Assumptions C08_out_of_range_reads_partial.

Example C08_out_of_range_reads_partial_ex : mv_get_by_idx xs 8 = Ok 0%Z /\ mv_get_by_idx xq 4 = Ok 0%Z /\ mv_get_by_idx x3 100 = Ok 0%Z.
Proof. repeat split; reflexivity. Qed.

(** C09. [==] holds exactly when all reads agree. *)
Theorem C09_equality {T} {RO : RingOps T} {L : RingLaws T} {m : Mode} {H : HashOrder}
  (k : kind) A (x y : store k T) : valid A x -> valid A y ->
  (mv_eqb x y = true <-> forall i, (i < 2 ^ N.of_nat (a_dim A))%N -> mv_get_by_idx x i = mv_get_by_idx y i).
Proof. exact (eq_thm k A x y). Qed.
Print Assumptions C09_equality.

(** Two sparse multivectors with different entry orders and a stored zero. *)
Example C09_equality_ex :
  let a : store KSparse Z := mkSps 3 8 1 [(5%N, 2%Z); (1%N, 3%Z); (2%N, 0%Z)] in
  let b : store KSparse Z := mkSps 3 8 4 [(1%N, 3%Z); (5%N, 2%Z)] in
  valid (alg sg_e3) a /\ valid (alg sg_e3) b /\ mv_eqb a b = true /\ mv_eqb a ys = false.
Proof. split; [vlds|]. split; [vlds|]. split; reflexivity. Qed.

(** C10. Whatever finite history of API calls produced it, a sparse multivector lists
    only in-range non-zero entries, and coeff_count() is the number of non-zero
    coefficients.  (Predicates passed to filter do not modify the values.) *)
Theorem C10_sparse_invariant {T} {RO : RingOps T} {W : NumLaws T} {DV : DivOps T} {CJ : ConjOps T} {m : Mode} {H : HashOrder}
  sg A (e : expr T) (z : store KSparse T) : declared sg A -> eval KSparse A e = Ok z ->
  valid A z /\
  (forall i c, In (i, c) (mv_coeff_enumerate z) -> (i < 2 ^ N.of_nat (a_dim A))%N /\ c <> r0) /\
  sparse_coeff_count z = length (filter (fun i => negb (ris0 (rd z i))) (map N.of_nat (seq 0 (2 ^ a_dim A)))).
Proof. exact (fun D => sparse_hist A sg D e z). Qed.
Print Assumptions C10_sparse_invariant.

Example C10_sparse_invariant_ex :
  let e : expr Z := ESub (EMul (EVec [1; 2; 0]%Z) (EVec [1; 0; 3]%Z)) (EIdx [(3%N, (-2)%Z); (0%N, 1%Z); (5%N, 4%Z)]) in
  exists z, eval (DV := {| rdiv := Z.div |}) (CJ := {| rconj := fun c : Z => c |}) KSparse (alg sg_e3) e = Ok z /\
    sparse_coeff_count z = 3.
Proof. eexists. split; vm_compute; reflexivity. Qed.

(** A predicate that writes through its [&mut T] argument can store zeros. *)
Theorem C10_mutating_filter_refuted : exists (x : store KSparse Z) (f : N -> Z -> Z * bool),
  valid (alg sg_e3) x /\ (forall i c, In (i, c) (mv_coeff_enumerate x) -> c <> 0%Z) /\
  let z := sparse_filter_inplace x f in
  sparse_coeff_count z = 2 /\ (forall i, (i < 8)%N -> mv_get_by_idx (St := SpsStorage) z i = Ok 0%Z).
Proof. exact (ex_intro _ xs (ex_intro _ (fun _ _ => (0%Z, true)) (conj v_xs mutating_filter))). Qed.
Print Assumptions C10_mutating_filter_refuted.

(** C11. Conversions preserve every coefficient and round-trip ... *)
Theorem C11_convert {T} {RO : RingOps T} {L : RingLaws T} {m : Mode} {H : HashOrder}
  (k k' : kind) sg A (x : store k T) : declared sg A -> supports k' A -> valid A x ->
  exists z : store k' T, mv_to_storage A x = Ok z /\ valid A z /\
    (forall i, (i < 2 ^ N.of_nat (a_dim A))%N -> mv_get_by_idx z i = mv_get_by_idx x i) /\
    exists x' : store k T, mv_to_storage A z = Ok x' /\ valid A x' /\ mv_eqb x' x = true.
Proof. exact (convert_thm k k' sg A x). Qed.
Print Assumptions C11_convert.

Example C11_convert_ex : exists z : store KDense Z, mv_to_storage (alg sg_e3) xs = Ok z /\ arr_data z = [0; 3; 0; 0; 0; 2; 0; 0]%Z.
Proof. eexists. split; vm_compute; reflexivity. Qed.

(** ... and any program over the API has the same outcome on every storage that offers
    its operations. *)
Theorem C11_programs_agree {T} {RO : RingOps T} {L : RingLaws T} {DV : DivOps T} {CJ : ConjOps T} {m : Mode} {H : HashOrder}
  (k k' : kind) sg A (e : expr T) : declared sg A -> rconj (T := T) r0 = r0 ->
  supports k A -> supports k' A -> wt k A e -> wt k' A e ->
  same_outcome A (eval k A e) (eval k' A e).
Proof. exact (fun D C0 Hs Hs' Hw Hw' => prog_same A sg D C0 e k k' Hs Hs' Hw Hw' (or_intror L)). Qed.
Print Assumptions C11_programs_agree.

Example C11_programs_agree_ex :
  let e : expr Z := EMeet (EAdd (EVec [1; 2; 0]%Z) (EDual (EBasis 2))) (EFlip (EMul (EBasis 0) (EIdx [(6%N, 2%Z); (1%N, 5%Z)]))) in
  wt (DV := {| rdiv := Z.div |}) KDense (alg sg_e3) e /\ wt (DV := {| rdiv := Z.div |}) KSparse (alg sg_e3) e /\
  (z <- eval (DV := {| rdiv := Z.div |}) (CJ := {| rconj := fun c => c |}) KDense (alg sg_e3) e ;; mv_get_by_idx z 2) = Ok (-4)%Z /\
  (z <- eval (DV := {| rdiv := Z.div |}) (CJ := {| rconj := fun c => c |}) KSparse (alg sg_e3) e ;; mv_get_by_idx z 2) = Ok (-4)%Z.
Proof.
  cbn [wt]. split; [|split].
  - repeat split; try discriminate; apply Nat.ltb_lt; reflexivity.
  - repeat split; try discriminate; apply Nat.ltb_lt; reflexivity.
  - vm_compute. split; reflexivity.
Qed.

(** C12. *)
Theorem C12_coeff_enumerate {T} {RO : RingOps T} {W : NumLaws T} {m : Mode} {H : HashOrder}
  (k : kind) A (x : store k T) : valid A x ->
  NoDup (map fst (mv_coeff_enumerate x)) /\
  (forall i c, In (i, c) (mv_coeff_enumerate x) -> (i < 2 ^ N.of_nat (a_dim A))%N /\ mv_get_by_idx x i = Ok c) /\
  (forall i, (i < 2 ^ N.of_nat (a_dim A))%N -> ~ In i (map fst (mv_coeff_enumerate x)) -> mv_get_by_idx x i = Ok r0).
Proof. exact (enum_thm k A x). Qed.
Print Assumptions C12_coeff_enumerate.

Example C12_coeff_enumerate_ex : valid (alg sg_e3) x3 /\
  mv_coeff_enumerate x3 = [(0%N, 1%Z); (1%N, 2%Z); (3%N, (-3)%Z); (5%N, 5%Z); (7%N, 7%Z)].
Proof. split; [exact v_x3|reflexivity]. Qed.

Theorem C12_grade_enumerate {T} {RO : RingOps T} {W : NumLaws T} {m : Mode} {H : HashOrder}
  (k : kind) A (x : store k T) g : valid A x ->
  exists l, mv_grade_enumerate x g = Ok l /\ NoDup (map fst l) /\
  (forall i c, In (i, c) l -> (i < 2 ^ N.of_nat (a_dim A))%N /\ length (gens (a_dim A) i) = g /\ mv_get_by_idx x i = Ok c) /\
  (forall i, (i < 2 ^ N.of_nat (a_dim A))%N -> length (gens (a_dim A) i) = g -> ~ In i (map fst l) -> mv_get_by_idx x i = Ok r0).
Proof. exact (grade_enum_thm k A x g). Qed.
Print Assumptions C12_grade_enumerate.

Example C12_grade_enumerate_ex : valid (alg sg_e3) x3 /\ mv_grade_enumerate x3 2 = Ok [(6%N, 0%Z); (5%N, 5%Z); (3%N, (-3)%Z)] /\
  mv_grade_enumerate xs 2 = Ok [(5%N, 2%Z)].
Proof. split; [exact v_x3|]. split; reflexivity. Qed.

(** C13. *)
Theorem C13_from_vector {T} {RO : RingOps T} {W : NumLaws T} {m : Mode} {H : HashOrder}
  (k : kind) sg A (cs : list T) : declared sg A -> supports k A ->
  (length cs = a_dim A -> exists z : store k T, mv_from_vector A cs = Ok z /\ valid A z /\
     (forall n, n < a_dim A -> mv_get_by_idx z (2 ^ N.of_nat n) = Ok (nth n cs r0)) /\
     (forall i, (i < 2 ^ N.of_nat (a_dim A))%N -> length (gens (a_dim A) i) <> 1 -> mv_get_by_idx z i = Ok r0) /\
     mv_extract_vector A z = Ok cs) /\
  (length cs <> a_dim A -> mv_from_vector A cs = Err InvalidShape (A := store k T)).
Proof. exact (from_vector_thm k sg A cs). Qed.
Print Assumptions C13_from_vector.

Example C13_from_vector_ex :
  (z <- mv_from_vector (S := store KDense Z) (alg sg_e3) [4; 5; 6]%Z ;; mv_extract_vector (alg sg_e3) z) = Ok [4; 5; 6]%Z /\
  mv_from_vector (S := store KSparse Z) (alg sg_e3) [4; 5]%Z = Err InvalidShape /\
  mv_from_vector (S := store KSparse Z) (alg sg_e3) [4; 5; 6; 7]%Z = Err InvalidShape.
Proof. repeat split; reflexivity. Qed.

(** extract_vector lists the grade-1 coefficients of any multivector. *)
Theorem C13_extract_vector {T} {RO : RingOps T} {W : NumLaws T} {m : Mode} {H : HashOrder}
  (k : kind) sg A (x : store k T) : declared sg A -> valid A x ->
  mv_extract_vector A x = Ok (map (fun n => rd x (2 ^ N.of_nat n)) (seq 0 (a_dim A))).
Proof. exact (extract_thm k sg A x). Qed.
Print Assumptions C13_extract_vector.

Example C13_extract_vector_ex : declared sg_e3 (alg sg_e3) /\ mv_extract_vector (alg sg_e3) y3 = Ok [1; 1; -2]%Z.
Proof. split; [exact d_e3|reflexivity]. Qed.

(** C14. *)
Theorem C14_from_indexed_iter {T} {RO : RingOps T} {W : NumLaws T} {m : Mode} {H : HashOrder}
  (k : kind) sg A (l : list (N * T)) : declared sg A -> supports k A ->
  ((exists i c, In (i, c) l /\ (2 ^ N.of_nat (a_dim A) <= i)%N) ->
     mv_from_indexed_iter A l = Err IndexOutOfBounds (A := store k T)) /\
  ((forall i c, In (i, c) l -> (i < 2 ^ N.of_nat (a_dim A))%N) ->
     gives (S := store k T) A (mv_from_indexed_iter A l) (last_write l)).
Proof. exact (from_indexed_thm k sg A l). Qed.
Print Assumptions C14_from_indexed_iter.

Example C14_from_indexed_iter_ex :
  (z <- mv_from_indexed_iter (S := store KSparse Z) (alg sg_e3) [(3%N, 1%Z); (5%N, 2%Z); (3%N, 7%Z); (5%N, 0%Z)] ;;
     a <- mv_get_by_idx z 3 ;; b <- mv_get_by_idx z 5 ;; Ok (a, b)) = Ok (7, 0)%Z /\
  mv_from_indexed_iter (S := store KDense Z) (alg sg_e3) [(3%N, 1%Z); (8%N, 2%Z)] = Err IndexOutOfBounds.
Proof. split; reflexivity. Qed.

(** C15. *)
Theorem C15_linear {T} {RO : RingOps T} {L : RingLaws T} {DV : DivOps T} {m : Mode} {H : HashOrder}
  (k : kind) sg A (x y : store k T) (t : T) : declared sg A -> valid A x -> valid A y ->
  gives A (mv_add x y) (fun i => radd (rd x i) (rd y i)) /\
  gives A (mv_sub x y) (fun i => rsub (rd x i) (rd y i)) /\
  gives A (mv_neg A x) (fun i => rneg (rd x i)) /\
  gives A (mv_scale A x t) (fun i => rmul (rd x i) t) /\
  (rdiv r0 t = r0 -> gives A (mv_divs A x t) (fun i => rdiv (rd x i) t)).
Proof.
  exact (fun D Hx Hy => conj (g_add A x y Hx Hy) (conj (g_sub A x y Hx Hy) (conj (g_neg A sg D x Hx)
    (conj (g_scale A x t Hx) (g_divs A x t Hx))))).
Qed.
Print Assumptions C15_linear.

Example C15_linear_ex : valid (alg sg_e3) xs /\ valid (alg sg_e3) ys /\
  (z <- mv_sub xs ys ;; mv_get_by_idx z 0) = Ok 4%Z /\ (z <- mv_scale (alg sg_e3) x3 3%Z ;; mv_get_by_idx z 3) = Ok (-9)%Z.
Proof. split; [exact v_xs|]. split; [exact v_ys|]. split; reflexivity. Qed.

Theorem C15_abelian_group {T} {RO : RingOps T} {L : RingLaws T} {m : Mode} {H : HashOrder}
  (k : kind) sg A (x y z : store k T) : declared sg A -> valid A x -> valid A y -> valid A z ->
  agree A (mv_add x y) (mv_add y x) /\
  agree A (u <- mv_add x y ;; mv_add u z) (v <- mv_add y z ;; mv_add x v) /\
  agree A (o <- mv_zero A ;; mv_add x o) (Ok x) /\
  agree A (n <- mv_neg A x ;; mv_add x n) (mv_zero A) /\
  agree A (mv_sub x y) (n <- mv_neg A y ;; mv_add x n) /\
  agree A (n <- mv_neg A x ;; mv_neg A n) (Ok x).
Proof. exact (fun D => add_laws k sg A D x y z). Qed.
Print Assumptions C15_abelian_group.

Example C15_abelian_group_ex : valid (alg sg_e3) x3 /\ valid (alg sg_e3) y3 /\ exists z, mv_add x3 y3 = Ok z /\ mv_add y3 x3 = Ok z.
Proof. split; [exact v_x3|]. split; [exact v_y3|]. eexists. split; reflexivity. Qed.

(** C56. *)
Theorem C56_is_zero {T} {RO : RingOps T} {W : NumLaws T} {m : Mode} {H : HashOrder}
  (k : kind) A (x : store k T) : valid A x ->
  (mv_is_zero x = true <-> forall i, (i < 2 ^ N.of_nat (a_dim A))%N -> mv_get_by_idx x i = Ok r0).
Proof. exact (is_zero_thm k A x). Qed.
Print Assumptions C56_is_zero.

Example C56_is_zero_ex : mv_is_zero x3 = false /\ mv_is_zero (mkQ 0 0 0 0 : store KQuat Z)%Z = true.
Proof. split; reflexivity. Qed.

(** approx_eq, on every storage, for a precision that zero passes. *)
Theorem C56_approx_eq {T R} {RO : RingOps T} {W : NumLaws T} {NL : NormLt T R} {m : Mode} {H : HashOrder}
  (k : kind) A (x y : store k T) (e : R) : valid A x -> valid A y -> norm_lt r0 e = true ->
  exists b, mv_approx_eq x y e = Ok b /\
   (b = true <-> forall i, (i < 2 ^ N.of_nat (a_dim A))%N -> norm_lt (rsub (rd x i) (rd y i)) e = true).
Proof. exact (approx_thm k A x y e). Qed.
Print Assumptions C56_approx_eq.

Example C56_approx_eq_ex : let NL : NormLt Z Z := {| norm_lt := fun c e => (Z.abs c <? e)%Z |} in
  norm_lt 0%Z 3%Z = true /\ mv_approx_eq xq yq 8%Z = Ok true /\ mv_approx_eq xq yq 3%Z = Ok false.
Proof. repeat split; reflexivity. Qed.

(** With precision 0 (no norm is below it) the storages disagree. *)
Theorem C56_precision_zero_differs : exists (x : store KDense Z) (y : store KQuat Z),
  let NL : NormLt Z Z := {| norm_lt := fun c e => (Z.abs c <? e)%Z |} in
  valid (alg sg_q) x /\ valid (alg sg_q) y /\
  (forall i, (i < 4)%N -> mv_get_by_idx x i = mv_get_by_idx y i) /\
  mv_approx_eq x x 0%Z = Ok true /\ mv_approx_eq y y 0%Z = Ok false.
Proof. exact (ex_intro _ (mkArr 2 [1; 2; 3; 4]%Z) (ex_intro _ xq approx_zero_prec)). Qed.
Print Assumptions C56_precision_zero_differs.
