(** Property C90: integers are exact in floating point. *)
From Coq Require Import List ZArith QArith.
Import ListNotations.
From Verif Require Import Ex_IntProg.
Local Open Scope nat_scope.

(** C90. [f64] holds every integer up to 2^53 (f32: up to 2^24), negates and compares them
    exactly, and adds, subtracts and multiplies them exactly whenever the result is in that
    range again. *)
Theorem C90_f64 (a b : Z) : (Z.abs a <= 2 ^ 53)%Z -> (Z.abs b <= 2 ^ 53)%Z ->
  let O := F64 in let f := flt_of_Z 53 1024 in
  flt_val (f a) = Q2Qc (inject_Z a) /\ @rneg flt O (f a) = f (- a)%Z /\ @reqb flt O (f a) (f b) = (a =? b)%Z /\
  ((Z.abs (a + b) <= 2 ^ 53)%Z -> @radd flt O (f a) (f b) = f (a + b)%Z) /\
  ((Z.abs (a - b) <= 2 ^ 53)%Z -> @rsub flt O (f a) (f b) = f (a - b)%Z) /\
  ((Z.abs (a * b) <= 2 ^ 53)%Z -> @rmul flt O (f a) (f b) = f (a * b)%Z).
Proof. exact (ints_exact 53 1024 (conj eq_refl eq_refl) a b). Qed.
Print Assumptions C90_f64.
Theorem C90_f32 (a b : Z) : (Z.abs a <= 2 ^ 24)%Z -> (Z.abs b <= 2 ^ 24)%Z ->
  let O := F32 in let f := flt_of_Z 24 128 in
  flt_val (f a) = Q2Qc (inject_Z a) /\ @rneg flt O (f a) = f (- a)%Z /\ @reqb flt O (f a) (f b) = (a =? b)%Z /\
  ((Z.abs (a + b) <= 2 ^ 24)%Z -> @radd flt O (f a) (f b) = f (a + b)%Z) /\
  ((Z.abs (a - b) <= 2 ^ 24)%Z -> @rsub flt O (f a) (f b) = f (a - b)%Z) /\
  ((Z.abs (a * b) <= 2 ^ 24)%Z -> @rmul flt O (f a) (f b) = f (a * b)%Z).
Proof. exact (ints_exact 24 128 (conj eq_refl eq_refl) a b). Qed.
Print Assumptions C90_f32.

(** 94906265 squared is just below 2^53; 2^53 + 1 is not a float, nor is 2^24 + 1 in single precision. *)
Example C90_ints_ex :
  (Z.abs (94906265 * 94906265) <= 2 ^ 53)%Z /\ rmul (fz 94906265) (fz 94906265) = fz 9007199136250225 /\
  radd (fz (2 ^ 53 - 1)) (fz 1) = fz (2 ^ 53) /\
  radd (fz (2 ^ 53)) (fz 1) = fz (2 ^ 53) /\ rmul (fz 94906267) (fz 94906267) <> fz (2 ^ 53 + 515794297) /\
  @radd flt F32 (fz32 (2 ^ 24)) (fz32 1) = fz32 (2 ^ 24) /\ @reqb flt F32 (fz32 (2 ^ 24)) (fz32 (2 ^ 24 + 1)) = true.
Proof. split; [vm_compute; discriminate|]. vm_compute. repeat split; try reflexivity. discriminate. Qed.

(** C90. A program (see [small] for what it may contain) on numbers of an exact ring R, written in
    an arithmetic F that computes on them as R does up to some size, gives exactly the result over R -
    or fails with the same error - as long as the numbers it meets stay of that size. *)
Theorem C90_programs {R F} {RR : RingOps R} {LR : RingLaws R} {DR : DivOps R} {CR : ConjOps R}
  {RF : RingOps F} {DF : DivOps F} {CF : ConjOps F} {W : NumLaws F} {EM : Emb R F} {EL : EmbLaws R F} {m : Mode} {H : HashOrder}
  (k : kind) sg A (e : expr R) : declared sg A -> supports k A -> offers k A e -> small k A e ->
  same_number A (eval k A (emap e)) (eval k A e).
Proof. exact (fun D => prog_exact sg A D k e). Qed.
Print Assumptions C90_programs.
(** Integers in double and single precision, Gaussian integers as Complex<f64>, meet the hypotheses. *)
Theorem C90_embeddings :
  @EmbLaws Z flt ZOps real_conj F64 real_conj (int_emb 53 1024) /\
  @EmbLaws Z flt ZOps real_conj F32 real_conj (int_emb 24 128) /\
  @EmbLaws (cplx Z) (cplx flt) CplxOps CplxConj (CplxOps (RO := F64)) (CplxConj (RO := F64)) (gauss_emb 53 1024).
Proof. exact (conj (int_laws 53 1024 eq_refl eq_refl) (conj (int_laws 24 128 eq_refl eq_refl) (gauss_laws 53 1024 eq_refl eq_refl))). Qed.
Print Assumptions C90_embeddings.
(** In particular for f64 coefficients. *)
Theorem C90_programs_f64 {m : Mode} {H : HashOrder} (k : kind) sg A (e : expr Z) :
  let _ := F64 in let _ := flt_laws 53 1024 in let _ := int_emb 53 1024 in let CZ : ConjOps Z := real_conj in let CF : ConjOps flt := real_conj in
  let DF := flt_div 53 1024 in let DZ : DivOps Z := {| rdiv := Z.div |} in
  declared sg A -> supports k A -> offers k A e -> small k A e ->
  same_number A (eval k A (emap e)) (eval k A e).
Proof. exact (fun D => prog_exact (RF := F64) (W := flt_laws 53 1024) (DF := flt_div 53 1024) (EL := int_laws 53 1024 eq_refl eq_refl) (DR := {| rdiv := Z.div |}) sg A D k e). Qed.
Print Assumptions C90_programs_f64.

(** ((3 + 2 e0)(5 e1 - 7))~ + 94906265 e0 ^ 94906264 e1, whose last coefficient is beyond 9*10^15 (blade 3 is e1 e0). *)
Example C90_programs_ex :
  let e : expr Z := (EAdd (ERev (EMul (EAdd (EScalar 3) (EVec [2; 0])) (ESub (EVec [0; 5]) (EScalar 7)))) (EWedge (EVec [94906265; 0]) (EVec [0; 94906264])))%Z in
  offers KDense (alg sg_q) e /\ small KDense (alg sg_q) e /\
  eval KDense (alg sg_q) (emap e) = Ok (mkArr 2 (map fz [-21; -14; 15; -9007199041343950]%Z)).
Proof. cbv zeta. split; [cbn [offers]; repeat split; discriminate|]. split; [small_all|]. vm_compute. reflexivity. Qed.

(** C90. Hence programs equal over R, in whatever storages, give equal coefficients in F. *)
Theorem C90_equal {R F} {RR : RingOps R} {LR : RingLaws R} {DR : DivOps R} {CR : ConjOps R}
  {RF : RingOps F} {DF : DivOps F} {CF : ConjOps F} {W : NumLaws F} {EM : Emb R F} {EL : EmbLaws R F} {m : Mode} {H : HashOrder}
  (k k' : kind) sg A (e e' : expr R) (z : store k F) (z' : store k' F) : declared sg A -> supports k A -> supports k' A ->
  offers k A e -> small k A e -> offers k' A e' -> small k' A e' ->
  (forall i, (i < 2 ^ N.of_nat (a_dim A))%N -> value k A e i = value k' A e' i) ->
  eval k A (emap e) = Ok z -> eval k' A (emap e') = Ok z' ->
  forall i, (i < 2 ^ N.of_nat (a_dim A))%N -> rd z i = rd z' i /\ reqb (rd z i) (rd z' i) = true.
Proof. exact (fun D => progs_equal sg A D k k' e e' z z'). Qed.
Print Assumptions C90_equal.

(** (e0 + 2 e1)^2 in dense and 5 in sparse storage. *)
Example C90_equal_ex :
  let e : expr Z := (EMul (EVec [1; 2]) (EVec [1; 2]))%Z in let e' : expr Z := (EScalar 5)%Z in
  offers KDense (alg [P1; P1]) e /\ small KDense (alg [P1; P1]) e /\ offers KSparse (alg [P1; P1]) e' /\ small KSparse (alg [P1; P1]) e' /\
  (forall i, (i < 4)%N -> value KDense (alg [P1; P1]) e i = value KSparse (alg [P1; P1]) e' i).
Proof.
  cbv zeta. split; [cbn [offers]; auto|]. split; [small_all|]. split; [exact I|]. split; [small_all|].
  intros i Hi. destruct i as [|[p|[p|p|]|]]; try reflexivity; destruct p; try reflexivity; exfalso; vm_compute in Hi; try discriminate Hi; destruct p; discriminate Hi.
Qed.

(** C90. For coefficients of size up to B, the laws that rounding breaks hold in F: products
    associate if 4^d B^3 is at most the limit (2^53 for f64), and distribute if 2^(d+1) B^2 is. *)
Theorem C90_assoc {R F} {RR : RingOps R} {LR : RingLaws R} {CR : ConjOps R}
  {RF : RingOps F} {CF : ConjOps F} {W : NumLaws F} {EM : Emb R F} {EL : EmbLaws R F} {m : Mode} {H : HashOrder}
  (k : kind) sg A (x y z : store k F) (B : Z) : declared sg A -> valid A x -> valid A y -> valid A z ->
  holds_upto (R := R) A B x -> holds_upto (R := R) A B y -> holds_upto (R := R) A B z ->
  (1 <= B)%Z -> (2 ^ Z.of_nat (a_dim A) * 2 ^ Z.of_nat (a_dim A) * (B * B * B) <= top)%Z ->
  same_result (R := R) A (w <- mv_mul A x y ;; mv_mul A w z) (w <- mv_mul A y z ;; mv_mul A x w).
Proof. exact (fun D => int_assoc sg A D k x y z B). Qed.
Print Assumptions C90_assoc.
Theorem C90_distr {R F} {RR : RingOps R} {LR : RingLaws R} {CR : ConjOps R}
  {RF : RingOps F} {CF : ConjOps F} {W : NumLaws F} {EM : Emb R F} {EL : EmbLaws R F} {m : Mode} {H : HashOrder}
  (k : kind) sg A (x y z : store k F) (B : Z) : declared sg A -> valid A x -> valid A y -> valid A z ->
  holds_upto (R := R) A B x -> holds_upto (R := R) A B y -> holds_upto (R := R) A B z ->
  (1 <= B)%Z -> (2 * 2 ^ Z.of_nat (a_dim A) * (B * B) <= top)%Z ->
  same_result (R := R) A (w <- mv_add y z ;; mv_mul A x w) (u <- mv_mul A x y ;; v <- mv_mul A x z ;; mv_add u v) /\
  same_result (R := R) A (w <- mv_add y z ;; mv_mul A w x) (u <- mv_mul A y x ;; v <- mv_mul A z x ;; mv_add u v).
Proof. exact (fun D => int_distr sg A D k x y z B). Qed.
Print Assumptions C90_distr.

(** Three multivectors with integer coefficients up to 5000: 64 * 5000^3 is below 2^53. *)
Example C90_laws_ex :
  holds_upto (R := Z) (alg sg_e3) 5000 i_x /\ holds_upto (R := Z) (alg sg_e3) 5000 i_y /\ holds_upto (R := Z) (alg sg_e3) 5000 i_z /\
  (2 ^ 3 * 2 ^ 3 * (5000 * 5000 * 5000) <= 2 ^ 53)%Z /\
  (w <- mv_mul (alg sg_e3) i_x i_y ;; mv_mul (alg sg_e3) w i_z) = (w <- mv_mul (alg sg_e3) i_y i_z ;; mv_mul (alg sg_e3) i_x w) /\
  (w <- mv_mul (alg sg_e3) i_x i_y ;; mv_mul (alg sg_e3) w i_z) <> Ok i_x.
Proof.
  split; [exact h_ix|]. split; [exact h_iy|]. split; [exact h_iz|]. split; [vm_compute; discriminate|].
  split; [vm_compute; reflexivity|]. vm_compute. discriminate.
Qed.
