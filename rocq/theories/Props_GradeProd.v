(** C81: the grades of a product. *)
From Coq Require Import List.
Import ListNotations.
From Verif Require Import P_GradeProd Ex.
Local Open Scope nat_scope.

(** The product of a grade r by a grade s multivector has only the grades r + s - 2t with t at
    most r, at most s and at least r + s - d: from |r - s| to min(r + s, 2 d - r - s) in steps of two. *)
Theorem C81_grades {T} {RO : RingOps T} {L : RingLaws T} {m : Mode} {H : HashOrder}
  (k : kind) sg A (x y : store k T) r s : declared sg A -> valid A x -> valid A y -> of_grade A r x -> of_grade A s y ->
  exists z, mv_mul A x y = Ok z /\ valid A z /\
  forall i, (i < 2 ^ N.of_nat (a_dim A))%N -> (forall t, t <= r -> t <= s -> r + s <= a_dim A + t -> popcount i + 2 * t <> r + s) -> rd z i = r0.
Proof. exact (fun D => c81_grades k sg A D x y r s). Qed.
Print Assumptions C81_grades.
Example C81_grades_ex : let x : store KDense Z := mkArr 3 [0; 0; 0; 2; 0; 1; 3; 0]%Z in let y : store KDense Z := mkArr 3 [0; 5; 1; 0; 4; 0; 0; 0]%Z in
  of_grade (alg sg_e3) 2 x /\ of_grade (alg sg_e3) 1 y /\ mv_mul (alg sg_e3) x y = Ok (mkArr 3 [0; -6; -2; 0; 8; 0; 0; 22]%Z).
Proof.
  cbv zeta. split; [|split; [|reflexivity]].
  all: intros i Hi Hp; change (i < 8)%N in Hi;
    assert (E : i = 0%N \/ i = 1%N \/ i = 2%N \/ i = 3%N \/ i = 4%N \/ i = 5%N \/ i = 6%N \/ i = 7%N) by lia;
    destruct E as [-> | [-> | [-> | [-> | [-> | [-> | [-> | -> ]]]]]]]; try reflexivity; exfalso; apply Hp; reflexivity.
Qed.

(** The product of two vectors is its scalar part plus the wedge. *)
Theorem C81_vectors {T} {RO : RingOps T} {L : RingLaws T} {m : Mode} {H : HashOrder}
  (k : kind) sg A (v w : store k T) : declared sg A -> k <> KQuat -> valid A v -> valid A w -> of_grade A 1 v -> of_grade A 1 w ->
  agree A (mv_mul A v w) (p <- mv_mul A v w ;; s <- mv_grade_extract A p 0 ;; b <- k_wedge k A v w ;; mv_add s b).
Proof. exact (fun D => c81_vectors k sg A D v w). Qed.
Print Assumptions C81_vectors.
Example C81_vectors_ex : let v : store KDense Z := mkArr 2 [0; 2; 5; 0]%Z in let w : store KDense Z := mkArr 2 [0; 1; -1; 0]%Z in
  agree (alg sg_11) (mv_mul (alg sg_11) v w) (p <- mv_mul (alg sg_11) v w ;; s <- mv_grade_extract (alg sg_11) p 0 ;; b <- k_wedge KDense (alg sg_11) v w ;; mv_add s b) /\
  mv_mul (alg sg_11) v w = Ok (mkArr 2 [7; 0; 0; 7]%Z).
Proof.
  cbv zeta. split; [|reflexivity]. apply (C81_vectors KDense sg_11 (alg sg_11)); [exact d_11|discriminate|vld|vld| |].
  all: intros i Hi Hp; change (i < 4)%N in Hi; assert (E : i = 0%N \/ i = 1%N \/ i = 2%N \/ i = 3%N) by lia;
    destruct E as [-> | [-> | [-> | -> ]]]; try reflexivity; exfalso; apply Hp; reflexivity.
Qed.
